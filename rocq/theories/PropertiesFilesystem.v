(** * Parts of paths (C126) *)
From Coq Require Import String Ascii List Arith Bool Lia.
From Verif Require Import Base BaseFacts LoadMatrix StringUtilities PropertiesString Filesystem.
Import ListNotations.
Local Open Scope list_scope.

Lemma find_last_of_spec c s : match find_last_of c s with
  | Some i => exists a b, s = a ++ c :: b /\ length a = i /\ ~ In c b
  | None => ~ In c s end.
Proof.
  induction s as [|d t IH]; cbn [find_last_of]; [intros []|]. destruct (find_last_of c t) as [i|].
  - destruct IH as (a & b & -> & <- & H). exists (d :: a), b. auto.
  - destruct (Ascii.eqb_spec d c) as [->|N]; [exists [], t; auto|]. intros [E|H]; auto.
Qed.
Lemma find_last_of_app c a b : ~ In c b -> find_last_of c (a ++ c :: b) = Some (length a).
Proof.
  intro H. pose proof (find_last_of_spec c (a ++ c :: b)) as S. destruct (find_last_of c (a ++ c :: b)) as [i|]; [|exfalso; apply S; apply in_or_app; simpl; auto].
  destruct S as (a' & b' & E & <- & H'). f_equal. revert a' E. induction a as [|x a IH]; intros [|y a'] E; cbn [app length] in *; try reflexivity.
  - injection E as -> ->. exfalso. apply H. apply in_or_app. simpl. auto.
  - injection E as E1 E2. subst x. exfalso. apply H'. rewrite <- E2. apply in_or_app. simpl. auto.
  - injection E as E1 E2. f_equal. apply IH. exact E2.
Qed.
Lemma find_last_of_none c s : ~ In c s -> find_last_of c s = None.
Proof. intro H. pose proof (find_last_of_spec c s) as S. destruct (find_last_of c s); [|reflexivity]. destruct S as (a & b & -> & _). exfalso. apply H. apply in_or_app. simpl. auto. Qed.

Lemma skip_slashes_repeat n s : skip_slashes (repeat slash n ++ s) = skip_slashes s.
Proof. induction n as [|n IH]; cbn [repeat app skip_slashes]; [reflexivity|]. rewrite Ascii.eqb_refl. exact IH. Qed.
Lemma rev_repeat {A} (x : A) n : rev (repeat x n) = repeat x n.
Proof. induction n as [|n IH]; [reflexivity|]. cbn [repeat rev]. rewrite IH. symmetry. apply repeat_cons. Qed.

(** Specification: a directory is empty or ends with a slash *)
Definition directory (d : str) : Prop := d = [] \/ exists d', d = d' ++ [slash].

(** The last component, without the slashes at the end; every path that is not empty and does not only
    consist of slashes has this form. *)
Theorem C126_basename : 
  (forall dir name n, directory dir -> name <> [] -> ~ In slash name -> basename (dir ++ name ++ repeat slash n) = name) /\
  basename [] = [] /\ (forall n, 0 < n -> basename (repeat slash n) = [slash]) /\
  forall path, (exists n, path = repeat slash n) \/ exists dir name n, path = dir ++ name ++ repeat slash n /\ directory dir /\ name <> [] /\ ~ In slash name.
Proof.
  assert (E1 : forall name, name <> [] -> ~ In slash name -> forall dir n, rev (skip_slashes (rev (dir ++ name ++ repeat slash n))) = dir ++ name).
  { intros name Hne Hs dir n. rewrite !rev_app_distr, rev_repeat, <- app_assoc, skip_slashes_repeat. destruct (rev name) as [|c r] eqn:E; [exfalso; apply Hne; rewrite <- (rev_involutive name), E; reflexivity|].
    cbn [app skip_slashes]. destruct (Ascii.eqb_spec c slash) as [->|N]; [exfalso; apply Hs; apply in_rev; rewrite E; simpl; auto|]. change (c :: r ++ rev dir) with ((c :: r) ++ rev dir). rewrite <- E, <- rev_app_distr. apply rev_involutive. }
  refine (conj _ (conj eq_refl (conj _ _))).
  - intros dir name n Hd Hne Hs. unfold basename. rewrite (E1 name Hne Hs).
    assert (Hp : dir ++ name ++ repeat slash n <> []). { destruct dir; [|discriminate]. destruct name; [contradiction|discriminate]. }
    destruct (dir ++ name ++ repeat slash n) as [|c0 r0]; [contradiction|]. clear Hp.
    assert (Hq : dir ++ name <> []). { destruct dir; [|discriminate]. destruct name; [contradiction|discriminate]. }
    assert (G : after_slash (dir ++ name) = name).
    { unfold after_slash. destruct Hd as [->|(d' & ->)]; [cbn [app]; rewrite find_last_of_none by exact Hs; reflexivity|]. rewrite <- app_assoc. cbn [app]. rewrite find_last_of_app by exact Hs. clear. induction d' as [|x d' IH]; [reflexivity|exact IH]. }
    destruct (dir ++ name); [contradiction|exact G].
  - intros n Hn. unfold basename. rewrite rev_repeat. pose proof (skip_slashes_repeat n []) as E. rewrite app_nil_r in E. rewrite E. cbn [skip_slashes rev]. destruct n; [lia|reflexivity].
  - intro path. assert (S : exists a n, path = a ++ repeat slash n /\ (a = [] \/ exists a' c, a = a' ++ [c] /\ c <> slash)).
    { induction path as [|c path IH] using rev_ind; [exists [], 0; auto|]. destruct (Ascii.eqb_spec c slash) as [->|N].
      - destruct IH as (a & n & -> & H). exists a, (S n). rewrite <- app_assoc. rewrite <- repeat_cons. auto.
      - exists (path ++ [c]), 0. rewrite app_nil_r. split; [reflexivity|]. right. exists path, c. auto. }
    destruct S as (a & n & -> & [->|(a' & c & -> & N)]); [left; exists n; reflexivity|]. right.
    pose proof (find_last_of_spec slash a') as S. destruct (find_last_of slash a') as [i|].
    + destruct S as (x & y & -> & _ & H). exists (x ++ [slash]), (y ++ [c]), n. refine (conj _ (conj _ (conj _ _))).
      * rewrite <- !app_assoc. reflexivity.
      * right. exists x. reflexivity.
      * destruct y; discriminate.
      * intro X. apply in_app_or in X. destruct X as [X|[X|[]]]; [auto|congruence].
    + exists [], (a' ++ [c]), n. refine (conj eq_refl (conj (or_introl eq_refl) (conj _ _))); [destruct a'; discriminate|]. intro X. apply in_app_or in X. destruct X as [X|[X|[]]]; [auto|congruence].
Qed.

Lemma no_extension_spec f : no_extension f = true <-> ~ In dot f \/ f = chars "." \/ f = chars "..".
Proof.
  unfold no_extension. rewrite !orb_true_iff, !str_eqb_spec. pose proof (find_last_of_spec dot f) as S. destruct (find_last_of dot f) as [i|].
  - destruct S as (a & b & E & _). split; [intros [[H|H]|H]; [discriminate|auto|auto]|]. intros [H|[H|H]]; auto. exfalso. apply H. rewrite E. apply in_or_app. simpl. auto.
  - split; [intros _; auto|auto].
Qed.

(** Stem and extension are the parts of the last component before and after its last dot *)
Theorem C126_extension : forall path,
  stem path ++ extension path = basename path /\
  (forall a e, basename path = a ++ dot :: e -> ~ In dot e -> basename path <> chars "." -> basename path <> chars ".." -> stem path = a /\ extension path = dot :: e) /\
  (~ In dot (basename path) \/ basename path = chars "." \/ basename path = chars ".." -> stem path = basename path /\ extension path = []).
Proof.
  intro path. unfold stem, extension. set (f := basename path). pose proof (no_extension_spec f) as Hn. destruct (no_extension f).
  - rewrite app_nil_r. refine (conj eq_refl (conj _ (fun _ => conj eq_refl eq_refl))). intros a e E He N1 N2. exfalso. destruct (proj1 Hn eq_refl) as [H|[H|H]]; [|contradiction|contradiction]. apply H. rewrite E. apply in_or_app. simpl. auto.
  - pose proof (find_last_of_spec dot f) as S. destruct (find_last_of dot f) as [i|]; [|exfalso; assert (false = true) by (apply Hn; auto); discriminate].
    refine (conj (firstn_skipn i f) (conj _ _)); [|intro H; exfalso; assert (false = true) by (apply Hn; exact H); discriminate].
    intros a e E He _ _. destruct S as (a' & e' & E' & <- & He'). assert (EE : a' = a /\ e' = e).
    { rewrite E in E'. clear - E' He He'. revert a' E'. induction a as [|x a IH]; intros [|y a'] E; cbn [app] in E.
      - injection E as E1. auto.
      - injection E as E1 E2. exfalso. apply He. rewrite E2. apply in_or_app. simpl. auto.
      - injection E as E1 E2. exfalso. apply He'. rewrite <- E2. apply in_or_app. simpl. auto.
      - injection E as E1 E2. destruct (IH a' E2) as [-> ->]. subst. auto. }
    destruct EE as [-> ->]. rewrite E'. split; [rewrite firstn_app, Nat.sub_diag, firstn_all; apply app_nil_r|]. rewrite skipn_app, Nat.sub_diag, skipn_all. reflexivity.
Qed.

(** the path of the test of the project, a path with a slash at the end, and hidden files *)
Example C126_example : basename (chars "/the/path/to/hell/is/paved/with/good/queries.txt") = chars "queries.txt" /\
  stem (chars "/the/path/to/hell/is/paved/with/good/queries.txt") = chars "queries" /\
  extension (chars "/the/path/to/hell/is/paved/with/good/queries.txt") = chars ".txt" /\
  basename (chars "/usr/lib//") = chars "lib" /\ extension (chars "dir.d/file") = [] /\
  stem (chars "a.tar.gz") = chars "a.tar" /\ extension (chars "a.tar.gz") = chars ".gz" /\ extension (chars "..") = [] /\ stem (chars "/home/.bashrc") = [].
Proof. repeat split; vm_compute; reflexivity. Qed.

Print Assumptions C126_basename.
Print Assumptions C126_extension.
