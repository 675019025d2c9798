(** * The assignment of files to data sets. *)
From Coq Require Import String Ascii List Arith NArith Bool Lia.
From Verif Require Import Base BaseFacts SpecText LoadMatrix LoadFacts StringUtilities Pajek PropertiesPajek DataSets.
Import ListNotations.
Local Open Scope list_scope.

(** ** specification *)
(** [f] is the name of the file of the data set [p] for the dimension [v] *)
Definition dataset_file (f p : str) (v : N) : Prop :=
  exists c number, f = p ++ "_"%char :: c :: number ++ chars ".txt" /\ (c = "d"%char \/ c = "k"%char) /\ numeral number v /\ Forall on_line p.
(** the different names in the order of their first occurrences *)
Fixpoint firsts (l : list str) : list str :=
  match l with
  | [] => []
  | s :: t => s :: filter (fun u => negb (str_eqb s u)) (firsts t)
  end.

Lemma str_eqb_spec s t : reflect (s = t) (str_eqb s t).
Proof. unfold str_eqb. destruct (list_eq_dec ascii_dec s t); constructor; assumption. Qed.
Lemma str_eqb_refl s : str_eqb s s = true.
Proof. destruct (str_eqb_spec s s); [reflexivity|contradiction]. Qed.
Lemma str_eqb_sym s t : str_eqb s t = str_eqb t s.
Proof. destruct (str_eqb_spec s t), (str_eqb_spec t s); congruence. Qed.

(** ** the regular expression *)
Lemma Forall_rev_iff {A} (P : A -> Prop) l : Forall P (rev l) <-> Forall P l.
Proof. split; intro H; [rewrite <- (rev_involutive l)|]; apply Forall_rev; exact H. Qed.

Lemma regex_spec f p ds : reDataSetPrefix f = Some (p, ds) <->
  exists c, f = p ++ "_"%char :: c :: ds ++ chars ".txt" /\ (c = "d"%char \/ c = "k"%char) /\ some a_digit ds /\ Forall on_line p.
Proof.
  split.
  - unfold reDataSetPrefix. destruct (rev f) as [|t1 [|x [|t2 [|q rest]]]] eqn:E; try discriminate.
    destruct (Ascii.eqb_spec t1 "t"); [|discriminate]. destruct (Ascii.eqb_spec x "x"); [|discriminate]. destruct (Ascii.eqb_spec t2 "t"); [|discriminate]. destruct (Ascii.eqb_spec q "."); [|discriminate]. subst t1 x t2 q. cbn [andb].
    pose proof (span_spec _ _ isdigit_spec rest) as S. destruct (span isdigit rest) as [a b]. destruct S as (-> & Ha & Hb). destruct b as [|c [|u b]]; try discriminate. destruct a as [|a0 a]; [discriminate|].
    destruct (Ascii.eqb c "d" || Ascii.eqb c "k") eqn:Ec; [|discriminate]. destruct (Ascii.eqb_spec u "_"); [|discriminate]. subst u. cbn [andb]. destruct (forallb anychar b) eqn:Eb; [|discriminate]. intro X.
    assert (Ep : p = rev b) by congruence. assert (Eds : ds = rev (a0 :: a)) by congruence. clear X. subst p ds. exists c. refine (conj _ (conj _ (conj (conj _ _) _))).
    + rewrite <- (rev_involutive f), E. cbn [rev]. rewrite !rev_app_distr. cbn [rev app chars list_ascii_of_string]. rewrite <- !app_assoc. cbn [app]. reflexivity.
    + apply orb_prop in Ec. destruct Ec as [Ec|Ec]; apply Ascii.eqb_eq in Ec; auto.
    + cbn [rev]. intro Z. apply app_eq_nil in Z. destruct Z. discriminate.
    + apply Forall_rev_iff. exact Ha.
    + apply Forall_rev_iff. apply (all_class _ _ _ anychar_spec). exact Eb.
  - intros (c & -> & Hc & [Hne Hd] & Hp). unfold reDataSetPrefix.
    assert (E : rev (p ++ "_"%char :: c :: ds ++ chars ".txt") = "t"%char :: "x"%char :: "t"%char :: "."%char :: rev ds ++ c :: "_"%char :: rev p).
    { rewrite rev_app_distr. cbn [rev]. rewrite rev_app_distr. cbn [rev app chars list_ascii_of_string]. rewrite <- !app_assoc. reflexivity. }
    rewrite E. cbn [Ascii.eqb Bool.eqb andb]. rewrite (span_app _ _ isdigit_spec).
    + destruct (rev ds) as [|d0 r] eqn:Er; [exfalso; apply Hne; rewrite <- (rev_involutive ds), Er; reflexivity|]. rewrite <- Er.
      assert (Ec : Ascii.eqb c "d" || Ascii.eqb c "k" = true) by (destruct Hc as [-> | ->]; reflexivity). rewrite Ec. cbn [Ascii.eqb Bool.eqb andb]. rewrite (proj2 (all_class _ _ (rev p) anychar_spec)) by (apply Forall_rev_iff; exact Hp). rewrite !rev_involutive. reflexivity.
    + apply Forall_rev_iff. exact Hd.
    + intros d t Z. injection Z as <- _. intro Hx. apply isdigit_spec in Hx. destruct Hc as [-> | ->]; discriminate.
Qed.

Lemma digit_decimal c : a_digit c -> exists d, decimal_digit c d.
Proof. intro H. apply isdigit_spec in H. unfold isdigit in H. destruct (digit c) as [d|] eqn:E; [|discriminate]. exists d. apply digit_iff. exact E. Qed.
Lemma decimal_digit_a c d : decimal_digit c d -> a_digit c.
Proof. intro H. apply isdigit_spec. unfold isdigit. rewrite (proj2 (digit_iff c d) H). reflexivity. Qed.
Lemma digits_numeral ds : some a_digit ds -> exists v, numeral ds v.
Proof.
  intros [Hne H]. induction ds as [|c ds IH] using rev_ind; [contradiction|]. apply Forall_app in H. destruct H as [H1 H2]. apply Forall_inv in H2. destruct (digit_decimal c H2) as [d Hd]. destruct ds as [|x ds].
  - exists d. constructor. exact Hd.
  - destruct IH as [v Hv]; [discriminate|exact H1|]. exists (10 * v + d)%N. constructor; assumption.
Qed.
Lemma numeral_a_digit ds v : numeral ds v -> some a_digit ds.
Proof.
  induction 1 as [c d Hd|s v c d Hs [IH1 IH2] Hd]; [split; [discriminate|constructor; [apply decimal_digit_a with d; exact Hd|constructor]]|]. split; [intro Z; apply app_eq_nil in Z; destruct Z; discriminate|]. apply Forall_app. split; [exact IH2|]. constructor; [apply decimal_digit_a with d; exact Hd|constructor].
Qed.
Lemma numeral_stoul_large s v : numeral s v -> (2 ^ 64 <= v)%N -> stoul s = Throw OutOfRange.
Proof.
  intros H Hv. destruct (numeral_digits s v H) as (H1 & H2 & H3). specialize (H3 [] 0%N). rewrite app_nil_r, N.mul_0_l, N.add_0_l in H3. change (digits v []) with v in H3.
  destruct s as [|c t]; [contradiction|]. apply Forall_inv in H2. destruct H2 as [d Hd]. unfold stoul.
  rewrite (digit_not c d "+"), (digit_not c d "-") by (auto; reflexivity). unfold stoul_digits.
  rewrite (proj2 (digit_iff c d) Hd), H3. destruct (N.ltb_spec v (2 ^ 64)); [lia|reflexivity].
Qed.

(** ** C148 *)
(** A file name of the given form names its data set and its dimension, any other name is a data
    set of its own; numbers that are too large are errors. *)
Theorem C148_name : forall f,
  (forall p v, dataset_file f p v -> (v < 2 ^ 64)%N -> describe f = Ok (DataSet p f (v mod 2 ^ 32))) /\
  (forall p v, dataset_file f p v -> (2 ^ 64 <= v)%N -> describe f = Throw OutOfRange) /\
  ((forall p v, ~ dataset_file f p v) -> describe f = Ok (DataSet f f 0)).
Proof.
  intro f. assert (A : forall p v, dataset_file f p v -> exists ds, reDataSetPrefix f = Some (p, ds) /\ numeral ds v).
  { intros p v (c & ds & E & Hc & Hv & Hp). exists ds. split; [|exact Hv]. apply regex_spec. exists c. refine (conj E (conj Hc (conj _ Hp))). apply numeral_a_digit with v. exact Hv. }
  refine (conj _ (conj _ _)).
  - intros p v H Hv. destruct (A p v H) as (ds & E & Hn). unfold describe. rewrite E, (numeral_stoul ds v Hn Hv). reflexivity.
  - intros p v H Hv. destruct (A p v H) as (ds & E & Hn). unfold describe. rewrite E, (numeral_stoul_large ds v Hn Hv). reflexivity.
  - intro H. unfold describe. destruct (reDataSetPrefix f) as [[p ds]|] eqn:E; [|reflexivity]. exfalso. apply regex_spec in E. destruct E as (c & E & Hc & Hd & Hp). destruct (digits_numeral ds Hd) as [v Hv]. apply (H p v). exists c, ds. auto.
Qed.

Definition name_of (f : str) : str := match reDataSetPrefix f with Some (p, _) => p | None => f end.
Lemma describe_name f d : describe f = Ok d -> ds_name d = name_of f /\ ds_filename d = f.
Proof.
  unfold describe, name_of. destruct (reDataSetPrefix f) as [[p ds]|]; [|intro E; injection E as <-; auto]. destruct (stoul ds); cbn [bind]; try discriminate. intro E. injection E as <-. auto.
Qed.

(** the map: the names in the order of first occurrence with their positions *)
Definition indexed (l : list str) (s : nat) : list (str * nat) := combine l (seq s (length l)).
Lemma indexed_app l x : indexed (l ++ [x]) 0 = indexed l 0 ++ [(x, length l)].
Proof.
  unfold indexed. rewrite app_length. cbn [length]. rewrite Nat.add_1_r, seq_S. cbn [plus]. assert (G : forall (a : list str) (b : list nat) x y, length a = length b -> combine (a ++ [x]) (b ++ [y]) = combine a b ++ [(x, y)]).
  { induction a as [|u a IH]; intros [|w b] x0 y0 H; try discriminate; [reflexivity|]. cbn [app combine]. rewrite IH by (injection H as H; exact H). reflexivity. }
  apply G. rewrite seq_length. reflexivity.
Qed.
Lemma lookup_indexed l : NoDup l -> forall s name, match lookup_name (indexed l s) name with Some i => s <= i /\ nth_error l (i - s) = Some name | None => ~ In name l end.
Proof.
  induction 1 as [|x l Hx HN IH]; intros s name; [intros []|]. unfold indexed, lookup_name. cbn [length seq combine find fst]. destruct (str_eqb_spec x name) as [->|Ne]; [cbn; rewrite Nat.sub_diag; split; [lia|reflexivity]|].
  specialize (IH (S s) name). unfold indexed, lookup_name in IH. destruct (find _ _) as [[y i]|]; cbn [option_map snd] in *.
  - destruct IH as [L E]. split; [lia|]. replace (i - s) with (S (i - S s)) by lia. exact E.
  - intros [E|Hin]; [contradiction|exact (IH Hin)].
Qed.

Definition add_new (seen : list str) (name : str) : list str := if existsb (str_eqb name) seen then seen else seen ++ [name].
Lemma existsb_str name l : existsb (str_eqb name) l = true <-> In name l.
Proof.
  rewrite existsb_exists. split; [intros (x & Hx & E); destruct (str_eqb_spec name x); [subst; exact Hx|discriminate]|]. intro H. exists name. split; [exact H|apply str_eqb_refl].
Qed.
Lemma add_new_NoDup seen name : NoDup seen -> NoDup (add_new seen name).
Proof.
  intro H. unfold add_new. destruct (existsb (str_eqb name) seen) eqn:E; [exact H|].
  assert (N : ~ In name seen) by (intro Hin; apply existsb_str in Hin; congruence). clear E. induction H as [|x l Hx HN IH]; cbn [app]; [constructor; [intros []|constructor]|]. constructor; [|apply IH; intro Hin; apply N; right; exact Hin]. intro Hin. apply in_app_or in Hin. destruct Hin as [Hin|[Hin|[]]]; [exact (Hx Hin)|]. apply N. left. congruence.
Qed.
Lemma map_fold : forall l seen, NoDup seen -> fold_left name_step l (indexed seen 0, length seen) = (indexed (fold_left add_new (map name_of l) seen) 0, length (fold_left add_new (map name_of l) seen)).
Proof.
  induction l as [|f l IH]; intros seen H; [reflexivity|]. cbn [fold_left map]. assert (E : name_step (indexed seen 0, length seen) f = (indexed (add_new seen (name_of f)) 0, length (add_new seen (name_of f)))).
  { unfold name_step. cbn [fst snd]. fold (name_of f). pose proof (lookup_indexed seen H 0 (name_of f)) as L. unfold add_new. destruct (lookup_name (indexed seen 0) (name_of f)) as [i|].
    - destruct L as [_ L]. rewrite (proj2 (existsb_str (name_of f) seen)) by (apply nth_error_In with (i - 0); exact L). reflexivity.
    - destruct (existsb (str_eqb (name_of f)) seen) eqn:E; [exfalso; apply L; apply existsb_str; exact E|]. rewrite indexed_app, app_length. cbn [length]. rewrite Nat.add_1_r. reflexivity. }
  rewrite E. apply IH. apply add_new_NoDup. exact H.
Qed.

Lemma filter_filter {A} (p q : A -> bool) l : filter p (filter q l) = filter (fun x => q x && p x) l.
Proof. induction l as [|a l IH]; [reflexivity|]. cbn [filter]. destruct (q a); cbn [filter andb]; [destruct (p a); rewrite IH; reflexivity|exact IH]. Qed.
Lemma fold_add_new : forall l seen, fold_left add_new l seen = seen ++ filter (fun u => negb (existsb (str_eqb u) seen)) (firsts l).
Proof.
  induction l as [|s l IH]; intro seen; cbn [fold_left firsts]; [cbn; rewrite app_nil_r; reflexivity|]. rewrite IH. cbn [filter]. unfold add_new. destruct (existsb (str_eqb s) seen) eqn:E; cbn [negb].
  - f_equal. rewrite filter_filter. apply filter_ext_in. intros u _. destruct (str_eqb_spec s u) as [->|Ne]; cbn [negb andb]; [rewrite E; reflexivity|reflexivity].
  - rewrite <- app_assoc. cbn [app]. do 2 f_equal. rewrite filter_filter. apply filter_ext_in. intros u _. rewrite existsb_app. cbn [existsb]. rewrite orb_false_r, (str_eqb_sym u s). destruct (str_eqb s u); cbn [negb andb orb]; [rewrite orb_true_r; reflexivity|rewrite orb_false_r; reflexivity].
Qed.
Lemma filenameMap_spec l : filenameMap l = indexed (firsts (map name_of l)) 0 /\ NoDup (firsts (map name_of l)).
Proof.
  unfold filenameMap. pose proof (map_fold l [] (NoDup_nil _)) as M. change (indexed [] 0) with (@nil (str * nat)) in M. cbn [length] in M. rewrite M. cbn [fst]. rewrite fold_add_new. cbn [app existsb negb]. assert (T : forall A (l : list A), filter (fun _ => true) l = l) by (intros A k; induction k as [|a k IH]; [reflexivity|cbn; rewrite IH; reflexivity]). rewrite T. split; [reflexivity|].
  generalize (map name_of l). clear. induction l as [|s l IH]; [constructor|]. cbn [firsts]. constructor; [|apply NoDup_filter; exact IH]. intro H. apply filter_In in H. destruct H as [_ H]. rewrite str_eqb_refl in H. discriminate.
Qed.
Lemma firsts_In l s : In s (firsts l) <-> In s l.
Proof.
  induction l as [|t l IH]; [reflexivity|]. cbn [firsts In]. rewrite filter_In, IH. destruct (str_eqb_spec t s) as [->|Ne]; cbn [negb]; [split; auto|]. split; [intros [H|[H _]]; auto|intros [H|H]; auto].
Qed.

(** the data sets of a name, in the order of the files *)
Definition members (ds : list dataset) (name : str) : list dataset := filter (fun d => str_eqb (ds_name d) name) ds.

Lemma upd_map {A B} (f : A -> B) l i a : nth_error l i = Some a -> forall g : A -> B, (forall k b, k <> i -> nth_error l k = Some b -> g b = f b) -> upd (map f l) i (g a) = map g l.
Proof.
  intros Hi g Hg. revert i Hi Hg. induction l as [|b l IH]; intros [|i] Hi Hg; try discriminate; cbn [map upd nth_error] in *.
  - injection Hi as ->. f_equal. apply map_ext_in. intros c Hc. apply In_nth_error in Hc. destruct Hc as [k Hk]. symmetry. apply (Hg (S k)); [lia|exact Hk].
  - rewrite (Hg 0 b) by (try lia; reflexivity). f_equal. apply IH; [exact Hi|]. intros k c Hk Hc. apply (Hg (S k)); [lia|exact Hc].
Qed.

(** Each data set has all files of its name, in their order; the data sets are in the order of
    their first files; and the dimensions are bounded by the two numbers. *)
Theorem C148_groups : forall filenames ds, Forall2 (fun f d => describe f = Ok d) filenames ds ->
  exists lo hi, group_files filenames = Ok (map (members ds) (firsts (map ds_name ds)), (lo, hi)) /\
    (forall d, In d ds -> (lo <= ds_dimension d <= hi)%N) /\
    (ds <> [] -> (exists d, In d ds /\ ds_dimension d = lo) /\ exists d, In d ds /\ ds_dimension d = hi).
Proof.
  intros filenames ds H. assert (En : map name_of filenames = map ds_name ds).
  { clear - H. induction H as [|f d fs ds Hd _ IH]; [reflexivity|]. cbn [map]. rewrite IH. f_equal. symmetry. apply describe_name. exact Hd. }
  destruct (filenameMap_spec filenames) as [Em ND]. rewrite En in Em, ND. set (names := firsts (map ds_name ds)) in *.
  unfold group_files. rewrite Em. assert (Lm : length (indexed names 0) = length names) by (unfold indexed; rewrite combine_length, seq_length; apply Nat.min_id). rewrite Lm.
  assert (G : forall fs es done lo hi, Forall2 (fun f d => describe f = Ok d) fs es -> (forall d, In d es -> In (ds_name d) names) ->
    foldM (set_step (indexed names 0)) fs (map (members done) names, (lo, hi)) = Ok (map (members (done ++ es)) names, (fold_left N.min (map ds_dimension es) lo, fold_left N.max (map ds_dimension es) hi))).
  { induction fs as [|f fs IH]; intros es done lo hi HF Hin; inversion HF as [|f' d fs' es' Hd HF' E1 E2]; subst; [cbn [foldM map fold_left]; rewrite app_nil_r; reflexivity|].
    cbn [foldM map fold_left]. unfold set_step at 1. rewrite Hd. cbn [bind fst snd]. pose proof (lookup_indexed names ND 0 (ds_name d)) as L. destruct (lookup_name (indexed names 0) (ds_name d)) as [i|]; [|exfalso; apply L; apply Hin; left; reflexivity].
    destruct L as [_ L]. rewrite Nat.sub_0_r in L. unfold at_. rewrite nth_error_map, L. cbn [option_map bind]. 
    assert (U : upd (map (members done) names) i (members done (ds_name d) ++ [d]) = map (members (done ++ [d])) names).
    { assert (Q : members (done ++ [d]) (ds_name d) = members done (ds_name d) ++ [d]) by (unfold members; rewrite filter_app; cbn [filter]; rewrite str_eqb_refl; reflexivity). rewrite <- Q. apply upd_map; [exact L|]. intros k b Hk Hb. unfold members. rewrite filter_app. cbn [filter]. destruct (str_eqb_spec (ds_name d) b) as [<-|_]; [|apply app_nil_r]. exfalso. apply Hk. rewrite NoDup_nth_error in ND. apply ND; [apply nth_error_Some; rewrite Hb; discriminate|congruence]. }
    rewrite U. rewrite (IH es' (done ++ [d])) by (try exact HF'; intros; apply Hin; right; assumption). rewrite <- app_assoc. reflexivity. }
  assert (Z : repeat [] (length names) = map (members []) names). { generalize names. clear. induction names as [|x l IH]; [reflexivity|]. cbn [length repeat map]. rewrite IH. reflexivity. }
  rewrite Z. pose proof (G filenames ds [] (2 ^ 32 - 1)%N 0%N H) as G0. cbn [app] in G0. eexists _, _. split; [apply G0; intros d Hd; apply firsts_In; apply in_map; exact Hd|].
  assert (D32 : forall d, In d ds -> (ds_dimension d <= 2 ^ 32 - 1)%N).
  { intros d Hd. clear - H Hd. induction H as [|f e fs es He HF IH]; [destruct Hd|]. destruct Hd as [<-|Hd]; [|apply IH; exact Hd]. unfold describe in He. destruct (reDataSetPrefix f) as [[p n]|]; [|injection He as <-; cbn; lia]. destruct (stoul n) as [v| | |]; cbn [bind] in He; try discriminate. injection He as <-. cbn [ds_dimension]. pose proof (N.mod_upper_bound v (2 ^ 32) ltac:(lia)). lia. }
  assert (MN : forall l x, (fold_left N.min l x <= x)%N /\ (forall y, In y l -> (fold_left N.min l x <= y)%N) /\ (fold_left N.min l x = x \/ In (fold_left N.min l x) l)).
  { clear. induction l as [|y l IH]; intro x; cbn [fold_left]; [refine (conj (N.le_refl x) (conj _ (or_introl eq_refl))); intros y []|]. destruct (IH (N.min x y)) as (A & B & C). refine (conj _ (conj _ _)); [lia|intros z [<-|Hz]; [lia|apply B; exact Hz]|]. destruct C as [C|C]; [|right; right; exact C]. rewrite C. destruct (N.min_spec x y) as [[_ M]|[_ M]]; rewrite M; [left; reflexivity|right; left; reflexivity]. }
  assert (MX : forall l x, (x <= fold_left N.max l x)%N /\ (forall y, In y l -> (y <= fold_left N.max l x)%N) /\ (fold_left N.max l x = x \/ In (fold_left N.max l x) l)).
  { clear. induction l as [|y l IH]; intro x; cbn [fold_left]; [refine (conj (N.le_refl x) (conj _ (or_introl eq_refl))); intros y []|]. destruct (IH (N.max x y)) as (A & B & C). refine (conj _ (conj _ _)); [lia|intros z [<-|Hz]; [lia|apply B; exact Hz]|]. destruct C as [C|C]; [|right; right; exact C]. rewrite C. destruct (N.max_spec x y) as [[_ M]|[_ M]]; rewrite M; [right; left; reflexivity|left; reflexivity]. }
  destruct (MN (map ds_dimension ds) (2 ^ 32 - 1)%N) as (A1 & B1 & C1). destruct (MX (map ds_dimension ds) 0%N) as (A2 & B2 & C2). split.
  - intros d Hd. split; [apply B1|apply B2]; apply in_map; exact Hd.
  - intro Hne. destruct ds as [|d0 ds']; [contradiction|]. split.
    + destruct C1 as [C1|C1]; [|apply in_map_iff in C1; destruct C1 as (d & E & Hd); exists d; auto]. exists d0. split; [left; reflexivity|]. pose proof (D32 d0 (or_introl eq_refl)). pose proof (B1 (ds_dimension d0) (or_introl eq_refl)). lia.
    + destruct C2 as [C2|C2]; [|apply in_map_iff in C2; destruct C2 as (d & E & Hd); exists d; auto]. exists d0. split; [left; reflexivity|]. pose proof (B2 (ds_dimension d0) (or_introl eq_refl)). lia.
Qed.

Example C148_example : group_files [chars "a_d0.txt"; chars "b.txt"; chars "a_k12.txt"] =
  Ok ([[DataSet (chars "a") (chars "a_d0.txt") 0; DataSet (chars "a") (chars "a_k12.txt") 12]; [DataSet (chars "b.txt") (chars "b.txt") 0]], (0, 12)%N).
Proof. vm_compute. reflexivity. Qed.

(** FINDING: the number of a file name is reduced modulo 2^32, and the letters d and k are not
    told apart, so that two files of a data set can have the same dimension; of these, only the
    first one is ever found. *)
Theorem C148_dimensions_refuted : exists filenames group lo hi, NoDup filenames /\
  group_files filenames = Ok ([group], (lo, hi)) /\ length group = 3 /\ lo = 1%N /\ hi = 1%N.
Proof.
  exists [chars "a_d1.txt"; chars "a_k1.txt"; chars "a_d4294967297.txt"]. eexists _, _, _. split; [|split; [vm_compute; reflexivity|auto]]. repeat constructor; cbn; intuition discriminate.
Qed.

Print Assumptions C148_name.
Print Assumptions C148_groups.
Print Assumptions C148_dimensions_refuted.
