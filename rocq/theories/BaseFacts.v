(** * Facts about the standard-library algorithms of [Base]. *)

From Coq Require Import List Arith Lia Bool Permutation Sorted ZArith.
From Verif Require Import Base.
Import ListNotations.

Lemma bind_ok {A B} (m : outcome A) (f : A -> outcome B) b :
  bind m f = Ok b -> exists a, m = Ok a /\ f a = Ok b.
Proof. destruct m; simpl; try discriminate; eauto. Qed.

(** ** upd *)
Lemma upd_length {A} (l : list A) i a : length (upd l i a) = length l.
Proof. revert i; induction l; destruct i; simpl; auto. Qed.

Lemma nth_error_upd_eq {A} (l : list A) i a :
  i < length l -> nth_error (upd l i a) i = Some a.
Proof.
  revert i; induction l; destruct i; simpl; intros; try lia; auto.
  apply IHl; lia.
Qed.

Lemma nth_error_upd_neq {A} (l : list A) i j a :
  i <> j -> nth_error (upd l i a) j = nth_error l j.
Proof.
  revert i j; induction l; destruct i, j; simpl; intros; try lia; auto.
Qed.

Lemma nth_error_upd {A} (l : list A) i j a :
  nth_error (upd l i a) j =
  if (i =? j) && (i <? length l) then Some a else nth_error l j.
Proof.
  destruct (Nat.eqb_spec i j); simpl.
  - subst. destruct (Nat.ltb_spec j (length l)).
    + apply nth_error_upd_eq; auto.
    + rewrite (proj2 (nth_error_None _ _)), (proj2 (nth_error_None _ _)); auto.
      rewrite upd_length; auto.
  - apply nth_error_upd_neq; auto.
Qed.

Lemma upd_oob {A} (l : list A) i a : length l <= i -> upd l i a = l.
Proof. revert i; induction l; destruct i; simpl; intros; try lia; f_equal; auto. apply IHl; lia. Qed.

Lemma at_ok {A} (l : list A) i a : at_ l i = Ok a <-> nth_error l i = Some a.
Proof. unfold at_. destruct (nth_error l i); split; congruence. Qed.

Lemma get_ok {A} (l : list A) i a : get_ l i = Ok a <-> nth_error l i = Some a.
Proof. unfold get_. destruct (nth_error l i); split; congruence. Qed.

Lemma nth_error_lt {A} (l : list A) i a : nth_error l i = Some a -> i < length l.
Proof. intro H. apply nth_error_Some. congruence. Qed.

Lemma nth_error_ex {A} (l : list A) i : i < length l -> exists a, nth_error l i = Some a.
Proof.
  intro H. destruct (nth_error l i) eqn:E; eauto.
  apply nth_error_None in E. lia.
Qed.

(** ** sorting *)
Section Sorting.
  Context {A : Type} (cmp : A -> A -> bool).

  Lemma insert_sorted_perm x l : Permutation (insert_sorted cmp x l) (x :: l).
  Proof.
    induction l; simpl; auto.
    destruct (cmp a x); auto.
    rewrite IHl. apply perm_swap.
  Qed.

  Lemma cpp_sort_perm l : Permutation (cpp_sort cmp l) l.
  Proof.
    induction l; simpl; auto.
    rewrite insert_sorted_perm. auto.
  Qed.

  Lemma cpp_sort_length l : length (cpp_sort cmp l) = length l.
  Proof. apply Permutation_length, cpp_sort_perm. Qed.

  Lemma cpp_sort_In x l : In x (cpp_sort cmp l) <-> In x l.
  Proof.
    split; apply Permutation_in; [|symmetry]; apply cpp_sort_perm.
  Qed.

  (** strict weak ordering: asymmetric and its complement is transitive *)
  Definition swo : Prop :=
    (forall x y, cmp x y = true -> cmp y x = false) /\
    (forall x y z, cmp y x = false -> cmp z y = false -> cmp z x = false).

  Lemma insert_sorted_sorted x l :
    swo ->
    StronglySorted (fun a b => cmp b a = false) l ->
    StronglySorted (fun a b => cmp b a = false) (insert_sorted cmp x l).
  Proof.
    intros [Has Htr]. induction l; simpl; intro Hs.
    - repeat constructor.
    - inversion Hs; subst.
      destruct (cmp a x) eqn:E.
      + constructor; auto.
        rewrite Forall_forall in *. intros y Hy.
        apply (Permutation_in _ (insert_sorted_perm x l)) in Hy.
        destruct Hy as [<-|Hy]; auto.
      + constructor; auto. constructor; auto.
        rewrite Forall_forall in *. intros y Hy. eapply Htr; eauto.
  Qed.

  Lemma cpp_sort_sorted l :
    swo -> StronglySorted (fun a b => cmp b a = false) (cpp_sort cmp l).
  Proof.
    intros H; induction l; simpl; [constructor|].
    apply insert_sorted_sorted; auto.
  Qed.
End Sorting.

Lemma StronglySorted_app {A} (R : A -> A -> Prop) l1 l2 :
  StronglySorted R (l1 ++ l2) <->
  StronglySorted R l1 /\ StronglySorted R l2 /\
  (forall x y, In x l1 -> In y l2 -> R x y).
Proof.
  induction l1; simpl.
  - split; [intros; repeat split; auto; [constructor| easy]|tauto].
  - split.
    + intros H. inversion H; subst. apply IHl1 in H2. destruct H2 as (?&?&?).
      rewrite Forall_app in H3. destruct H3. rewrite Forall_forall in *.
      repeat split; auto.
      * constructor; auto. rewrite Forall_forall; auto.
      * intros x y [<-|?]; auto.
    + intros (H1&H2&H3). inversion H1; subst. constructor.
      * apply IHl1. repeat split; auto.
      * rewrite Forall_app. rewrite Forall_forall in *. split; auto.
        rewrite Forall_forall; auto.
Qed.

Lemma StronglySorted_impl {A} (R S : A -> A -> Prop) l :
  (forall x y, In x l -> In y l -> R x y -> S x y) ->
  StronglySorted R l -> StronglySorted S l.
Proof.
  induction l; intros H Hs; constructor; inversion Hs; subst.
  - apply IHl; auto. intros; apply H; simpl; auto.
  - rewrite Forall_forall in *. intros; apply H; simpl; auto.
Qed.

Lemma StronglySorted_nth {A} (R : A -> A -> Prop) l i j a b :
  StronglySorted R l -> i < j ->
  nth_error l i = Some a -> nth_error l j = Some b -> R a b.
Proof.
  intros H; revert i j; induction H; intros i j Hij Hi Hj.
  - destruct i; discriminate.
  - destruct j; [lia|]. destruct i; simpl in *.
    + injection Hi as <-. rewrite Forall_forall in H0.
      apply H0. eapply nth_error_In; eauto.
    + apply (IHStronglySorted i j); auto; lia.
Qed.

Lemma StronglySorted_filter {A} (R : A -> A -> Prop) f l :
  StronglySorted R l -> StronglySorted R (filter f l).
Proof.
  induction 1; simpl; [constructor|]. destruct (f a); auto.
  constructor; auto. rewrite Forall_forall in *. intros x Hx.
  apply filter_In in Hx. apply H0; tauto.
Qed.

Lemma SSlt_NoDup (l : list nat) : StronglySorted lt l -> NoDup l.
Proof.
  induction 1; constructor; auto. rewrite Forall_forall in H0.
  intro Hi. apply H0 in Hi. unfold gt in *. lia.
Qed.

Lemma SSgt_NoDup (l : list nat) : StronglySorted gt l -> NoDup l.
Proof.
  induction 1; constructor; auto. rewrite Forall_forall in H0.
  intro Hi. apply H0 in Hi. unfold gt in *. lia.
Qed.

(** Strictly sorted lists are determined by their elements. *)
Lemma SS_ext {A} (R : A -> A -> Prop) :
  (forall x, ~ R x x) -> (forall x y, R x y -> ~ R y x) ->
  forall l1 l2, StronglySorted R l1 -> StronglySorted R l2 ->
  (forall x, In x l1 <-> In x l2) -> l1 = l2.
Proof.
  intros Hirr Has. induction l1 as [|x l1 IH]; intros l2 H1 H2 E.
  - destruct l2 as [|y l2]; auto. exfalso. apply (proj2 (E y)); simpl; auto.
  - destruct l2 as [|y l2].
    + exfalso. apply (proj1 (E x)); simpl; auto.
    + inversion H1 as [|? ? S1 F1]; inversion H2 as [|? ? S2 F2]; subst.
      rewrite Forall_forall in *.
      assert (x = y) as ->.
      { destruct (proj1 (E x)) as [->|Hx]; simpl; auto.
        destruct (proj2 (E y)) as [->|Hy]; simpl; auto.
        exfalso. apply (Has x y); auto. }
      f_equal. apply IH; auto. intro z. split; intro Hz.
      * destruct (proj1 (E z)) as [->|]; simpl; auto.
        exfalso. apply (Hirr z). auto.
      * destruct (proj2 (E z)) as [->|]; simpl; auto.
        exfalso. apply (Hirr z). auto.
Qed.

Lemma SSlt_ext l1 l2 :
  StronglySorted lt l1 -> StronglySorted lt l2 ->
  (forall x, In x l1 <-> In x l2) -> l1 = l2.
Proof. apply SS_ext; intros; lia. Qed.

Lemma SSgt_ext l1 l2 :
  StronglySorted gt l1 -> StronglySorted gt l2 ->
  (forall x, In x l1 <-> In x l2) -> l1 = l2.
Proof. apply SS_ext; intros; lia. Qed.

Lemma mem_In i l : mem i l = true <-> In i l.
Proof.
  unfold mem. rewrite existsb_exists. split.
  - intros (x & H & E). apply Nat.eqb_eq in E. now subst.
  - intro H. exists i. split; auto. apply Nat.eqb_refl.
Qed.

Lemma mem_false i l : mem i l = false <-> ~ In i l.
Proof. rewrite <- mem_In. destruct (mem i l); split; congruence. Qed.

(** ** unique *)
Section Unique.
  Context {A : Type} (eqb : A -> A -> bool)
          (eqb_spec : forall x y, eqb x y = true <-> x = y).

  Lemma cpp_unique_head x l : exists r, cpp_unique eqb (x :: l) = x :: r.
  Proof.
    revert x. induction l as [|y l IH]; intro x.
    - exists []. reflexivity.
    - change (cpp_unique eqb (x :: y :: l)) with
        (if eqb x y then match cpp_unique eqb (y :: l) with [] => [x] | _ :: r => x :: r end
         else x :: cpp_unique eqb (y :: l)).
      destruct (eqb x y); eauto.
      destruct (IH y) as [r ->]. eauto.
  Qed.

  Lemma cpp_unique_In x l : In x (cpp_unique eqb l) <-> In x l.
  Proof.
    induction l as [|a l IH]; [tauto|].
    destruct l as [|b l]; [tauto|].
    change (cpp_unique eqb (a :: b :: l)) with
        (if eqb a b then match cpp_unique eqb (b :: l) with [] => [a] | _ :: r => a :: r end
         else a :: cpp_unique eqb (b :: l)).
    destruct (cpp_unique_head b l) as [r E]. rewrite E in *.
    destruct (eqb a b) eqn:Eab.
    - apply eqb_spec in Eab. subst b. rewrite IH. simpl. tauto.
    - simpl. simpl in IH. rewrite IH. tauto.
  Qed.

  Lemma cpp_unique_length l : length (cpp_unique eqb l) <= length l.
  Proof.
    induction l as [|a l IH]; auto.
    destruct l as [|b l]; auto.
    change (cpp_unique eqb (a :: b :: l)) with
        (if eqb a b then match cpp_unique eqb (b :: l) with [] => [a] | _ :: r => a :: r end
         else a :: cpp_unique eqb (b :: l)).
    destruct (cpp_unique_head b l) as [r E]. rewrite E in *.
    destruct (eqb a b); simpl in *; lia.
  Qed.
End Unique.



Lemma cpp_unique_sorted_le l :
  StronglySorted le l -> StronglySorted lt (cpp_unique Nat.eqb l).
Proof.
  induction l as [|a l IH]; intro Hs; [constructor|].
  destruct l as [|b l]; [repeat constructor|].
  change (cpp_unique Nat.eqb (a :: b :: l)) with
        (if Nat.eqb a b then match cpp_unique Nat.eqb (b :: l) with [] => [a] | _ :: r => a :: r end
         else a :: cpp_unique Nat.eqb (b :: l)).
  inversion Hs as [|? ? S1 F1]; subst. specialize (IH S1).
  destruct (cpp_unique_head Nat.eqb b l) as [r E]. rewrite E in *.
  inversion IH as [|? ? S2 F2]; subst. rewrite Forall_forall in *.
  pose proof (F1 b (or_introl eq_refl)).
  destruct (Nat.eqb_spec a b).
  - subst. constructor; auto. rewrite Forall_forall; auto.
  - constructor; auto. rewrite Forall_forall. intros x [<-|Hx]; [lia|].
    apply F2 in Hx. lia.
Qed.

Lemma cpp_unique_sorted_ge l :
  StronglySorted ge l -> StronglySorted gt (cpp_unique Nat.eqb l).
Proof.
  induction l as [|a l IH]; intro Hs; [constructor|].
  destruct l as [|b l]; [repeat constructor|].
  change (cpp_unique Nat.eqb (a :: b :: l)) with
        (if Nat.eqb a b then match cpp_unique Nat.eqb (b :: l) with [] => [a] | _ :: r => a :: r end
         else a :: cpp_unique Nat.eqb (b :: l)).
  inversion Hs as [|? ? S1 F1]; subst. specialize (IH S1).
  destruct (cpp_unique_head Nat.eqb b l) as [r E]. rewrite E in *.
  inversion IH as [|? ? S2 F2]; subst. rewrite Forall_forall in *.
  pose proof (F1 b (or_introl eq_refl)).
  destruct (Nat.eqb_spec a b).
  - subst. constructor; auto. rewrite Forall_forall; auto.
  - constructor; auto. rewrite Forall_forall. intros x [<-|Hx]; [lia|].
    apply F2 in Hx. lia.
Qed.

Lemma ltb_swo : swo Nat.ltb.
Proof.
  split; intros.
  - apply Nat.ltb_lt in H. apply Nat.ltb_ge. lia.
  - apply Nat.ltb_ge in H, H0. apply Nat.ltb_ge. lia.
Qed.

Definition gtb (a b : nat) : bool := b <? a.

Lemma gtb_swo : swo gtb.
Proof.
  unfold gtb. split; intros.
  - apply Nat.ltb_lt in H. apply Nat.ltb_ge. lia.
  - apply Nat.ltb_ge in H, H0. apply Nat.ltb_ge. lia.
Qed.

Lemma cpp_sort_le l : StronglySorted le (cpp_sort Nat.ltb l).
Proof.
  eapply StronglySorted_impl; [|apply cpp_sort_sorted, ltb_swo].
  simpl. intros x y _ _ H. apply Nat.ltb_ge in H. lia.
Qed.

Lemma cpp_sort_ge l : StronglySorted ge (cpp_sort gtb l).
Proof.
  eapply StronglySorted_impl; [|apply cpp_sort_sorted, gtb_swo].
  simpl. unfold gtb. intros x y _ _ H. apply Nat.ltb_ge in H. lia.
Qed.

(** ** symmetric difference *)
Lemma sym_diff_nil_r a : sym_diff a [] = a.
Proof. destruct a; reflexivity. Qed.

Lemma sym_diff_cons x a y b :
  sym_diff (x :: a) (y :: b) =
  if x <? y then x :: sym_diff a (y :: b)
  else if y <? x then y :: sym_diff (x :: a) b
  else sym_diff a b.
Proof. reflexivity. Qed.

Lemma sym_diff_incl a b x : In x (sym_diff a b) -> In x a \/ In x b.
Proof.
  revert b. induction a as [|u a IHa]; intro b; [simpl; auto|].
  induction b as [|v b IHb]; [rewrite sym_diff_nil_r; auto|].
  rewrite sym_diff_cons.
  destruct (u <? v); [|destruct (v <? u)]; simpl; intro H.
  - destruct H as [->|H]; auto. apply IHa in H. simpl in H. tauto.
  - destruct H as [->|H]; auto. apply IHb in H. simpl in H. tauto.
  - apply IHa in H. tauto.
Qed.

Lemma sym_diff_sorted a b :
  StronglySorted lt a -> StronglySorted lt b -> StronglySorted lt (sym_diff a b).
Proof.
  revert b. induction a as [|u a IHa]; intros b Ha Hb; auto.
  induction b as [|v b IHb]; [rewrite sym_diff_nil_r; auto|].
  rewrite sym_diff_cons.
  inversion Ha as [|? ? Sa Fa]; inversion Hb as [|? ? Sb Fb]; subst.
  rewrite Forall_forall in *.
  destruct (Nat.ltb_spec u v); [|destruct (Nat.ltb_spec v u)].
  - constructor; auto. rewrite Forall_forall. intros x Hx.
    apply sym_diff_incl in Hx. destruct Hx as [Hx|[<-|Hx]]; auto.
    apply Fb in Hx. lia.
  - constructor; auto. rewrite Forall_forall. intros x Hx.
    apply sym_diff_incl in Hx. destruct Hx as [[<-|Hx]|Hx]; auto.
    apply Fa in Hx. lia.
  - auto.
Qed.

Lemma mem_cons i x l : mem i (x :: l) = (i =? x) || mem i l.
Proof. reflexivity. Qed.

Lemma mem_sorted_head_false x l i :
  StronglySorted lt (x :: l) -> i <= x -> mem i l = false.
Proof.
  intros H Hi. apply mem_false. intro C. inversion H; subst.
  rewrite Forall_forall in *. apply H3 in C. lia.
Qed.

Lemma mem_sym_diff a b i :
  StronglySorted lt a -> StronglySorted lt b ->
  mem i (sym_diff a b) = xorb (mem i a) (mem i b).
Proof.
  revert b. induction a as [|u a IHa]; intros b Ha Hb.
  - simpl. destruct (mem i b); reflexivity.
  - induction b as [|v b IHb].
    + rewrite sym_diff_nil_r. simpl. destruct ((i =? u) || mem i a); reflexivity.
    + rewrite sym_diff_cons.
      inversion Ha as [|? ? Sa Fa]; inversion Hb as [|? ? Sb Fb]; subst.
      pose proof (mem_sorted_head_false u a) as Hu.
      pose proof (mem_sorted_head_false v b) as Hv.
      destruct (Nat.ltb_spec u v); [|destruct (Nat.ltb_spec v u)].
      * rewrite mem_cons, IHa, !mem_cons by auto.
        destruct (Nat.eqb_spec i u); simpl; auto. subst.
        rewrite (Hv u) by (auto; lia).
        destruct (Nat.eqb_spec u v); simpl; auto; lia.
      * rewrite mem_cons, IHb, !mem_cons by auto.
        destruct (Nat.eqb_spec i v); simpl; auto. subst.
        rewrite (Hu v) by (auto; lia).
        destruct (Nat.eqb_spec v u); simpl; auto; lia.
      * assert (u = v) by lia. subst v.
        rewrite IHa, !mem_cons by auto.
        destruct (Nat.eqb_spec i u); simpl; auto.
        subst. rewrite (Hu u), (Hv u) by (auto; lia). reflexivity.
Qed.

(** ** last_opt *)
Lemma last_opt_none {A} (l : list A) : last_opt l = None <-> l = [].
Proof.
  split; [|intros ->; reflexivity]. induction l as [|a l IH]; auto.
  destruct l as [|b l]; [discriminate|]. intro H. apply IH in H. discriminate.
Qed.

Lemma last_opt_In {A} (l : list A) x : last_opt l = Some x -> In x l.
Proof.
  induction l as [|a l IH]; [discriminate|].
  destruct l as [|b l]; [simpl; intros [= ->]; auto|].
  intro H. right. apply IH. exact H.
Qed.

Lemma last_opt_app {A} (l : list A) x : last_opt (l ++ [x]) = Some x.
Proof.
  induction l as [|a l IH]; auto. simpl. rewrite IH. destruct l; reflexivity.
Qed.

Lemma last_opt_max l x :
  StronglySorted lt l -> last_opt l = Some x -> forall y, In y l -> y <= x.
Proof.
  induction l as [|a l IH]; intros Hs Hl y Hy; [easy|].
  destruct l as [|b l].
  - simpl in *. injection Hl as ->. destruct Hy as [->|[]]; auto.
  - inversion Hs as [|? ? Ss F]; subst. rewrite Forall_forall in F.
    destruct Hy as [<-|Hy]; [|apply IH; auto].
    apply last_opt_In in Hl. destruct Hl as [->|Hl]; auto.
    apply Nat.lt_le_incl. apply F. exact Hl.
Qed.

Lemma last_opt_ex {A} (l : list A) : l <> [] -> exists x, last_opt l = Some x.
Proof.
  intro H. destruct (last_opt l) eqn:E; eauto. apply last_opt_none in E. easy.
Qed.

Lemma filter_all {A} (f : A -> bool) l : (forall x, In x l -> f x = true) -> filter f l = l.
Proof.
  induction l; simpl; intro H; auto. rewrite H by auto. f_equal. auto.
Qed.
