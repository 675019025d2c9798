(** * Facts about column representations, reduction schedules and pairings. *)

From Coq Require Import List Arith Lia Bool Permutation Sorted.
From Verif Require Import Base BaseFacts SpecMatrix Matrix ReductionFacts AlgorithmFacts PairingFacts DualFacts.
Import ListNotations.

Local Arguments min_low : simpl never.

(** ** Sets as ascending lists *)
Lemma set_insert_In x y l : In x (set_insert y l) <-> x = y \/ In x l.
Proof.
  induction l as [|z l IH]; simpl; [intuition|].
  destruct (Nat.ltb_spec y z); simpl; [intuition|].
  destruct (Nat.ltb_spec z y); simpl; [rewrite IH; intuition|].
  assert (y = z) by lia. subst. intuition.
Qed.

Lemma set_insert_sorted y l : StronglySorted lt l -> StronglySorted lt (set_insert y l).
Proof.
  induction 1 as [|z l Hl IH Hz]; simpl; [repeat constructor|].
  destruct (Nat.ltb_spec y z).
  - constructor; [constructor; auto|]. constructor; auto. eapply Forall_impl; [|exact Hz]. simpl. lia.
  - destruct (Nat.ltb_spec z y).
    + constructor; auto. rewrite Forall_forall in *. intros w Hw. apply set_insert_In in Hw.
      destruct Hw as [->|Hw]; auto.
    + constructor; auto.
Qed.

Lemma set_range_In l acc x : In x (set_insert_range l acc) <-> In x l \/ In x acc.
Proof.
  revert acc; induction l as [|a l IH]; intro acc; simpl; [intuition|].
  unfold set_insert_range in *. rewrite IH, set_insert_In. intuition.
Qed.

Lemma set_range_sorted l acc : StronglySorted lt acc -> StronglySorted lt (set_insert_range l acc).
Proof.
  revert acc; induction l as [|a l IH]; intros acc Ha; simpl; auto.
  apply IH. apply set_insert_sorted; auto.
Qed.

Lemma SSlt_ext l l' : StronglySorted lt l -> StronglySorted lt l' ->
  (forall x, In x l <-> In x l') -> l = l'.
Proof.
  intro H. revert l'. induction H as [|a l Hl IH Ha]; intros l' H' E.
  - destruct l' as [|b l']; auto. exfalso. apply (E b). simpl; auto.
  - destruct H' as [|b l' Hl' Hb]; [exfalso; apply (E a); simpl; auto|].
    rewrite Forall_forall in *.
    assert (a = b).
    { pose proof (proj1 (E a) (or_introl eq_refl)) as [->|H1]; auto.
      pose proof (proj2 (E b) (or_introl eq_refl)) as [->|H2]; auto.
      apply Hb in H1. apply Ha in H2. lia. }
    subst. f_equal. apply IH; auto. intro x. specialize (E x). simpl in E. split; intro Hx.
    + destruct (proj1 E (or_intror Hx)) as [->|]; auto. apply Ha in Hx. lia.
    + destruct (proj2 E (or_intror Hx)) as [->|]; auto. apply Hb in Hx. lia.
Qed.

Lemma set_range_sort l : NoDup l -> set_insert_range l [] = cpp_sort Nat.ltb l.
Proof.
  intro H. apply SSlt_ext.
  - apply set_range_sorted. constructor.
  - apply cpp_sort_strict; auto.
  - intro x. rewrite set_range_In, cpp_sort_In. simpl. tauto.
Qed.

Lemma set_range_id l : StronglySorted lt l -> set_insert_range l [] = l.
Proof.
  intro H. apply SSlt_ext; auto.
  - apply set_range_sorted. constructor.
  - intro x. rewrite set_range_In. simpl. tauto.
Qed.

(** every column handed over by the program is free of repeated indices *)
Definition op_dupfree (o : op) : Prop :=
  match o with OSetColumn _ l => NoDup l | _ => True end.

Fixpoint dupfree {A} (p : prog A) : Prop :=
  match p with
  | Ret _ => True
  | Do o k => op_dupfree o /\ forall r, dupfree (k r)
  | Ask _ k => forall r, dupfree (k r)
  end.

Lemma at_ok {A} (l : list A) i a : at_ l i = Ok a -> In a l.
Proof. unfold at_. destruct (nth_error l i) eqn:E; intros [= <-]. eapply nth_error_In; eauto. Qed.

Lemma sorted_cols_resize C n : sorted_cols C -> sorted_cols (resize C n []).
Proof.
  intros H c Hc. unfold resize in Hc. apply in_app_or in Hc. destruct Hc as [Hc|Hc].
  - apply H. rewrite <- (firstn_skipn n C). apply in_or_app; auto.
  - apply repeat_spec in Hc. subst. constructor.
Qed.

Lemma run_op_same o r M :
  op_dupfree o -> sorted_cols (cols M) ->
  run_op r M o = run_op RVector M o /\
  (forall M', run_op RVector M o = Ok M' -> sorted_cols (cols M')).
Proof.
  intros Hd Hs. split.
  - destruct o, r; simpl; try reflexivity; unfold addColumns, set_addColumns, setColumn, set_setColumn.
    + destruct (at_ (cols M) source) eqn:E1; simpl; auto.
      destruct (at_ (cols M) target) eqn:E2; simpl; auto.
      rewrite set_range_id; auto. apply sym_diff_sorted; apply Hs; eapply at_ok; eauto.
    + destruct (at_ (cols M) j); simpl; auto. destruct (at_ (dims M) j); simpl; auto.
      rewrite set_range_sort; auto.
  - destruct o; simpl; unfold addColumns, setColumn, clearColumn, setDimension.
    + intros M' [= <-]. apply sorted_cols_resize; auto.
    + intros M'. destruct (at_ (cols M) source) eqn:E1; simpl; [|discriminate..].
      destruct (at_ (cols M) target) eqn:E2; simpl; [|discriminate..]. intros [= <-]. simpl.
      apply sorted_cols_upd; auto. apply sym_diff_sorted; apply Hs; eapply at_ok; eauto.
    + intros M'. destruct (at_ (cols M) j) eqn:E1; simpl; [|discriminate..].
      destruct (at_ (dims M) j) eqn:E2; simpl; [|discriminate..]. intros [= <-]. simpl.
      apply sorted_cols_upd; auto. apply cpp_sort_strict; auto.
    + intros M'. destruct (at_ (cols M) j) eqn:E1; simpl; [|discriminate..]. intros [= <-]. simpl.
      apply sorted_cols_upd; auto. constructor.
    + intros M'. destruct (at_ (dims M) j) eqn:E1; simpl; [|discriminate..]. intros [= <-]. simpl. auto.
Qed.

Theorem run_same {A} (p : prog A) r M :
  dupfree p -> sorted_cols (cols M) -> run r p M = run RVector p M.
Proof.
  revert M. induction p as [a|o k IH|q k IH]; intros M Hd Hs; simpl in *; auto.
  - destruct Hd as [Ho Hd]. destruct (run_op_same o r M Ho Hs) as [-> Hs'].
    destruct (run_op RVector M o) eqn:E; apply IH; auto.
Qed.

(** ** Reduction schedules *)

(** [Y] arises from [X] by adding one column to a column on its right *)
Definition add_step (n : nat) (X Y : nat -> nat -> bool) : Prop :=
  exists k j, k < j /\ j < n /\
    forall r c, Y r c = if c =? j then xorb (X r j) (X r k) else X r c.

Inductive schedule (n : nat) (X : nat -> nat -> bool) : (nat -> nat -> bool) -> Prop :=
| schedule_refl : schedule n X X
| schedule_step Y Z : schedule n X Y -> add_step n Y Z -> schedule n X Z.

(** no two different columns have the same lowest entry *)
Definition fully_reduced (n : nat) (X : nat -> nat -> bool) : Prop :=
  forall j k i, j < n -> k < n -> j <> k ->
    is_low (fun r => X r j) i -> is_low (fun r => X r k) i -> False.

Lemma coset_ext C j x y : (forall r, x r = y r) -> coset C j x -> coset C j y.
Proof. intros E (S & HS & H). exists S. split; auto. intro r. rewrite <- E; auto. Qed.

Lemma sum_cols_app C S T r : sum_cols C (S ++ T) r = xorb (sum_cols C S r) (sum_cols C T r).
Proof.
  induction S as [|a S IH]; simpl; [destruct (sum_cols C T r); auto|].
  rewrite IH. destruct (entry C r a), (sum_cols C S r), (sum_cols C T r); auto.
Qed.

Lemma coset_plus C j k x y : k < j -> coset C j x -> coset C k y ->
  coset C j (fun r => xorb (x r) (y r)).
Proof.
  intros Hk (S & HS & Hx) (T & HT & Hy). exists (S ++ k :: T). split.
  - intros l Hl. apply in_app_or in Hl. destruct Hl as [Hl|[<-|Hl]]; auto. apply HT in Hl. lia.
  - intro r. rewrite sum_cols_app, Hx, Hy. simpl.
    destruct (entry C r j), (entry C r k), (sum_cols C S r), (sum_cols C T r); auto.
Qed.

Lemma schedule_coset C X :
  schedule (length C) (entry C) X -> forall j, j < length C -> coset C j (fun r => X r j).
Proof.
  induction 1 as [|Y Z HS IH (k & l & Hkl & Hl & HZ)]; intros j Hj.
  - exists []. split; [easy|]. intro r. simpl. destruct (entry C r j); auto.
  - destruct (Nat.eq_dec j l) as [->|Hne].
    + eapply coset_ext; [|apply (coset_plus C l k (fun r => Y r l) (fun r => Y r k)); auto; apply IH; lia].
      intro r. rewrite HZ, Nat.eqb_refl. auto.
    + eapply coset_ext; [|apply IH; auto]. intro r. rewrite HZ.
      destruct (Nat.eqb_spec j l); [easy|auto].
Qed.

Definition row_bound (C : list (list nat)) : nat := S (list_max (concat C)).

Lemma entry_row_bound C r c : entry C r c = true -> r < row_bound C.
Proof.
  unfold entry, row_bound. intro H. apply mem_In in H.
  destruct (lt_dec c (length C)).
  - pose proof (proj1 (list_max_le (concat C) (list_max (concat C))) (le_n _)) as F.
    rewrite Forall_forall in F. apply le_n_S. apply F. apply in_concat.
    exists (nth c C []). split; auto. apply nth_In; auto.
  - rewrite nth_overflow in H by lia. easy.
Qed.

Lemma coset_row_bound C j x r : coset C j x -> x r = true -> r < row_bound C.
Proof.
  intros (S & HS & Hx) E. rewrite Hx in E.
  change (sum_cols C (j :: S) r = true) in E. apply bigx_true in E.
  destruct E as (k & _ & E). eapply entry_row_bound; eauto.
Qed.

Definition tabulate (C : list (list nat)) (X : nat -> nat -> bool) : list (list nat) :=
  map (fun j => filter (fun r => X r j) (seq 0 (row_bound C))) (seq 0 (length C)).

Lemma nth_map_seq {A} (f : nat -> A) n j d : j < n -> nth j (map f (seq 0 n)) d = f j.
Proof.
  intro H. rewrite (nth_indep _ d (f 0)) by (rewrite map_length, seq_length; auto).
  rewrite map_nth, seq_nth by auto. reflexivity.
Qed.

Lemma tabulate_entry C X r j :
  j < length C -> coset C j (fun r => X r j) -> entry (tabulate C X) r j = X r j.
Proof.
  intros Hj Hc. unfold entry, tabulate.
  rewrite (nth_map_seq (fun j => filter (fun r => X r j) (seq 0 (row_bound C)))) by auto.
  apply eq_true_iff_eq.
  rewrite (mem_In r (filter (fun r => X r j) (seq 0 (row_bound C)))), filter_In, in_seq.
  split; [tauto|]. intro E. split; auto. pose proof (coset_row_bound _ _ _ _ Hc E). lia.
Qed.

Lemma is_low_ext x y i : (forall r, x r = y r) -> is_low x i -> is_low y i.
Proof. intros E [H1 H2]. split; [rewrite <- E; auto|]. intros r Hr. rewrite <- E; auto. Qed.

Lemma seq_sorted a n : StronglySorted lt (seq a n).
Proof.
  revert a; induction n; intro a; simpl; constructor; auto.
  apply Forall_forall. intros x Hx. apply in_seq in Hx. lia.
Qed.

Lemma filter_sorted f l : StronglySorted lt l -> StronglySorted lt (filter f l).
Proof.
  induction 1 as [|a l Hl IH Ha]; simpl; [constructor|]. destruct (f a); auto. constructor; auto.
  rewrite Forall_forall in *. intros x Hx. apply filter_In in Hx. apply Ha; tauto.
Qed.

Theorem schedule_low C X :
  schedule (length C) (entry C) X -> fully_reduced (length C) X ->
  forall j, j < length C ->
    (forall i, is_low (fun r => X r j) i <-> min_low C j (Some i)) /\
    (is_zero (fun r => X r j) <-> min_low C j None).
Proof.
  intros HS HR. pose proof (schedule_coset C X HS) as Hc.
  set (T := tabulate C X).
  assert (HL : length T = length C) by (unfold T, tabulate; rewrite map_length, seq_length; auto).
  assert (HE : forall j, j < length C -> forall r, entry T r j = X r j).
  { intros. apply tabulate_entry; auto. }
  assert (HsT : sorted_cols T).
  { intros c Hcc. unfold T, tabulate in Hcc. apply in_map_iff in Hcc. destruct Hcc as (j & <- & _).
    apply filter_sorted, seq_sorted. }
  assert (HC : col_equiv C T).
  { split; auto. intros j Hj. eapply coset_ext; [|apply Hc; auto]. intro r. symmetry. apply HE; auto. }
  assert (HRT : reduced T).
  { intros j k i Hj Hk Hne L1 L2. rewrite HL in *. apply (HR j k i); auto.
    - eapply is_low_ext; [|exact L1]. intro. apply HE; auto.
    - eapply is_low_ext; [|exact L2]. intro. apply HE; auto. }
  intros j Hj. pose proof (lowof_min_low C T HsT HC HRT j Hj) as Hm.
  split.
  - intro i. split.
    + intro L. assert (L' : is_low (fun r => entry T r j) i).
      { eapply is_low_ext; [|exact L]. intro. symmetry. apply HE; auto. }
      apply (proj2 (lowof_some T j i HsT)) in L'. rewrite L' in Hm. exact Hm.
    + intro L. assert (E : lowof T j = Some i) by (eapply min_low_unique; eauto).
      apply (lowof_some T j i HsT) in E. eapply is_low_ext; [|exact E]. intro. apply HE; auto.
  - split.
    + intro Z. exists (fun r => X r j). split; auto.
    + intro L. assert (E : lowof T j = None) by (eapply min_low_unique; eauto).
      apply lowof_none in E; auto. intro r. rewrite <- HE by auto. apply E.
Qed.

(** ** Structure of a pairing *)

(** all indices that occur in a pairing *)
Definition pair_indices (p : list (nat * option nat)) : list nat :=
  flat_map (fun q => fst q :: match snd q with Some v => [v] | None => [] end) p.

Lemma NoDup_flat_map {A B} (f : A -> list B) l :
  NoDup l -> (forall x, In x l -> NoDup (f x)) ->
  (forall x y z, In x l -> In y l -> In z (f x) -> In z (f y) -> x = y) ->
  NoDup (flat_map f l).
Proof.
  induction 1 as [|a l Ha Hl IH]; intros Hf Hd; simpl; [constructor|].
  apply NoDup_app_intro.
  - apply Hf; simpl; auto.
  - apply IH; intros; [apply Hf|apply (Hd x y z)]; simpl; auto.
  - intros z Hz Hz'. apply in_flat_map in Hz'. destruct Hz' as (b & Hb & Hzb).
    assert (a = b) by (apply (Hd a b z); simpl; auto). congruence.
Qed.

Lemma pair_lt_irrefl p : ~ pair_lt p p.
Proof. unfold pair_lt. destruct p as [a [b|]]; simpl; lia. Qed.

Lemma pairs_sorted_NoDup p : StronglySorted pair_lt p -> NoDup p.
Proof.
  induction 1 as [|a l Hl IH Ha]; constructor; auto.
  intro Hi. rewrite Forall_forall in Ha. apply (pair_lt_irrefl a). auto.
Qed.

(** facts about [min_low] on valid boundary matrices *)
Lemma graded_sum C dims S d r :
  (forall j r, entry C r j = true -> Datatypes.S (nth r dims 0) = nth j dims 0) ->
  sum_cols C (filter (fun k => nth k dims 0 =? d) S) r =
  if Datatypes.S (nth r dims 0) =? d then sum_cols C S r else false.
Proof.
  intro Hg. induction S as [|k S IH]; [cbn [filter sum_cols fold_right]; destruct (Datatypes.S _ =? d); reflexivity|].
  cbn [filter].
  assert (Hk : entry C r k = true -> Datatypes.S (nth r dims 0) = nth k dims 0) by apply Hg.
  change (sum_cols C (k :: S) r) with (xorb (entry C r k) (sum_cols C S r)).
  destruct (Nat.eqb_spec (nth k dims 0) d) as [Hd|Hd];
    [unfold sum_cols at 1; cbn [fold_right]; fold (sum_cols C (filter (fun k => nth k dims 0 =? d) S) r)|]; rewrite IH.
  - destruct (Nat.eqb_spec (Datatypes.S (nth r dims 0)) d) as [He|He]; auto.
    destruct (entry C r k); auto. rewrite Hk in He by auto. congruence.
  - destruct (Nat.eqb_spec (Datatypes.S (nth r dims 0)) d) as [He|He]; auto.
    destruct (entry C r k); [rewrite Hk in He by auto; congruence|]. destruct (sum_cols C S r); auto.
Qed.

Lemma valid_low_dim M v u :
  valid_boundary (cols M) (dims M) -> v < length (cols M) ->
  min_low (cols M) v (Some u) -> Datatypes.S (nth u (dims M) 0) = nth v (dims M) 0.
Proof.
  intros (HLd & Hs & Hg & Hz) Hv [(x & (S & HS & Hx) & [L1 L2]) Hmin].
  assert (Hg' : forall j r, entry (cols M) r j = true -> Datatypes.S (nth r (dims M) 0) = nth j (dims M) 0)
    by (intros; apply Hg; auto).
  destruct (Nat.eq_dec (Datatypes.S (nth u (dims M) 0)) (nth v (dims M) 0)) as [|Hne]; auto. exfalso.
  set (d := nth v (dims M) 0) in *.
  set (S' := filter (fun k => nth k (dims M) 0 =? d) S).
  destruct (Hmin (fun r => xorb (entry (cols M) r v) (sum_cols (cols M) S' r))) as (r & Hr & E).
  - exists S'. split; auto. intros k Hk. apply filter_In in Hk. apply HS; tauto.
  - assert (E' : Datatypes.S (nth r (dims M) 0) = d /\ x r = true).
    { unfold S' in E. rewrite graded_sum in E by auto.
      destruct (Nat.eqb_spec (Datatypes.S (nth r (dims M) 0)) d) as [He|He].
      - split; auto. rewrite Hx. auto.
      - rewrite xorb_false_r in E. apply Hg' in E. easy. }
    destruct E' as [E1 E2]. destruct (Nat.eq_dec r u) as [->|]; [easy|].
    rewrite L2 in E2 by lia. discriminate.
Qed.

Lemma valid_low_facts M :
  valid_boundary (cols M) (dims M) ->
  forall u v, v < length (cols M) -> min_low (cols M) v (Some u) ->
    u < v /\ S (nth u (dims M) 0) = nth v (dims M) 0 /\ min_low (cols M) u None /\
    (forall v', v' < length (cols M) -> min_low (cols M) v' (Some u) -> v' = v).
Proof.
  intros HV u v Hv Hm.
  destruct (twist_correct M HV) as (R & _ & HR).
  destruct (reduction_facts M R HV HR) as (H1 & H2 & H3 & H4 & H5 & H6).
  pose proof HV as (HLd & Hs & Hg & Hz).
  pose proof HR as (_ & _ & HsR & _ & (HLR & HcR) & _).
  assert (L : lowof (cols R) v = Some u) by (apply (min_low_iff_lowof M R v (Some u)); auto).
  pose proof (H3 _ _ L) as Huv.
  refine (conj Huv (conj _ (conj _ _))).
  - apply valid_low_dim; auto.
  - exists (fun _ => false). split; [|intro; reflexivity].
    assert (HcR' : coset (cols M) v (fun r => mem r (nth v (cols R) []))) by (apply HcR; auto).
    eapply cycle_low_zero with (c := nth v (cols R) []); eauto.
    apply nth_sorted; auto.
  - intros v' Hv' Hm'. apply (H4 v' v u); auto.
    apply (min_low_iff_lowof M R v' (Some u)); auto.
Qed.

Lemma destroyer_dec C z : sorted_cols C -> square C ->
  (exists v, v < length C /\ min_low C v (Some z)) \/
  (forall v, v < length C -> ~ min_low C v (Some z)).
Proof.
  intros Hs Hq.
  destruct (standard_correct (Matrix C (repeat 0 (length C)) false) Hs Hq) as (R & E & HR).
  destruct HR as (_ & _ & Hs' & _ & HE & HR). simpl in *.
  destruct (existsb (fun v => match lowof (cols R) v with Some i => i =? z | None => false end)
              (seq 0 (length C))) eqn:X.
  - left. apply existsb_exists in X. destruct X as (v & Hv & X). apply in_seq in Hv.
    exists v. split; [lia|]. pose proof (lowof_min_low C (cols R) Hs' HE HR v ltac:(lia)) as Hm.
    destruct (lowof (cols R) v); [|easy]. apply Nat.eqb_eq in X. subst. auto.
  - right. intros v Hv Hm. pose proof (lowof_min_low C (cols R) Hs' HE HR v ltac:(lia)) as Hm'.
    assert (L : lowof (cols R) v = Some z) by (eapply min_low_unique; eauto).
    assert (X' : existsb (fun v => match lowof (cols R) v with Some i => i =? z | None => false end)
              (seq 0 (length C)) = true).
    { apply existsb_exists. exists v. rewrite in_seq, L, Nat.eqb_refl. split; auto. lia. }
    congruence.
Qed.

(** in a pairing with all creators, every index occurs exactly once *)
Theorem pairing_structure M p :
  valid_boundary (cols M) (dims M) ->
  is_pairing (cols M) (dims M) true (fun _ => True) p ->
  Permutation (pair_indices p) (seq 0 (length (cols M))) /\
  (forall u v, In (u, Some v) p -> u < v /\ nth v (dims M) 0 = S (nth u (dims M) 0)).
Proof.
  intros HV (Hsp & Hp & Hu).
  pose proof (valid_low_facts M HV) as HF.
  pose proof HV as (HLd & Hs & Hg & Hz). pose proof (valid_square M HV) as Hq.
  split.
  2: { intros u v H. apply Hp in H. destruct H as (Hv & Hm & _). destruct (HF u v Hv Hm) as (H1 & H2 & _). auto. }
  assert (Hnd : NoDup (pair_indices p)).
  { apply NoDup_flat_map.
    - apply pairs_sorted_NoDup; auto.
    - intros [u [v|]] Hi; simpl; [|repeat constructor; easy].
      apply Hp in Hi. destruct Hi as (Hv & Hm & _). destruct (HF u v Hv Hm) as (H1 & _).
      repeat constructor; simpl; try easy. intros [|]; auto. lia.
    - intros [u o] [u' o'] z Hx Hy Hz1 Hz2. simpl in *.
      destruct o as [v|], o' as [v'|]; simpl in *.
      + apply Hp in Hx, Hy. destruct Hx as (Hv & Hm & _), Hy as (Hv' & Hm' & _).
        destruct (HF u v Hv Hm) as (A1 & A2 & A3 & A4). destruct (HF u' v' Hv' Hm') as (B1 & B2 & B3 & B4).
        destruct Hz1 as [<-|[<-|[]]], Hz2 as [E|[E|[]]]; subst.
        * rewrite (A4 v' Hv' Hm'). auto.
        * pose proof (min_low_unique _ _ _ _ A3 Hm'). discriminate.
        * pose proof (min_low_unique _ _ _ _ B3 Hm). discriminate.
        * pose proof (min_low_unique _ _ _ _ Hm Hm') as [= ->]. auto.
      + apply Hp in Hx. apply Hu in Hy. destruct Hx as (Hv & Hm & _), Hy as (Hc & Hmc & Hno & _).
        destruct Hz2 as [<-|[]]. destruct Hz1 as [->|[->|[]]].
        * exfalso. apply (Hno v); auto.
        * pose proof (min_low_unique _ _ _ _ Hm Hmc). discriminate.
      + apply Hu in Hx. apply Hp in Hy. destruct Hy as (Hv & Hm & _), Hx as (Hc & Hmc & Hno & _).
        destruct Hz1 as [<-|[]]. destruct Hz2 as [->|[->|[]]].
        * exfalso. apply (Hno v'); auto.
        * pose proof (min_low_unique _ _ _ _ Hm Hmc). discriminate.
      + destruct Hz1 as [<-|[]], Hz2 as [<-|[]]. auto. }
  apply NoDup_Permutation; auto; [apply seq_NoDup|].
  intro z. rewrite in_seq. unfold pair_indices. rewrite in_flat_map. split.
  - intros ([u [v|]] & Hi & Hx); simpl in Hx.
    + apply Hp in Hi. destruct Hi as (Hv & Hm & _). destruct (HF u v Hv Hm) as (H1 & _).
      destruct Hx as [<-|[<-|[]]]; lia.
    + apply Hu in Hi. destruct Hx as [<-|[]]. lia.
  - intros [_ Hz']. simpl in Hz'. destruct (min_low_ex (cols M) z Hs Hq Hz') as [[i|] Hm].
    + exists (i, Some z). split; [apply Hp; auto|]. simpl; auto.
    + destruct (destroyer_dec (cols M) z Hs Hq) as [(v & Hv & Hmv)|Hno].
      * exists (z, Some v). split; [apply Hp; auto|]. simpl; auto.
      * exists (z, None). split; [apply Hu; refine (conj Hz' (conj Hm (conj Hno (conj _ I)))); auto|]. simpl; auto.
Qed.

(** without the flag exactly the unpaired creators of top dimension are missing *)
Theorem pairing_without_top M ok p q :
  is_pairing (cols M) (dims M) true ok p -> is_pairing (cols M) (dims M) false ok q ->
  q = filter (fun x => match snd x with
                       | Some _ => true
                       | None => negb (nth (fst x) (dims M) 0 =? max_dim (dims M))
                       end) p.
Proof.
  intros (Sp & Hp & Up) (Sq & Hq & Uq). apply sorted_pairs_ext; auto.
  - clear - Sp. induction Sp as [|a l Hl IH Ha]; simpl; [constructor|].
    destruct (match snd a with Some _ => _ | None => _ end); auto. constructor; auto.
    rewrite Forall_forall in *. intros x Hx. apply filter_In in Hx. apply Ha; tauto.
  - intros [u [v|]]; rewrite filter_In; simpl.
    + rewrite Hp, Hq. tauto.
    + rewrite Up, Uq. rewrite negb_true_iff, Nat.eqb_neq. intuition discriminate.
Qed.
