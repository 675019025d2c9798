(** * The Twist algorithm on matrices that are not filtered boundary matrices

    [PhiPersistence.hh] reduces matrices whose columns may refer to later rows
    and which do not square to zero.  The Twist algorithm is correct for every
    graded matrix such that a column that can become the lowest entry of another
    column can be made zero. *)

From Coq Require Import List Arith Bool Lia Sorted Permutation.
From Verif Require Import Base BaseFacts Matrix SpecMatrix ReductionFacts AlgorithmFacts PairingFacts DualFacts RepFacts.
Import ListNotations.

Definition graded (C : list (list nat)) (dims : list nat) : Prop :=
  forall j r, entry C r j = true -> S (nth r dims 0) = nth j dims 0.

Definition clears (C : list (list nat)) : Prop :=
  forall j i, j < length C -> min_low C j (Some i) -> min_low C i None.

Definition twistable (C : list (list nat)) (dims : list nat) : Prop :=
  length dims = length C /\ sorted_cols C /\ square C /\ graded C dims /\ clears C.

Lemma nth_upd_neq {A} (l : list A) i k a d : k <> i -> nth k (upd l i a) d = nth k l d.
Proof. intro H. rewrite nth_upd. destruct (Nat.eqb_spec k i); [easy|auto]. Qed.

Section Restrict.
  Variables (dims : list nat) (m : nat).
  Definition selected (k : nat) : bool := (k <=? m) && (nth k dims 0 =? nth m dims 0).
  Definition restrict (X : list (list nat)) : list (list nat) :=
    map (fun k => if selected k then nth k X [] else []) (seq 0 (length X)).

  Lemma restrict_nth X k : nth k (restrict X) [] = if selected k then nth k X [] else [].
  Proof.
    destruct (lt_dec k (length X)) as [H|H].
    - unfold restrict. rewrite (nth_indep _ [] ((fun k => if selected k then nth k X [] else []) 0))
        by (rewrite map_length, seq_length; auto).
      rewrite (map_nth (fun k => if selected k then nth k X [] else [])), seq_nth by auto. reflexivity.
    - rewrite !nth_overflow; [destruct (selected k); auto|lia|].
      unfold restrict. rewrite map_length, seq_length. lia.
  Qed.

  Lemma restrict_length X : length (restrict X) = length X.
  Proof. unfold restrict. rewrite map_length, seq_length. auto. Qed.

  Lemma restrict_entry X r k : entry (restrict X) r k = selected k && entry X r k.
  Proof. unfold entry. rewrite restrict_nth. destruct (selected k); auto. Qed.

  Lemma restrict_sorted X : sorted_cols X -> sorted_cols (restrict X).
  Proof.
    intros H c Hc. unfold restrict in Hc. apply in_map_iff in Hc. destruct Hc as (k & <- & _).
    destruct (selected k); [apply nth_sorted; auto|constructor].
  Qed.

  Lemma restrict_sum X T r : (forall k, In k T -> k <= m) -> graded X dims ->
    sum_cols (restrict X) T r = if S (nth r dims 0) =? nth m dims 0 then sum_cols X T r else false.
  Proof.
    intros HT Hg. rewrite <- (graded_sum X dims T (nth m dims 0) r Hg). induction T as [|k T IH]; auto.
    cbn [filter]. assert (Hk : k <= m) by (apply HT; simpl; auto).
    change (sum_cols (restrict X) (k :: T) r) with (xorb (entry (restrict X) r k) (sum_cols (restrict X) T r)).
    rewrite IH by (intros; apply HT; simpl; auto). rewrite restrict_entry. unfold selected.
    destruct (Nat.leb_spec k m); [|lia]. destruct (nth k dims 0 =? nth m dims 0); cbn [andb]; [reflexivity|apply xorb_false_l].
  Qed.
End Restrict.

(** The lowest entry of a column that differs from those of all columns of the
    same dimension to its left is the smallest possible one. *)
Lemma reduced_low C R dims m i :
  sorted_cols R -> col_equiv C R -> graded C dims -> graded R dims ->
  m < length C -> lowof R m = Some i ->
  (forall k, k < m -> nth k dims 0 = nth m dims 0 -> lowof R k <> Some i) ->
  (forall j k i', j < m -> k < m -> nth j dims 0 = nth m dims 0 -> nth k dims 0 = nth m dims 0 ->
     lowof R j = Some i' -> lowof R k = Some i' -> j = k) ->
  min_low C m (Some i).
Proof.
  intros Hs HE HgC HgR Hm L Hno Hdis. pose proof HE as [HL HC].
  assert (HE' : col_equiv (restrict dims m C) (restrict dims m R)).
  { split; [rewrite !restrict_length; auto|]. rewrite restrict_length. intros j Hj.
    destruct (selected dims m j) eqn:Ej.
    - destruct (HC j Hj) as (T & HT & ET).
      assert (Hjm : j <= m /\ nth j dims 0 = nth m dims 0).
      { unfold selected in Ej. apply andb_true_iff in Ej. rewrite Nat.leb_le, Nat.eqb_eq in Ej. auto. }
      exists T. split; auto. intro r. rewrite restrict_sum by (auto; intros k Hk; apply HT in Hk; lia).
      rewrite !restrict_entry, Ej. cbn [andb]. rewrite ET.
      destruct (Nat.eqb_spec (S (nth r dims 0)) (nth m dims 0)) as [Hd|Hd]; auto.
      rewrite xorb_false_r, <- ET.
      destruct (entry R r j) eqn:E1; [apply HgR in E1; lia|].
      destruct (entry C r j) eqn:E2; [apply HgC in E2; lia|]. auto.
    - exists []. split; [easy|]. intro r. rewrite !restrict_entry, Ej. auto. }
  assert (Low : forall k, lowof (restrict dims m R) k = if selected dims m k then lowof R k else None).
  { intro k. unfold lowof. rewrite restrict_nth. destruct (selected dims m k); auto. }
  assert (Hsm : selected dims m m = true).
  { unfold selected. rewrite Nat.leb_refl, Nat.eqb_refl. auto. }
  assert (HR' : reduced (restrict dims m R)).
  { intros j k i' Hj Hk Hne L1 L2. apply Hne.
    apply lowof_some in L1, L2; try (apply restrict_sorted; auto). rewrite Low in L1, L2.
    destruct (selected dims m j) eqn:Ej; [|discriminate]. destruct (selected dims m k) eqn:Ek; [|discriminate].
    unfold selected in Ej, Ek. apply andb_true_iff in Ej, Ek. rewrite Nat.leb_le, Nat.eqb_eq in Ej, Ek.
    destruct (Nat.eq_dec j m) as [->|], (Nat.eq_dec k m) as [->|]; auto.
    - exfalso. apply (Hno k); [lia|tauto|congruence].
    - exfalso. apply (Hno j); [lia|tauto|congruence].
    - apply (Hdis j k i'); auto; try lia; tauto. }
  pose proof (lowof_min_low (restrict dims m C) (restrict dims m R) (restrict_sorted dims m R Hs) HE' HR' m
                ltac:(rewrite restrict_length; auto)) as Hml.
  rewrite Low, Hsm, L in Hml. destruct Hml as [_ Hmin]. split.
  - exists (fun r => entry R r m). split; [apply HC; auto|]. apply lowof_some; auto.
  - intros x (T & HT & Ex).
    destruct (Hmin (fun r => xorb (entry (restrict dims m C) r m) (sum_cols (restrict dims m C) T r))) as (r & Hr & Er).
    { exists T. split; auto. }
    exists r. split; auto. cbv beta in Er.
    rewrite restrict_sum, restrict_entry, Hsm in Er by (auto; intros k Hk; apply HT in Hk; lia). cbn [andb] in Er.
    destruct (Nat.eqb_spec (S (nth r dims 0)) (nth m dims 0)) as [Hd|Hd].
    + rewrite Ex. auto.
    + rewrite xorb_false_r in Er. apply HgC in Er. lia.
Qed.

Lemma twist_step_gen M0 d m st :
  twistable (cols M0) (dims M0) ->
  m < length (cols M0) -> twist_inv M0 d m st ->
  exists st', twist_step d st m = Ok st' /\ twist_inv M0 d (S m) st'.
Proof.
  intro HV. pose proof HV as (HLd & HsC & HqC & Hg & Hz).
  destruct st as [M t]. intros Hm (Hd & Hdu & Hs & Hq & HE & Hgr & Hlut).
  pose proof HE as [HL _]. pose proof Hlut as [Hlt Ht].
  unfold twist_step, getDimension, at_. rewrite Hd.
  destruct (nth_error_ex (dims M0) m) as [dm Edm]; [lia|]. rewrite Edm. simpl.
  assert (Hdm : dimof M0 m = dm) by (apply nth_error_nth; auto).
  destruct (Nat.eqb_spec dm d) as [->|Hne].
  2: { (* other dimension: nothing happens *)
    eexists. split; [reflexivity|]. conj7; auto.
    intros i k. rewrite Ht. split.
    - intros [[Hk H] Hl]. split; auto. split; auto. lia.
    - intros [[Hk H] Hl]. split; auto. split; auto.
      destruct H as [H|[H1 H2]]; auto. destruct (Nat.eq_dec k m).
      + subst k. lia.
      + right. split; auto. lia. }
  destruct (column_fuel_ok M m) as [F1 F2]; [lia|].
  destruct (reduce_column_spec (fun i => S (dimof M0 i) = d) (column_fuel M m) M t m)
    as (c & S & o & E & Sc & Bc & Lc & Tn & TS & Ec); auto; try lia.
  { intros i k H. apply Ht in H. destruct H as [[Hk H] Hl]. split; auto.
    intros ->. destruct H as [H|[_ H]]; lia. }
  { intros r Hr. apply Hgr in Hr. lia. }
  { intros i k r Hi H Hr. apply Hgr in Hr.
    apply Ht in H. destruct H as [_ Hl]. apply lowof_some in Hl; auto.
    destruct Hl as [Hl _]. apply Hgr in Hl. lia. }
  rewrite E. simpl.
  (* columns added are to the left and of dimension d *)
  assert (HS : forall k, In k S -> k < m).
  { intros k Hk. destruct (TS k Hk) as (i & Hi & H). apply Ht in H. destruct H as [[Hk' H] Hl].
    apply lowof_some in Hl; auto. destruct Hl as [Hl _]. apply Hgr in Hl.
    destruct H as [H|[_ H]]; lia. }
  assert (Hcos : coset (cols M0) m (fun r => mem r c)) by (eapply coset_add; eauto).
  assert (HE' : col_equiv (cols M0) (upd (cols M) m c)) by (apply col_equiv_upd; auto).
  assert (Hgr' : forall j r, entry (upd (cols M) m c) r j = true -> Datatypes.S (dimof M0 r) = dimof M0 j).
  { intros j r. rewrite entry_upd. destruct (Nat.eqb_spec j m) as [->|]; simpl; [|apply Hgr].
    destruct (Nat.ltb_spec m (length (cols M))); [|lia].
    intro Hr. apply mem_In, Bc in Hr. lia. }
  destruct o as [i|].
  - assert (Hi : i < length (cols M) /\ Datatypes.S (dimof M0 i) = d).
    { apply Bc. apply last_opt_In; auto. }
    destruct Hi as [Hi Hid].
    assert (Him : i <> m) by (intros ->; lia).
    unfold clearColumn, at_. simpl.
    destruct (nth_error_ex (upd (cols M) m c) i) as [ci Eci]; [rewrite upd_length; lia|].
    rewrite Eci. simpl. eexists. split; [reflexivity|].
    unfold twist_inv. simpl.
    assert (Hclear : coset (cols M0) i (fun r => mem r [])).
    { destruct (Hz m i) as (x & (U & HU & EU) & Ex); auto.
      - apply (reduced_low (cols M0) (upd (cols M) m c) (dims M0) m i); auto.
        + apply sorted_cols_upd; auto.
        + rewrite lowof_upd_eq by lia. auto.
        + intros k Hk Hdk Hl. rewrite lowof_upd_neq in Hl by lia.
          assert (Hn' : nth_error t i = Some (Some k)).
          { apply Ht. split; auto. split; [lia|]. right. split; auto. unfold dimof in *. congruence. }
          rewrite (Tn i eq_refl) in Hn'. discriminate.
        + intros j k i' Hj Hk Hdj Hdk L1 L2. rewrite lowof_upd_neq in L1, L2 by lia.
          apply (lut_distinct _ _ _ j k i' Hlut); auto; unfold dimof in *; (split; [lia|right; split; [congruence|auto]]).
      - exists U. split; auto. intro r. rewrite <- EU. symmetry. apply Ex. }
    assert (Hlow : forall k, k <> i -> k <> m -> lowof (upd (upd (cols M) m c) i []) k = lowof (cols M) k).
    { intros k H1 H2. rewrite !lowof_upd_neq by auto. auto. }
    assert (Hlowm : lowof (upd (upd (cols M) m c) i []) m = Some i).
    { rewrite lowof_upd_neq by auto. rewrite lowof_upd_eq by lia. auto. }
    assert (Hlowi : lowof (upd (upd (cols M) m c) i []) i = None).
    { rewrite lowof_upd_eq by (rewrite upd_length; lia). reflexivity. }
    conj7; auto.
    + apply sorted_cols_upd; [apply sorted_cols_upd; auto|constructor].
    + apply square_upd; [apply square_upd; auto|easy]. intros r Hr. apply Bc; auto.
    + apply col_equiv_upd; auto. lia.
    + intros j r. rewrite entry_upd. destruct (Nat.eqb_spec j i) as [->|]; simpl; [|apply Hgr'].
      destruct (Nat.ltb_spec i (length (upd (cols M) m c))); [discriminate|apply Hgr'].
    + rewrite !upd_length; auto.
    + intros i0 k. rewrite nth_error_upd. destruct (Nat.ltb_spec i (length t)); [|lia].
      rewrite andb_true_r. split.
      * intro H0. destruct (Nat.eqb_spec i i0).
        -- injection H0 as <-. subst i0. split; auto.
        -- apply Ht in H0. destruct H0 as [[Hk H0] H3].
           split; [split; auto; lia|]. rewrite Hlow; auto; intros ->; lia.
      * intros [[Hk H0] Hl].
        destruct (Nat.eq_dec k m) as [->|Hkm].
        -- rewrite Hlowm in Hl. injection Hl as <-. rewrite Nat.eqb_refl. auto.
        -- destruct (Nat.eq_dec k i) as [->|Hki]; [congruence|].
           rewrite Hlow in Hl by auto.
           assert (Hn : nth_error t i0 = Some (Some k)).
           { apply Ht. split; auto. split; auto. lia. }
           destruct (Nat.eqb_spec i i0); auto. subst i0.
           rewrite (Tn i eq_refl) in Hn. discriminate.
  - eexists. split; [reflexivity|]. conj7; auto.
    + apply sorted_cols_upd; auto.
    + apply square_upd; auto. intros r Hr. apply Bc; auto.
    + rewrite upd_length; auto.
    + intros i0 k. rewrite Ht. split.
      * intros [[Hk H] H3]. split; [split; auto; lia|]. rewrite lowof_upd_neq; auto. intros ->; lia.
      * intros [[Hk H] Hl]. destruct (Nat.eq_dec k m) as [->|Hkm].
        -- rewrite lowof_upd_eq in Hl by lia. congruence.
        -- rewrite lowof_upd_neq in Hl by auto. split; auto. split; auto. lia.
Qed.

Theorem twist_correct_gen M :
  twistable (cols M) (dims M) ->
  exists R, twist M = Ok R /\ reduction_of M R.
Proof.
  intros HV. pose proof HV as (HLd & HsC & Hq & Hg & Hz).
  unfold twist, getNumColumns.
  destruct (foldM_rev_seq_inv (twist_dim (length (cols M)))
              (fun d st => twist_inv M d 0 st) (getMaxDimension M)
              (M, repeat None (length (cols M)))) as ([R t] & E & Inv).
  - intros d st Hd Hst. unfold twist_dim.
    destruct (foldM_seq_inv (twist_step d) (twist_inv M d) (length (cols M)) 0 st) as (st' & E & Inv); auto.
    + intros m st0 Hm. apply twist_step_gen; auto. lia.
    + exists st'. split; auto. destruct st' as [M' t'].
      destruct Inv as (I1 & I2 & I3 & I4 & I5 & I6 & [I7 I8]).
      conj7; auto. intros i k. rewrite I8. split.
      * intros [[Hk H] H3]. split; auto. split; auto. lia.
      * intros [[Hk H] Hl]. split; auto. split; auto. lia.
  - conj7; auto.
    + apply col_equiv_refl.
    + apply repeat_length.
    + intros i k. split; intro H.
      * apply nth_error_repeat_some in H. discriminate.
      * destruct H as [[Hk H] Hl]. pose proof (getMaxDimension_ge M k). lia.
  - rewrite E. simpl. exists R. split; auto.
    destruct Inv as (I1 & I2 & I3 & I4 & I5 & I6 & Hl).
    repeat split; auto; try apply I5.
    intros j k i Hj Hk Hne L1 L2. apply Hne.
    assert (Hdim : forall x, is_low (fun r => entry (cols R) r x) i -> 0 < dimof M x).
    { intros x [H _]. apply I6 in H. lia. }
    pose proof (Hdim _ L1). pose proof (Hdim _ L2).
    destruct I5 as [HL _].
    apply lowof_some in L1, L2; auto.
    eapply lut_distinct; eauto; simpl; split; try lia; auto.
Qed.

