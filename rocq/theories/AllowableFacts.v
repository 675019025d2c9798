(** * Pairings of reduced matrices with lowest entries below the diagonal *)

From Coq Require Import List Arith Bool Lia Sorted Permutation.
From Verif Require Import Base BaseFacts Matrix SpecMatrix ReductionFacts AlgorithmFacts PairingFacts DualFacts RepFacts
  TwistFacts SpecHomology HomologyFacts.
Import ListNotations.

Definition pair_inv2 (R : matrix) (all : bool) (mx : option nat) (m : nat) (st : pair_state) : Prop :=
  let n := length (cols R) in
  NoDup (p_pairs st) /\
  (forall u o, In (u, o) (p_pairs st) <->
     exists i j, j < m /\ lowof (cols R) j = Some i /\
       u = fst (tr (dualized R) n i j) /\ o = Some (snd (tr (dualized R) n i j)) /\
       allowed mx n u = true) /\
  NoDup (p_creators st) /\
  (forall c, In c (p_creators st) <->
     c < m /\ lowof (cols R) c = None /\ top_ok R all c /\
     forall j, c < j -> j < m -> lowof (cols R) j <> Some c) /\
  (forall v, In v (p_destroyers st) <->
     exists i j, j < m /\ lowof (cols R) j = Some i /\ v = snd (tr (dualized R) n i j)).

Lemma pairing_step_gen R all mx m st :
  length (dims R) = length (cols R) ->
  square (cols R) ->
  (forall j k i, lowof (cols R) j = Some i -> lowof (cols R) k = Some i -> j = k) ->
  m < length (cols R) -> pair_inv2 R all mx m st ->
  exists st', pairing_step R all mx st m = Ok st' /\ pair_inv2 R all mx (S m) st'.
Proof.
  intros HLd Hq Hinj Hm (P1 & P2 & P3 & P4 & P5). unfold pairing_step.
  rewrite getMaximumIndex_lowof by auto. unfold getNumColumns. simpl.
  set (n := length (cols R)) in *.
  destruct (lowof (cols R) m) as [i|] eqn:El.
  - assert (Etr : (if dualized R then (n - 1 - m, n - 1 - i) else (i, m)) = tr (dualized R) n i m) by reflexivity.
    rewrite Etr. destruct (tr (dualized R) n i m) as [u v] eqn:Euv.
    eexists. split; [reflexivity|]. unfold pair_inv2. simpl. fold n.
    assert (Hnew : ~ In (u, Some v) (p_pairs st)).
    { intro H. apply P2 in H. destruct H as (i' & j' & Hj' & L & Eu & Ev & _).
      injection Ev as Ev. clear - Euv Eu Ev Hj' Hm L El Hinj.
      unfold tr in *. destruct (dualized R); simpl in *; injection Euv as <- <-.
      - assert (j' = m) by lia. lia.
      - subst. lia. }
    refine (conj _ (conj _ (conj _ (conj _ _)))).
    + destruct (allowed mx n u); auto.
      apply NoDup_app_intro; auto; [repeat constructor; easy|].
      intros x Hx [<-|[]]; auto.
    + intros u' o. split.
      * intro H. assert (H' : In (u', o) (p_pairs st) \/ (u', o) = (u, Some v) /\ allowed mx n u = true).
        { destruct (allowed mx n u) eqn:Ea; auto. apply in_app_or in H. destruct H as [H|[H|[]]]; auto. }
        destruct H' as [H'|[[= -> ->] Ha]].
        -- apply P2 in H'. destruct H' as (i' & j' & Hj' & H'). exists i', j'. split; [lia|auto].
        -- exists i, m. rewrite Euv. simpl. auto.
      * intros (i' & j' & Hj' & L & Eu & Eo & Ha).
        destruct (Nat.eq_dec j' m) as [->|Hne].
        -- rewrite El in L. injection L as <-. rewrite Euv in *. simpl in *. subst.
           rewrite Ha. apply in_or_app. right. simpl. auto.
        -- assert (In (u', o) (p_pairs st)).
           { apply P2. exists i', j'. split; [lia|auto]. }
           destruct (allowed mx n u); auto. apply in_or_app; auto.
    + apply NoDup_filter; auto.
    + intro c. rewrite uset_erase_In, P4. split.
      * intros [(H1 & H2 & H3 & H4) H5]. repeat split; auto.
        intros j Hc Hj. destruct (Nat.eq_dec j m) as [->|]; [congruence|]. apply H4; lia.
      * intros (H1 & H2 & H3 & H4). destruct (Nat.eq_dec c m) as [->|]; [congruence|].
        repeat split; auto; try lia. intros ->. apply (H4 m); auto; lia.
    + intro v'. rewrite uset_insert_In, P5. split.
      * intros [->|(i' & j' & Hj' & H)].
        -- exists i, m. rewrite Euv. auto.
        -- exists i', j'. split; [lia|auto].
      * intros (i' & j' & Hj' & L & E). destruct (Nat.eq_dec j' m) as [->|].
        -- rewrite El in L. injection L as <-. rewrite Euv in E. auto.
        -- right. exists i', j'. split; [lia|auto].
  - unfold getDimension, at_. destruct (nth_error_ex (dims R) m) as [dm Ed]; [lia|]. rewrite Ed.
    cbn [bind].
    assert (Hdm : dimof R m = dm) by (apply nth_error_nth; auto).
    assert (Hcond : (negb (dualized R) && negb (dm =? getMaxDimension R)
                     || dualized R && negb (dm =? 0) || all = true) <-> top_ok R all m).
    { unfold top_ok. rewrite Hdm. destruct (dualized R), all; simpl;
        rewrite ?orb_true_r, ?orb_false_r, ?negb_true_iff, ?Nat.eqb_neq; intuition congruence. }
    assert (Hpairs : forall u o, In (u, o) (p_pairs st) <->
       exists i j, j < S m /\ lowof (cols R) j = Some i /\
       u = fst (tr (dualized R) n i j) /\ o = Some (snd (tr (dualized R) n i j)) /\
       allowed mx n u = true).
    { intros u o. rewrite P2. split; intros (i' & j' & Hj' & L & H).
      - exists i', j'. split; [lia|auto].
      - exists i', j'. split; [|auto]. assert (j' <> m) by (intros ->; congruence). lia. }
    assert (Hdes : forall v, In v (p_destroyers st) <->
       exists i j, j < S m /\ lowof (cols R) j = Some i /\ v = snd (tr (dualized R) n i j)).
    { intros v. rewrite P5. split; intros (i' & j' & Hj' & L & H).
      - exists i', j'. split; [lia|auto].
      - exists i', j'. split; [|auto]. assert (j' <> m) by (intros ->; congruence). lia. }
    assert (Hlows : forall c, (forall j, c < j -> j < m -> lowof (cols R) j <> Some c) ->
                              forall j, c < j -> j < S m -> lowof (cols R) j <> Some c).
    { intros c H j Hc Hj. destruct (Nat.eq_dec j m) as [->|]; [congruence|]. apply H; lia. }
    destruct (_ || all) eqn:Ec.
    + pose proof (proj1 Hcond eq_refl) as Htop.
      eexists. split; [reflexivity|]. unfold pair_inv2. simpl. fold n.
      refine (conj P1 (conj Hpairs (conj _ (conj _ Hdes)))).
      * apply uset_insert_NoDup; auto.
      * intro c. rewrite uset_insert_In, P4. split.
        -- intros [->|(H1 & H2 & H3 & H4)].
           ++ repeat split; auto. intros j Hc Hj. lia.
           ++ repeat split; auto.
        -- intros (H1 & H2 & H3 & H4). destruct (Nat.eq_dec c m); auto. right.
           repeat split; auto. lia.
    + eexists. split; [reflexivity|]. unfold pair_inv2. fold n.
      refine (conj P1 (conj Hpairs (conj P3 (conj _ Hdes)))).
      intro c. rewrite P4. split.
      * intros (H1 & H2 & H3 & H4). repeat split; auto.
      * intros (H1 & H2 & H3 & H4). destruct (Nat.eq_dec c m) as [->|].
        -- apply Hcond in H3. discriminate.
        -- repeat split; auto. lia.
Qed.

Theorem pairing_of_reduced_gen order R all mx :
  (forall l, Permutation (order l) l) ->
  length (dims R) = length (cols R) ->
  square (cols R) ->
  (forall j k i, lowof (cols R) j = Some i -> lowof (cols R) k = Some i -> j = k) ->
  exists p, pairing_of_reduced order R all mx = Ok p /\
    StronglySorted pair_lt p /\
    let n := length (cols R) in
    (forall u v, In (u, Some v) p <->
       exists i j, j < n /\ lowof (cols R) j = Some i /\ (u, v) = tr (dualized R) n i j /\
                   allowed mx n u = true) /\
    (forall c, In (c, None) p <->
       exists k, k < n /\ lowof (cols R) k = None /\ top_ok R all k /\
         (forall j, k < j -> j < n -> lowof (cols R) j <> Some k) /\ c = tr1 (dualized R) n k /\
         allowed mx n c = true /\
         (forall i j, j < n -> lowof (cols R) j = Some i -> c <> snd (tr (dualized R) n i j))).
Proof.
  intros Hord HLd Hq Hinj. unfold pairing_of_reduced, getNumColumns.
  set (n := length (cols R)).
  destruct (foldM_seq_inv (pairing_step R all mx) (pair_inv2 R all mx) n 0 (PairState [] [] []))
    as (st & E & Inv).
  { intros m st Hm. apply pairing_step_gen; auto. fold n. lia. }
  { unfold pair_inv2. simpl. repeat split; try constructor; try easy;
      intros; repeat match goal with H : exists _, _ |- _ => destruct H end; lia. }
  rewrite E. simpl in *. destruct Inv as (P1 & P2 & P3 & P4 & P5). fold n in P2, P4, P5.
  eexists. split; [reflexivity|].
  assert (Hcre : forall k, In k (order (p_creators st)) <-> In k (p_creators st)).
  { intro k. split; apply Permutation_in; [|symmetry]; apply Hord. }
  assert (Htr1 : forall k, (if dualized R then n - 1 - k else k) = tr1 (dualized R) n k) by reflexivity.
  assert (Hnd : forall c, mem c (p_destroyers st) = false <->
            (forall i j, j < n -> lowof (cols R) j = Some i -> c <> snd (tr (dualized R) n i j))).
  { intro c. rewrite mem_false, P5. split.
    - intros H i j Hj L ->. apply H. exists i, j. auto.
    - intros H (i & j & Hj & L & Ev). apply (H i j Hj L Ev). }
  assert (Hun : forall c, In (c, None) (unpaired_of R mx (p_destroyers st) (order (p_creators st))) <->
            exists k, In k (p_creators st) /\ c = tr1 (dualized R) n k /\ allowed mx n c = true /\
              mem c (p_destroyers st) = false).
  { intro c. unfold unpaired_of, getNumColumns. fold n. rewrite in_flat_map. split.
    - intros (k & Hk & H). apply Hcre in Hk. rewrite Htr1 in H.
      destruct (mem (tr1 (dualized R) n k) (p_destroyers st)) eqn:Em; [easy|].
      destruct (allowed mx n (tr1 (dualized R) n k)) eqn:Ea; [|easy].
      destruct H as [H|[]]. injection H as <-. exists k. auto.
    - intros (k & Hk & -> & Ha & Em). exists k. split; [apply Hcre; auto|].
      rewrite Htr1, Em, Ha. simpl. auto. }
  assert (Hun' : forall u v, ~ In (u, Some v) (unpaired_of R mx (p_destroyers st) (order (p_creators st)))).
  { intros u v H. unfold unpaired_of, getNumColumns in H. apply in_flat_map in H.
    destruct H as (k & Hk & H).
    destruct (mem _ _); [easy|]. destruct (allowed _ _ _); [|easy]. destruct H as [H|[]]. discriminate. }
  split; [|split].
  - apply sort_pairs_sorted. apply NoDup_app_intro; auto.
    + unfold unpaired_of, getNumColumns. fold n.
      apply NoDup_flat_map_single with (g := fun k => (tr1 (dualized R) n k, None)).
      * eapply Permutation_NoDup; [symmetry; apply Hord|auto].
      * intros k _. rewrite Htr1. destruct (mem _ _); auto. destruct (allowed _ _ _); auto.
      * intros x y Hx Hy Exy. injection Exy as Exy. apply Hcre, P4 in Hx, Hy.
        unfold tr1 in Exy. destruct (dualized R); lia.
    + intros [u [v|]] H; [apply Hun'|]. apply P2 in H.
      destruct H as (i & j & _ & _ & _ & H & _). discriminate.
  - intros u v. rewrite cpp_sort_In, in_app_iff, P2. split.
    + intros [(i & j & Hj & L & Eu & Ev & Ha)|H]; [|exfalso; eapply Hun'; eauto].
      exists i, j. repeat split; auto. injection Ev as Ev. destruct (tr (dualized R) n i j). simpl in *. congruence.
    + intros (i & j & Hj & L & Euv & Ha). left. exists i, j. rewrite <- Euv. auto.
  - intro c. rewrite cpp_sort_In, in_app_iff, P2, Hun. split.
    + intros [(i & j & Hj & L & Eu & Ev & Ha)|(k & Hk & Ec & Ha & Em)]; [discriminate|].
      apply P4 in Hk. destruct Hk as (Hk & Lk & Ht & Hno). pose proof (proj1 (Hnd c) Em) as Em'. exists k. auto 10.
    + intros (k & Hk & Lk & Ht & Hno & Ec & Ha & Hd). right. exists k.
      refine (conj (proj2 (P4 k) _) (conj Ec (conj Ha (proj2 (Hnd c) Hd)))). auto.
Qed.

(** ** Matrices of the boundary operator restricted to the first [s] columns *)
Definition allowable_matrix (C : list (list nat)) (dims : list nat) (s : nat) : Prop :=
  length dims = length C /\ sorted_cols C /\ s <= length C /\
  (forall j r, entry C r j = true ->
     j < s /\ r < length C /\ (r < j \/ s <= r) /\ S (nth r dims 0) = nth j dims 0) /\
  (forall x, (forall k, x k = true -> k < s) -> (forall r, bd C x r = true -> r < s) ->
     veq (bd C (bd C x)) vzero).

Lemma chain_of_coset_gen C dims j x : graded C dims -> j < length C -> coset C j x ->
  exists y, is_low y j /\ chain dims (S j) (nth j dims 0) y /\
    forall r, bd C y r = if S (nth r dims 0) =? nth j dims 0 then x r else false.
Proof.
  intros Hgrade Hj (S0 & HS & Hx).
  set (T := j :: filter (fun k => nth k dims 0 =? nth j dims 0) S0).
  exists (vlist T).
  assert (Hin : forall k, vlist T k = true -> k <= j /\ nth k dims 0 = nth j dims 0).
  { intros k Hk. apply vlist_true in Hk. destruct Hk as [<-|Hk]; [auto|].
    apply filter_In in Hk. destruct Hk as [Hk E]. apply Nat.eqb_eq in E. apply HS in Hk. split; [lia|auto]. }
  refine (conj (conj _ _) (conj _ _)).
  - unfold T. cbn [vlist fold_right]. fold (vlist (filter (fun k => nth k dims 0 =? nth j dims 0) S0)).
    unfold vadd, vsingle. rewrite Nat.eqb_refl.
    destruct (vlist _ j) eqn:E; auto. apply vlist_true, filter_In in E. destruct E as [E _]. apply HS in E. lia.
  - intros r Hr. destruct (vlist T r) eqn:E; auto. apply Hin in E. lia.
  - intros k Hk. apply Hin in Hk. split; [lia|tauto].
  - intro r. rewrite bd_vlist.
    + replace T with (filter (fun k => nth k dims 0 =? nth j dims 0) (j :: S0))
        by (cbn [filter]; rewrite Nat.eqb_refl; auto).
      rewrite graded_sum by auto. rewrite Hx. reflexivity.
    + intros k [<-|Hk]; auto. apply filter_In in Hk. destruct Hk as [Hk _]. apply HS in Hk. lia.
Qed.

Section Allowable.
  Variables (C : list (list nat)) (dims : list nat) (s : nat).
  Hypothesis HA : allowable_matrix C dims s.
  Let n := length C.

  Let HLd : length dims = length C := proj1 HA.
  Let Hsort : sorted_cols C := proj1 (proj2 HA).
  Let Hs : s <= length C := proj1 (proj2 (proj2 HA)).
  Let Hent := proj1 (proj2 (proj2 (proj2 HA))).
  Let Hsq := proj2 (proj2 (proj2 (proj2 HA))).

  Lemma allow_square : square C.
  Proof.
    intros c r Hc Hr. destruct (In_nth_error _ _ Hc) as [j Ej].
    destruct (Hent j r) as (_ & H & _); auto. rewrite (entry_nth _ _ _ _ Ej). apply mem_In; auto.
  Qed.

  Lemma allow_graded : graded C dims.
  Proof. intros j r H. apply Hent in H. tauto. Qed.

  Lemma allow_empty i : s <= i -> min_low C i None.
  Proof.
    intro Hi. exists (fun r => entry C r i). split.
    - exists []. split; [easy|]. intro r. rewrite xorb_false_r. auto.
    - intro r. destruct (entry C r i) eqn:E; auto. apply Hent in E. lia.
  Qed.

  Lemma allow_low_col j i : min_low C j (Some i) -> j < s.
  Proof.
    intro H. destruct (lt_dec j s); auto. assert (N : min_low C j None) by (apply allow_empty; lia).
    pose proof (min_low_unique _ _ _ _ H N). discriminate.
  Qed.

  Lemma allow_bound_ex u v : min_low C v (Some u) ->
    exists y, chain dims (S v) (S (nth u dims 0)) y /\ is_low (bd C y) u /\ is_low y v.
  Proof.
    intros Hm. pose proof (allow_low_col _ _ Hm) as Hv.
    pose proof Hm as [(x & Hx & [L1 L2]) Hmin].
    destruct (chain_of_coset_gen C dims v x allow_graded ltac:(lia) Hx) as (y & Hl & Hc & Hb).
    assert (Hd : S (nth u dims 0) = nth v dims 0).
    { destruct (Hmin (bd C y)) as (r & Hr & Er).
      - apply coset_of_chain; [lia|apply Hl|apply Hl].
      - rewrite Hb in Er. destruct (Nat.eqb_spec (S (nth r dims 0)) (nth v dims 0)) as [E|]; [|discriminate].
        destruct (Nat.eq_dec r u) as [->|]; auto. rewrite L2 in Er by lia. discriminate. }
    exists y. rewrite <- Hd in Hc. refine (conj Hc (conj (conj _ _) Hl)).
    - rewrite Hb, <- Hd, Nat.eqb_refl. auto.
    - intros r Hr. rewrite Hb, L2 by auto. destruct (_ =? _); auto.
  Qed.

  Lemma allow_bound_cycle u v y : u < s -> v < s -> chain dims (S v) (S (nth u dims 0)) y -> is_low (bd C y) u ->
    veq (bd C (bd C y)) vzero.
  Proof.
    intros Hu Hv Hc Hl. apply Hsq.
    - intros k Hk. apply Hc in Hk. lia.
    - intros r Hr. pose proof (low_below _ _ _ Hl Hr). lia.
  Qed.

  Lemma allow_clears : clears C.
  Proof.
    intros j i Hj Hm. destruct (le_lt_dec s i) as [Hi|Hi]; [apply allow_empty; auto|].
    pose proof (allow_low_col _ _ Hm) as Hjs.
    destruct (allow_bound_ex i j Hm) as (y & Hc & Hl & _).
    exists (bd C (bd C y)). split; [|apply (allow_bound_cycle i j y); auto].
    apply coset_of_chain; [lia|apply Hl|apply Hl].
  Qed.

  Lemma allow_twistable : twistable C dims.
  Proof. exact (conj HLd (conj Hsort (conj allow_square (conj allow_graded allow_clears)))). Qed.
End Allowable.

Lemma reduce_gen a M : twistable (cols M) (dims M) -> exists R, reduce a M = Ok R /\ reduction_of M R.
Proof.
  intro HT. pose proof HT as (_ & Hs & Hq & _). destruct a; simpl.
  - apply standard_correct; auto.
  - apply twist_correct_gen; auto.
  - apply rectangular_correct; auto.
Qed.

Lemma dual_twistable M D : twistable (cols M) (dims M) -> dualize M = Ok D -> twistable (cols D) (dims D).
Proof.
  intros (HLd & Hs & Hq & Hg & Hcl) ED.
  destruct (dualize_correct M Hs Hq HLd) as (D' & E' & Hdu & HA & HLdD & HdD).
  rewrite ED in E'. injection E' as <-. pose proof HA as (HL & HsD & HqD & HE).
  set (n := length (cols M)) in *.
  refine (conj _ (conj HsD (conj HqD (conj _ _)))).
  - lia.
  - intros j r H. destruct (entry_square _ _ _ HqD H) as [Hr Hj].
    rewrite HE in H by lia. apply Hg in H.
    pose proof (HdD (n - 1 - r)) as D1. pose proof (HdD (n - 1 - j)) as D2.
    unfold dimof in *.
    replace (n - 1 - (n - 1 - r)) with r in D1 by lia.
    replace (n - 1 - (n - 1 - j)) with j in D2 by lia.
    rewrite D1, D2 by lia. pose proof (max_dim_ge (dims M) (n - 1 - r)). lia.
  - intros j i Hj Hm. pose proof (min_low_some_bound _ _ _ HqD Hj Hm) as Hi.
    assert (Hm' : min_low (cols M) (n - 1 - i) (Some (n - 1 - j))).
    { apply (min_low_dual (cols M) (cols D)); auto; fold n; try lia.
      replace (n - 1 - (n - 1 - j)) with j by lia. replace (n - 1 - (n - 1 - i)) with i by lia. auto. }
    apply min_low_none; auto. intros k Hk Hk'.
    assert (Hm2 : min_low (cols M) (n - 1 - k) (Some (n - 1 - i))).
    { apply (min_low_dual (cols M) (cols D)); auto; fold n; try lia.
      replace (n - 1 - (n - 1 - i)) with i by lia. replace (n - 1 - (n - 1 - k)) with k by lia. auto. }
    apply Hcl in Hm2; [|lia]. pose proof (min_low_unique _ _ _ _ Hm2 Hm'). discriminate.
Qed.

Lemma reduction_facts_gen M R :
  twistable (cols M) (dims M) -> reduction_of M R ->
  length (dims R) = length (cols R) /\ square (cols R) /\
  (forall j k i, lowof (cols R) j = Some i -> lowof (cols R) k = Some i -> j = k) /\
  length (cols R) = length (cols M) /\
  (forall j o, j < length (cols M) -> (min_low (cols M) j o <-> lowof (cols R) j = o)).
Proof.
  intros (HLd & HsC & HqC & Hg & Hz) (Hd & Hdu & Hs & Hq & HE & HR).
  pose proof HE as [HL HC].
  refine (conj _ (conj Hq (conj _ (conj HL _)))).
  - rewrite Hd. lia.
  - intros j k i L1 L2. destruct (Nat.eq_dec j k); auto. exfalso.
    pose proof (lowof_lt _ _ _ L1). pose proof (lowof_lt _ _ _ L2).
    apply lowof_some in L1, L2; auto. apply (HR j k i); auto.
  - intros j o Hj. pose proof (lowof_min_low (cols M) (cols R) Hs HE HR j Hj) as Hm. split.
    + intro H'. eapply min_low_unique; eauto.
    + intros <-. auto.
Qed.

Lemma allowed_lt s n u : s <= n -> (allowed (Some s) n u = true <-> u < s).
Proof. intro H. unfold allowed. rewrite orb_true_iff, !Nat.ltb_lt. lia. Qed.

(** The pairing of the restricted matrix, with or without dualization. *)
Theorem allow_pairing order a M s (dual : bool) :
  (forall l, Permutation (order l) l) -> allowable_matrix (cols M) (dims M) s -> dualized M = false ->
  exists B p, (if dual then dualize M else Ok M) = Ok B /\
    calculatePersistencePairing order a B true (Some s) = Ok p /\
    is_pairing (cols M) (dims M) true (fun u => u < s) p.
Proof.
  intros Hord HA Hdu0. pose proof HA as (HLd & Hs & Hsn & Hent & _). pose proof (allow_square _ _ _ HA) as Hq.
  pose proof (allow_twistable _ _ _ HA) as HT. set (n := length (cols M)) in *.
  destruct dual.
  - destruct (dualize_correct M Hs Hq HLd) as (D & ED & Hdu & HAT & HLdD & HdD).
    pose proof HAT as (HL & HsD & HqD & HE). fold n in HL.
    pose proof (dual_twistable M D HT ED) as HTD.
    destruct (reduce_gen a D HTD) as (R & ER & HR).
    destruct (reduction_facts_gen D R HTD HR) as (H1 & H2 & H4 & H5 & H6).
    destruct (pairing_of_reduced_gen order R true (Some s) Hord H1 H2 H4) as (p & E & Hsp & Hp & Hu).
    exists D, p. split; auto. unfold calculatePersistencePairing. rewrite ER. cbn [bind]. split; auto.
    assert (Hdual : dualized R = true) by (destruct HR as (_ & -> & _); rewrite Hdu, Hdu0; auto).
    assert (HLR : length (cols R) = n) by lia. rewrite HLR, Hdual in Hp, Hu. rewrite HL in H6.
    assert (Hlow : forall i j, i < n -> j < n -> (min_low (cols M) j (Some i) <-> lowof (cols R) (n - 1 - i) = Some (n - 1 - j))).
    { intros i j Hi Hj. rewrite <- H6 by lia. apply (min_low_dual (cols M) (cols D)); auto. }
    split; [auto|split].
    + intros u v. rewrite Hp. unfold tr. split.
      * intros (i & j & Hj & L & [= -> ->] & Ha). apply allowed_lt in Ha; auto.
        assert (Hi : i < n).
        { apply H6 in L; auto. apply (min_low_some_bound _ _ _ HqD) in L; lia. }
        split; [lia|]. split; [|auto]. apply Hlow; try lia.
        replace (n - 1 - (n - 1 - j)) with j by lia. replace (n - 1 - (n - 1 - i)) with i by lia. auto.
      * intros (Hv & Hm & Ha). exists (n - 1 - v), (n - 1 - u).
        split; [lia|]. split; [apply Hlow; auto; lia|]. split; [f_equal; lia|apply allowed_lt; auto].
    + intro c. rewrite Hu. unfold tr1, top_ok, tr. cbn [fst snd]. split.
      * intros (k & Hk & Lk & _ & Hno & -> & Ha & Hde). apply allowed_lt in Ha; auto.
        split; [lia|]. split; [|split; [|split]]; auto.
        -- apply min_low_none; auto; [fold n; lia|]. fold n. intros i Hi Hm. apply Hlow in Hm; auto; [|lia].
           replace (n - 1 - (n - 1 - k)) with k in Hm by lia.
           apply (Hde k (n - 1 - i)); auto. lia.
        -- fold n. intros v Hv Hm. apply Hlow in Hm; auto; [|lia].
           replace (n - 1 - (n - 1 - k)) with k in Hm by lia. congruence.
      * fold n. intros (Hc & Hm & Hno & _ & Ha). exists (n - 1 - c). split; [lia|].
        assert (Hnl : forall j i, j < n -> lowof (cols R) j = Some i -> i <> n - 1 - c).
        { intros j i Hj L ->. assert (Hm' : min_low (cols M) c (Some (n - 1 - j))).
          { apply Hlow; try lia. replace (n - 1 - (n - 1 - j)) with j by lia. auto. }
          pose proof (min_low_unique _ _ _ _ Hm Hm'). discriminate. }
        split; [|split; [auto|split; [|split; [lia|split; [apply allowed_lt; auto|]]]]].
        -- destruct (lowof (cols R) (n - 1 - c)) as [i|] eqn:L; auto. exfalso.
           assert (Hi : i < n).
           { apply H6 in L; [|lia]. apply (min_low_some_bound _ _ _ HqD) in L; lia. }
           apply (Hno (n - 1 - i)); [lia|]. apply Hlow; try lia.
           replace (n - 1 - (n - 1 - i)) with i by lia. auto.
        -- intros j _ Hj L. apply (Hnl j (n - 1 - c)); auto.
        -- intros i j Hj L E1. assert (Hi : i < n).
           { apply H6 in L; auto. apply (min_low_some_bound _ _ _ HqD) in L; lia. }
           apply (Hnl j i); auto. lia.
  - destruct (reduce_gen a M HT) as (R & ER & HR).
    destruct (reduction_facts_gen M R HT HR) as (H1 & H2 & H4 & H5 & H6).
    destruct (pairing_of_reduced_gen order R true (Some s) Hord H1 H2 H4) as (p & E & Hsp & Hp & Hu).
    exists M, p. split; auto. unfold calculatePersistencePairing. rewrite ER. cbn [bind]. split; auto.
    assert (Hdual : dualized R = false) by (destruct HR as (_ & -> & _); auto).
    rewrite H5, Hdual in Hp, Hu. fold n in Hp, Hu, H6.
    split; [auto|split].
    + intros u v. rewrite Hp. unfold tr. split.
      * intros (i & j & Hj & L & [= -> ->] & Ha). apply allowed_lt in Ha; auto.
        split; auto. split; auto. apply H6; auto.
      * intros (Hv & Hm & Ha). exists u, v. split; auto. split; [apply H6; auto|]. split; [auto|apply allowed_lt; auto].
    + intro c. rewrite Hu. unfold tr1, top_ok, tr. cbn [fst snd]. split.
      * intros (k & Hk & Lk & _ & Hno & -> & Ha & Hde). apply allowed_lt in Ha; auto.
        split; auto. split; [apply H6; auto|]. split; [|split; auto].
        intros v Hv Hm. pose proof Hm as L. apply H6 in L; auto.
        destruct (le_lt_dec v k) as [Hvk|Hvk]; [|apply (Hno v); auto].
        (* the lowest entry is improper or to the left *)
        destruct Hm as [(x & (T & HT' & Ex) & [L1 _]) _]. rewrite Ex in L1.
        assert (Hex : exists w, w <= v /\ entry (cols M) k w = true).
        { destruct (entry (cols M) k v) eqn:E1; [exists v; auto|]. rewrite xorb_false_l in L1.
          apply bigx_true in L1. destruct L1 as (w & Hw & E2). exists w. split; auto. apply HT' in Hw. lia. }
        destruct Hex as (w & Hw & E1). apply Hent in E1. lia.
      * intros (Hc & Hm & Hno & _ & Ha). fold n in Hc, Hno. exists c. split; auto. split; [apply H6; auto|].
        split; auto. split; [|split; auto; split; [apply allowed_lt; auto|]].
        -- intros j _ Hj L. apply (Hno j Hj). apply H6; auto.
        -- intros i j Hj L E1. subst j. apply H6 in Hm; auto. congruence.
Qed.

(** ** Counting pairs *)
Section Count.
  Variables (C : list (list nat)) (dims : list nat) (s : nat).
  Hypothesis HA : allowable_matrix C dims s.
  Variable p : list (nat * option nat).
  Hypothesis Hp : is_pairing C dims true (fun u => u < s) p.

  Let Hsort : sorted_cols C := proj1 (proj2 HA).
  Let Hs : s <= length C := proj1 (proj2 (proj2 HA)).
  Let Hq : square C := allow_square C dims s HA.

  Lemma allow_low_inj u v v' : v < length C -> v' < length C ->
    min_low C v (Some u) -> min_low C v' (Some u) -> v = v'.
  Proof.
    intros Hv Hv' H1 H2.
    destruct (standard_correct (Matrix C dims false) Hsort Hq) as (R & _ & HR).
    destruct (reduction_facts_gen (Matrix C dims false) R (allow_twistable C dims s HA) HR) as (_ & _ & Hinj & _ & H6).
    cbn [cols] in H6. apply H6 in H1, H2; auto. eapply Hinj; eauto.
  Qed.

  Lemma pair_sorted_NoDup : NoDup p.
  Proof.
    destruct Hp as [H _]. clear - H. induction H as [|q l Hl IH Hq]; constructor; auto.
    intro Hin. rewrite Forall_forall in Hq. apply Hq in Hin. eapply pair_lt_irrefl; eauto.
  Qed.

  Lemma allow_creators_NoDup : NoDup (map fst p).
  Proof.
    apply NoDup_map_inj_in; [|apply pair_sorted_NoDup]. destruct Hp as (_ & H1 & H2).
    intros [u [v|]] [u' [v'|]] Hx Hy E; simpl in E; subst u'; auto.
    - apply H1 in Hx, Hy. f_equal. f_equal. apply (allow_low_inj u); tauto.
    - exfalso. apply H1 in Hx. apply H2 in Hy. destruct Hy as (_ & _ & Hy & _). apply (Hy v); tauto.
    - exfalso. apply H1 in Hy. apply H2 in Hx. destruct Hx as (_ & _ & Hx & _). apply (Hx v'); tauto.
  Qed.

  Lemma allow_in_creators u : In u (map fst p) <-> u < s /\ min_low C u None.
  Proof.
    destruct Hp as (_ & H1 & H2). rewrite in_map_iff. split.
    - intros ([c [v|]] & <- & Hin); simpl.
      + apply H1 in Hin. destruct Hin as (Hv & Hm & Hc). split; auto. eapply (allow_clears C dims s HA); eauto.
      + apply H2 in Hin. tauto.
    - intros [Hu Hm]. destruct (destroyer_dec C u Hsort Hq) as [(v & Hv & Hmv)|Hno].
      + exists (u, Some v). split; auto. apply H1. auto.
      + exists (u, None). split; auto. apply H2. split; [lia|]. auto 10.
  Qed.

  Lemma allow_cycle_ex u : u < s -> min_low C u None ->
    exists z, cycles C dims (S u) (nth u dims 0) z /\ is_low z u.
  Proof.
    intros Hu (x & Hx & Hz).
    destruct (chain_of_coset_gen C dims u x (allow_graded C dims s HA) ltac:(lia) Hx) as (y & Hl & Hc & Hb).
    exists y. refine (conj (conj Hc _) Hl). intro r. rewrite Hb, Hz. destruct (_ =? _); auto.
  Qed.

  Lemma allow_bound_low j y l : j <= s -> (forall k, y k = true -> k < j) -> is_low (bd C y) l ->
    exists v, v < j /\ min_low C v (Some l).
  Proof.
    revert y. induction j as [|m IH]; intros y Hj Hy Hl.
    - exfalso. destruct Hl as [L1 _]. rewrite bd_bigx in L1. apply bigx_true in L1.
      destruct L1 as (k & _ & E). apply andb_true_iff in E. destruct E as [E _]. apply Hy in E. lia.
    - destruct (y m) eqn:E.
      + assert (Hco : coset C m (bd C y)).
        { apply coset_of_chain; [lia|auto|]. intros k Hk. destruct (y k) eqn:F; auto. apply Hy in F. lia. }
        assert (Hadd : forall z, is_low z m -> (forall k, vadd y z k = true -> k < m)).
        { intros z [Z1 Z2] k Hk. unfold vadd in Hk. destruct (Nat.lt_trichotomy k m) as [|[->|H]]; auto.
          - rewrite E, Z1 in Hk. discriminate.
          - rewrite (Z2 k H) in Hk. destruct (y k) eqn:F; [|discriminate]. apply Hy in F. lia. }
        destruct (min_low_ex C m Hsort Hq ltac:(lia)) as [[i|] Ho].
        * pose proof Ho as [_ Hmin]. destruct (Hmin _ Hco) as (r & Hr & Er).
          assert (Hil : i <= l).
          { destruct (le_lt_dec r l); [lia|]. rewrite (proj2 Hl r) in Er by auto. discriminate. }
          destruct (Nat.eq_dec i l) as [->|Hne]; [exists m; split; [lia|auto]|].
          destruct (allow_bound_ex C dims s HA i m Ho) as (z & _ & [B1 B2] & Hz).
          destruct (IH (vadd y z)) as (v & Hv & Hm); [lia|apply Hadd; auto| |exists v; split; [lia|auto]].
          split; [|intros k Hk]; rewrite bd_add; unfold vadd.
          -- rewrite (proj1 Hl), (B2 l) by lia. auto.
          -- rewrite (proj2 Hl k Hk), (B2 k) by lia. auto.
        * destruct (allow_cycle_ex m ltac:(lia) Ho) as (z & [_ Hz] & Hlz).
          destruct (IH (vadd y z)) as (v & Hv & Hm); [lia|apply Hadd; auto| |exists v; split; [lia|auto]].
          split; [|intros k Hk]; rewrite bd_add; unfold vadd; rewrite Hz; unfold vzero; rewrite xorb_false_r.
          -- apply Hl.
          -- apply Hl; auto.
      + destruct (IH y) as (v & Hv & Hm); auto; [lia| |exists v; split; [lia|auto]].
        intros k Hk. specialize (Hy k Hk). destruct (Nat.eq_dec k m); [congruence|lia].
  Qed.

  Lemma allow_dim_cycles i d L : i <= s -> StronglySorted lt L ->
    (forall l, In l L <-> l < i /\ nth l dims 0 = d /\ min_low C l None) ->
    has_dim (cycles C dims i d) (length L).
  Proof.
    intros Hi HL Hin. apply (dim_by_lows _ L i); auto.
    - apply cycles_add.
    - intros x k [Hc _] Hk. apply Hc; auto.
    - intros l Hl. apply Hin in Hl. destruct Hl as (H1 & H2 & H3).
      destruct (allow_cycle_ex l ltac:(lia) H3) as (z & [Hz Hb] & Hlow). exists z. split; auto. split; auto.
      intros k Hk. apply Hz in Hk. lia.
    - intros x l Hx Hl. apply Hin. apply (cycle_low C dims i d x l); auto. lia.
  Qed.

  Lemma allow_dim_boundaries i j d L : i <= s -> j <= s -> StronglySorted lt L ->
    (forall l, In l L <-> l < i /\ nth l dims 0 = d /\ exists v, v < j /\ min_low C v (Some l)) ->
    has_dim (fun x => cycles C dims i d x /\ boundaries C dims j d x) (length L).
  Proof.
    intros Hi Hj HL Hin. apply (dim_by_lows _ L i); auto.
    - intros x y [H1 H2] [H3 H4]. split; [apply cycles_add|apply boundaries_add]; auto.
    - intros x k [[Hc _] _] Hk. apply Hc; auto.
    - intros l Hl. apply Hin in Hl. destruct Hl as (H1 & H2 & v & Hv & Hm).
      destruct (allow_bound_ex C dims s HA l v Hm) as (y & Hc & Hlow & _).
      exists (bd C y). refine (conj (conj (conj _ _) _) Hlow).
      + intros k Hk. split; [pose proof (low_below _ _ _ Hlow Hk); lia|].
        rewrite bd_bigx in Hk. apply bigx_true in Hk. destruct Hk as (w & _ & Hw). apply andb_true_iff in Hw.
        destruct Hw as [W1 W2]. apply Hc in W1. apply (allow_graded C dims s HA) in W2. lia.
      + apply (allow_bound_cycle C dims s HA l v); auto; lia.
      + exists y. split; [|apply veq_refl]. subst d. intros k Hk. apply Hc in Hk. lia.
    - intros x l [Hx (y & Hy & E)] Hl. apply Hin.
      destruct (cycle_low C dims i d x l ltac:(lia) Hx Hl) as (H1 & H2 & _). refine (conj H1 (conj H2 _)).
      apply (allow_bound_low j y l); auto; [intros; apply Hy; auto|].
      split; [rewrite <- E; apply Hl|intros r Hr; rewrite <- E; apply Hl; auto].
  Qed.

  Lemma allow_fst_perm (f : nat * option nat -> bool) (L : list nat) :
    StronglySorted lt L -> (forall u, In u L <-> exists q, In q p /\ fst q = u /\ f q = true) ->
    length (filter f p) = length L.
  Proof.
    intros HL Hin. rewrite <- (map_length fst (filter f p)). apply Permutation_length.
    apply NoDup_Permutation.
    - pose proof allow_creators_NoDup as Hn. clear -Hn. induction p as [|q l IH]; simpl in *; [constructor|].
      inversion Hn as [|? ? Hq Hl]; subst. destruct (f q); simpl; auto. constructor; auto.
      intro Hi. apply Hq. apply in_map_iff in Hi. destruct Hi as (x & <- & Hx). apply filter_In in Hx.
      apply in_map; tauto.
    - apply SSlt_NoDup; auto.
    - intro u. rewrite Hin, in_map_iff. split.
      + intros (q & E & Hq'). apply filter_In in Hq'. exists q. tauto.
      + intros (q & H1 & H2 & H3). exists q. rewrite filter_In. auto.
  Qed.

  Theorem allow_betti i j d : i <= s -> j <= s ->
    persistent_betti C dims i j d
      (length (filter (fun q => ((fst q <? i) && (nth (fst q) dims 0 =? d)) && negb (dies j q)) p)).
  Proof.
    intros Hi Hj.
    set (f := fun q : nat * option nat => (fst q <? i) && (nth (fst q) dims 0 =? d)).
    set (LZ := filter (fun u => existsb (fun q => f q && (fst q =? u)) p) (seq 0 i)).
    set (LB := filter (fun u => existsb (fun q => f q && dies j q && (fst q =? u)) p) (seq 0 i)).
    assert (SZ : StronglySorted lt LZ) by (apply filter_sorted, seq_sorted).
    assert (SB : StronglySorted lt LB) by (apply filter_sorted, seq_sorted).
    assert (Hf : forall q u, f q = true -> fst q = u -> u < i /\ nth u dims 0 = d).
    { intros q u H <-. unfold f in H. apply andb_true_iff in H. rewrite Nat.ltb_lt, Nat.eqb_eq in H. auto. }
    assert (Hf' : forall q u, u < i -> nth u dims 0 = d -> fst q = u -> f q = true).
    { intros q u H1 H2 E. unfold f. rewrite E, andb_true_iff, Nat.ltb_lt, Nat.eqb_eq. auto. }
    assert (IZ : forall u, In u LZ <-> exists q, In q p /\ fst q = u /\ f q = true).
    { intro u. unfold LZ. rewrite filter_In, existsb_exists. split.
      - intros [_ (q & Hq' & H)]. apply andb_true_iff in H. rewrite Nat.eqb_eq in H. exists q. tauto.
      - intros (q & Hq' & E & H). split; [apply in_seq; pose proof (Hf q u H E); lia|].
        exists q. rewrite andb_true_iff, Nat.eqb_eq. auto. }
    assert (IB : forall u, In u LB <-> exists q, In q p /\ fst q = u /\ f q && dies j q = true).
    { intro u. unfold LB. rewrite filter_In, existsb_exists. split.
      - intros [_ (q & Hq' & H)]. rewrite andb_true_iff in H. rewrite Nat.eqb_eq in H. exists q. tauto.
      - intros (q & Hq' & E & H). pose proof H as H'. apply andb_true_iff in H'.
        split; [apply in_seq; pose proof (Hf q u (proj1 H') E); lia|].
        exists q. rewrite andb_true_iff, Nat.eqb_eq. auto. }
    exists (length LZ), (length LB). refine (conj _ (conj _ _)).
    - apply allow_dim_cycles; auto. intro l. rewrite IZ. split.
      + intros (q & Hq' & E & H). destruct (Hf q l H E) as [A B]. refine (conj A (conj B _)).
        apply allow_in_creators. rewrite <- E. apply in_map; auto.
      + intros (A & B & Hm). assert (Hin : In l (map fst p)) by (apply allow_in_creators; split; auto; lia).
        apply in_map_iff in Hin. destruct Hin as (q & E & Hq'). exists q. eauto.
    - apply allow_dim_boundaries; auto. intro l. rewrite IB. split.
      + intros ([c o] & Hq' & E & H). apply andb_true_iff in H. destruct H as [H1 H2].
        destruct (Hf _ l H1 E) as [A B]. refine (conj A (conj B _)). simpl in E. subst c.
        unfold dies in H2. simpl in H2. destruct o as [v|]; [|discriminate]. apply Nat.ltb_lt in H2.
        exists v. split; auto. apply Hp in Hq'. tauto.
      + intros (A & B & v & Hv & Hm). exists (l, Some v). refine (conj _ (conj eq_refl _)).
        * apply Hp. refine (conj _ (conj Hm _)); lia.
        * rewrite (Hf' (l, Some v) l) by auto. unfold dies. simpl. apply Nat.ltb_lt; auto.
    - rewrite <- (allow_fst_perm f LZ SZ IZ), <- (allow_fst_perm (fun q => f q && dies j q) LB SB IB).
      apply (count_filter C).
  Qed.
End Count.
