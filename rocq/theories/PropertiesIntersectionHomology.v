(** * Property C79: persistent intersection homology. *)
From Coq Require Import List Arith Bool ZArith Lia Permutation Sorted.
From Verif Require Import PropertiesComponents
  Base BaseFacts Matrix SpecMatrix ReductionFacts AlgorithmFacts PairingFacts DualFacts RepFacts PropertiesMatrix
  SpecHomology HomologyFacts Simplex SimplexFacts SpecComplex Complex ComplexFacts FiltrationFacts History Subcomplex SubcomplexFacts
  PropertiesComplex PropertiesHomology SpecDiagram Diagram DiagramFacts PropertiesDiagram
  Intersections PropertiesIntersections Perversity SpineFacts TwistFacts AllowableFacts SpecAllowable IntersectionHomology.
Import ListNotations.

(** ** The boundary operator squares to zero *)
Lemma bd_bd_gen C : sorted_cols C -> square C -> (forall j r, sum_cols C (nth j C []) r = false) ->
  forall x, veq (bd C (bd C x)) vzero.
Proof.
  intros Hsort Hq Hsq x.
  assert (G : forall l, veq (bd C (fun r => fold_right (fun k acc => xorb (x k && entry C r k) acc) false l)) vzero).
  { induction l as [|k l IH].
    - cbn [fold_right]. apply bd_zero.
    - intro r. cbn [fold_right].
      change (bd C (vadd (fun r => x k && entry C r k)
                (fun r => fold_right (fun k acc => xorb (x k && entry C r k) acc) false l)) r = false).
      rewrite bd_add. unfold vadd at 1. rewrite IH. unfold vzero. rewrite xorb_false_r.
      destruct (x k); [|apply bd_zero]. simpl.
      rewrite bd_bigx. pose proof (Hsq k r) as Z. unfold sum_cols in Z. fold (bigx (fun k => entry C r k)) in Z.
      change (bigx (fun k0 => entry C r k0) (nth k C []) = false) in Z.
      destruct (le_lt_dec (length C) k) as [Hk|Hk].
      + apply bigx_zero. intros y _. unfold entry. rewrite (nth_overflow C) by auto. auto.
      + assert (Hc : In (nth k C []) C) by (apply nth_In; auto).
        rewrite (bigx_restrict _ _ (seq 0 (length C))) in Z.
        * rewrite <- Z. apply bigx_ext. intros y _. rewrite andb_comm. reflexivity.
        * apply SSlt_NoDup. apply Hsort; auto.
        * intros y Hy. apply in_seq. split; [lia|]. simpl. eapply Hq; eauto.
        * apply seq_NoDup. }
  intro r. rewrite <- (G (seq 0 (length C)) r). apply bd_ext. intro s. reflexivity.
Qed.

(** ** The matrices of the partitioned complex *)
Lemma nth_filter_before {A} (f : A -> bool) l i j a b :
  nth_error (filter f l) i = Some a -> nth_error (filter f l) j = Some b -> i < j ->
  exists i' j', nth_error l i' = Some a /\ nth_error l j' = Some b /\ i' < j'.
Proof.
  revert i j. induction l as [|x l IH]; intros i j Hi Hj Hij; [destruct i; discriminate|].
  cbn [filter] in Hi, Hj. destruct (f x).
  - destruct i as [|i], j as [|j]; simpl in Hi, Hj; try lia.
    + injection Hi as ->. apply nth_error_In, filter_In in Hj. destruct Hj as [Hj _].
      apply In_nth_error in Hj. destruct Hj as [j' Hj']. exists 0, (S j'). simpl. refine (conj eq_refl (conj Hj' _)). lia.
    + destruct (IH i j Hi Hj ltac:(lia)) as (i' & j' & H1 & H2 & H3). exists (S i'), (S j'). simpl. split; auto. split; auto. lia.
  - destruct (IH i j Hi Hj Hij) as (i' & j' & H1 & H2 & H3). exists (S i'), (S j'). simpl. split; auto. split; auto. lia.
Qed.

Lemma proper_irrefl s : ~ proper_face s s.
Proof. intros [H1 H2]. apply H2. intros v Hv; auto. Qed.

Section Partition.
  Variables (K : complex) (f : simplex -> bool).
  Hypothesis (HK : kwf K) (HC : closed (by_index K)) (HF : filtration_order (by_index K)).
  Let L := fst (partition_phi K f).
  Let s := snd (partition_phi K f).
  Let F := map (bcol L 0) (enum (by_index L)).
  Let C := map (bcol L s) (enum (by_index L)).
  Let dims := map sdim (by_index L).

  Lemma part_kwf : kwf L.
  Proof. apply (partition_correct K f HK). Qed.
  Lemma part_list : by_index L = filter f (by_index K) ++ filter (fun t => negb (f t)) (by_index K).
  Proof. apply (partition_correct K f HK). Qed.
  Lemma part_count : s = length (filter f (by_index K)).
  Proof. apply (partition_correct K f HK). Qed.
  Lemma part_perm : Permutation (by_index L) (by_index K).
  Proof. rewrite part_list. apply filter_split_perm. Qed.
  Lemma part_closed : closed (by_index L).
  Proof.
    intros t vs Ht Hne Hs. apply (Permutation_in _ part_perm) in Ht.
    destruct (HC t vs Ht Hne Hs) as (u & Hu & E). exists u. split; auto.
    apply (Permutation_in _ (Permutation_sym part_perm)); auto.
  Qed.
  Lemma part_le : s <= k_size L.
  Proof. unfold k_size. rewrite part_count, part_list, app_length. lia. Qed.

  Lemma part_length : length F = k_size L /\ length C = k_size L /\ length dims = k_size L.
  Proof. unfold F, C, dims. rewrite !map_length, enum_length. auto. Qed.

  Lemma part_entry r j : 0 < s -> entry C r j = (j <? s) && entry F r j.
  Proof.
    intro Hs. unfold entry.
    destruct (nth_error (by_index L) j) as [t|] eqn:E.
    - unfold C, F. rewrite (nth_error_nth _ _ [] (bcol_nth L s j t E)), (nth_error_nth _ _ [] (bcol_nth L 0 j t E)).
      unfold bcol. cbn [fst snd]. destruct (Nat.eqb_spec s 0); [lia|]. destruct (j <? s); auto.
    - apply nth_error_None in E. destruct part_length as (H1 & H2 & _). unfold k_size in *.
      rewrite !nth_overflow by lia. destruct (j <? s); auto.
  Qed.

  Lemma part_square : square F.
  Proof.
    intros c r Hc Hr. destruct (In_nth_error _ _ Hc) as [j Ej].
    destruct (matrix_unordered L part_kwf part_closed) as (_ & _ & H & _).
    destruct (H j r) as (a & b & _ & Hb & _); [fold F; rewrite (entry_nth _ _ _ _ Ej); apply mem_In; auto|].
    rewrite (proj1 part_length). apply nth_error_Some. congruence.
  Qed.

  Lemma part_bd_bd x : veq (bd F (bd F x)) vzero.
  Proof.
    destruct (matrix_unordered L part_kwf part_closed) as (_ & H1 & _ & H2).
    apply bd_bd_gen; auto. apply part_square.
  Qed.

  (** a chain of the first [s] simplices has the same boundary in both matrices *)
  Lemma part_bd x : 0 < s -> (forall k, x k = true -> k < s) -> veq (bd C x) (bd F x).
  Proof.
    intros Hs Hx r. rewrite !bd_bigx. destruct part_length as (E1 & E2 & _). rewrite E1, E2.
    apply bigx_ext. intros k _. rewrite part_entry by auto. destruct (x k) eqn:E; auto.
    apply Hx, Nat.ltb_lt in E. rewrite E. auto.
  Qed.

  Lemma part_allowable : 0 < s -> allowable_matrix C dims s.
  Proof.
    intro Hs. destruct part_length as (E1 & E2 & E3).
    destruct (matrix_unordered L part_kwf part_closed) as (_ & HsF & He & Hz). fold F dims in HsF, He, Hz.
    refine (conj _ (conj _ (conj _ (conj _ _)))).
    - congruence.
    - intros c Hc. destruct (In_nth_error _ _ Hc) as [j Ej].
      destruct (nth_error (by_index L) j) as [t|] eqn:Et.
      + assert (E : c = bcol L s (j, t)) by (unfold C in Ej; rewrite (bcol_nth L s j t Et) in Ej; congruence).
        destruct (Nat.ltb_spec j s) as [Hj|Hj].
        * assert (E' : c = bcol L 0 (j, t)).
          { rewrite E. unfold bcol. cbn [fst]. apply Nat.ltb_lt in Hj. rewrite Hj, orb_true_r. auto. }
          rewrite E'. apply HsF. apply (nth_error_In _ j). apply (bcol_nth L 0 j t Et).
        * rewrite E. unfold bcol. cbn [fst]. destruct (Nat.eqb_spec s 0); [lia|].
          destruct (Nat.ltb_spec j s); [lia|]. constructor.
      + apply nth_error_None in Et. assert (j < length C) by (apply nth_error_Some; congruence).
        unfold k_size in *. lia.
    - rewrite E2. apply part_le.
    - intros j r H. rewrite part_entry in H by auto. apply andb_true_iff in H. destruct H as [Hj H].
      apply Nat.ltb_lt in Hj. destruct (He j r H) as (a & b & Ha & Hb & Hp & Hd).
      split; auto. split; [|split; auto].
      + rewrite E2. apply nth_error_Some. congruence.
      + destruct (le_lt_dec s r) as [|Hr]; auto. left.
        rewrite part_list, nth_error_app1 in Ha by (rewrite <- part_count; auto).
        rewrite part_list, nth_error_app1 in Hb by (rewrite <- part_count; auto).
        destruct (Nat.lt_trichotomy r j) as [|[->|Hjr]]; auto.
        * exfalso. rewrite Ha in Hb. injection Hb as <-. exact (proper_irrefl _ Hp).
        * exfalso. destruct (nth_filter_before f (by_index K) j r a b Ha Hb Hjr) as (i' & j' & H1 & H2 & H3).
          pose proof (HF i' j' a b H1 H2 Hp). lia.
    - intros x Hx Hb.
      assert (B1 : veq (bd C x) (bd F x)) by (apply part_bd; auto).
      intro r. rewrite (part_bd (bd C x)) by auto. rewrite (bd_ext F (bd C x) (bd F x) B1). apply part_bd_bd.
  Qed.

  Lemma part_entries r j : entry F r j = true <->
    exists a b, nth_error (by_index L) j = Some a /\ nth_error (by_index L) r = Some b /\
      subset (verts b) (verts a) /\ length (verts a) = S (length (verts b)).
  Proof.
    destruct (matrix_unordered L part_kwf part_closed) as (_ & _ & He & _). fold F dims in He. split.
    - intro H. destruct (He j r H) as (a & b & Ha & Hb & Hp & Hd). exists a, b.
      refine (conj Ha (conj Hb (conj (proj1 Hp) _))).
      unfold dims in Hd.
      rewrite (nth_error_nth _ _ 0 (map_nth_error sdim _ _ Ha)), (nth_error_nth _ _ 0 (map_nth_error sdim _ _ Hb)) in Hd.
      assert (Ga : good a) by (apply (kwf_good L part_kwf); eapply nth_error_In; eauto).
      assert (Gb : good b) by (apply (kwf_good L part_kwf); eapply nth_error_In; eauto).
      destruct Ga as [_ Na], Gb as [_ Nb]. unfold sdim in Hd. destruct (verts a), (verts b); simpl in *; try easy; lia.
    - intros (a & b & Ha & Hb & Hs & Hl). apply (entry_C L r j).
      assert (Ia : In a (by_index L)) by (eapply nth_error_In; eauto).
      assert (Ib : In b (by_index L)) by (eapply nth_error_In; eauto).
      pose proof (kwf_good L part_kwf a Ia) as [Wa Na]. pose proof (kwf_good L part_kwf b Ib) as [Wb Nb].
      assert (Hbd : exists g, In g (boundary a) /\ verts g = verts b).
      { assert (Q : In (verts b) (map verts (boundary a))) by (apply facet_boundary; auto; split; auto).
        apply in_map_iff in Q. destruct Q as (g & E & Hg). eauto. }
      destruct Hbd as (g & Hg & Eg). exists a, g. split; auto. split; auto.
      destruct (face_index L part_kwf part_closed a g Ia Hg) as (t & Ht & Et).
      apply (nth_error_verts_inj L _ _ t b part_kwf); auto. congruence.
  Qed.
End Partition.

(** ** Pairing and ranks of the partitioned complex *)
Lemma has_dim_none (V : vec -> Prop) : (forall x y, V x -> V y -> V (vadd x y)) ->
  (forall x k, V x -> x k = true -> False) -> has_dim V 0.
Proof.
  intros Hadd H. apply (dim_by_lows V [] 0); auto.
  - constructor.
  - intros x k Hx Hk. destruct (H x k Hx Hk).
  - easy.
  - intros x l Hx [Hl _]. destruct (H x l Hx Hl).
Qed.

Lemma chain_add dims i d x y : chain dims i d x -> chain dims i d y -> chain dims i d (vadd x y).
Proof.
  intros H1 H2 k Hk. unfold vadd in Hk. destruct (x k) eqn:E; [apply H1; auto|].
  rewrite xorb_false_l in Hk. apply H2; auto.
Qed.

Lemma intersection_chain_add F dims s i d x y : intersection_chain F dims s i d x -> intersection_chain F dims s i d y ->
  intersection_chain F dims s i d (vadd x y).
Proof.
  intros (H1 & H2 & H3) (H4 & H5 & H6). refine (conj (chain_add _ _ _ _ _ H1 H4) (conj _ _)).
  - intros k Hk. unfold vadd in Hk. destruct (x k) eqn:E; [apply H2; auto|]. rewrite xorb_false_l in Hk. auto.
  - intros r Hr. rewrite bd_add in Hr. unfold vadd in Hr. destruct (bd F x r) eqn:E; [apply H3; auto|].
    rewrite xorb_false_l in Hr. auto.
Qed.

Lemma intersection_cycles_add F dims s i d x y : intersection_cycles F dims s i d x -> intersection_cycles F dims s i d y ->
  intersection_cycles F dims s i d (vadd x y).
Proof.
  intros [H1 H2] [H3 H4]. split; [apply intersection_chain_add; auto|].
  intro r. rewrite bd_add. unfold vadd. rewrite H2, H4. auto.
Qed.

Lemma intersection_boundaries_add F dims s i d x y : intersection_boundaries F dims s i d x ->
  intersection_boundaries F dims s i d y -> intersection_boundaries F dims s i d (vadd x y).
Proof.
  intros (u & H1 & H2) (v & H3 & H4). exists (vadd u v). split; [apply intersection_chain_add; auto|].
  intro r. rewrite bd_add. unfold vadd. rewrite H2, H4. auto.
Qed.

(** Boundaries of intersection chains are intersection cycles. *)
Lemma intersection_boundary_cycle F dims s i d x :
  (forall x, veq (bd F (bd F x)) vzero) -> graded F dims -> i <= s ->
  (forall k r, entry F r k = true -> k < s -> r < k \/ s <= r) ->
  intersection_boundaries F dims s i d x -> intersection_cycles F dims s i d x.
Proof.
  intros Hbb Hg Hi Hup (y & (H1 & H2 & H3) & E).
  assert (Z : veq (bd F x) vzero) by (intro r; rewrite (bd_ext F x (bd F y) E r); apply Hbb).
  refine (conj (conj _ (conj _ _)) Z).
  - intros k Hk. rewrite E in Hk. pose proof (H3 k Hk) as Hks.
    rewrite bd_bigx in Hk. apply bigx_true in Hk. destruct Hk as (j & _ & Hj).
    apply andb_true_iff in Hj. destruct Hj as [W1 W2]. pose proof (Hg _ _ W2). pose proof (H2 j W1) as Hjs.
    destruct (Hup _ _ W2 Hjs); [|lia]. apply H1 in W1. lia.
  - intros k Hk. rewrite E in Hk. auto.
  - intros r Hr. rewrite Z in Hr. discriminate.
Qed.

Section Ranks.
  Variables (K : complex) (f : simplex -> bool).
  Hypothesis (HK : kwf K) (HC : closed (by_index K)) (HF : filtration_order (by_index K)).
  Let L := fst (partition_phi K f).
  Let s := snd (partition_phi K f).
  Let F := map (bcol L 0) (enum (by_index L)).
  Let C := map (bcol L s) (enum (by_index L)).
  Let dims := map sdim (by_index L).

  Lemma rank_pairing : exists p,
    (forall order a (dual : bool), (forall l, Permutation (order l) l) ->
       (let* M := makeBoundaryMatrix L s in
        let* B := (if dual then dualize M else Ok M) in
        calculatePersistencePairing order a B true (Some s)) = Ok p) /\
    (forall q, In q p -> fst q < s /\ match snd q with Some v => v < s | None => True end) /\
    (forall i j d, i <= s -> j <= s -> intersection_betti F dims s i j d
       (length (filter (fun q => ((fst q <? i) && (nth (fst q) dims 0 =? d)) && negb (dies j q)) p))).
  Proof.
    pose proof (part_kwf K f HK) as HL. fold L in HL.
    rewrite (matrix_value L s HL). cbn [bind]. fold C dims.
    destruct (Nat.eq_dec s 0) as [E0|Hs0].
    - (* no allowable simplices *)
      exists []. split; [|split; [easy|]].
      + intros order a dual Ho.
        assert (Ef : filter f (by_index K) = []).
        { apply length_zero_iff_nil. rewrite <- (part_count K f HK). exact E0. }
        assert (EL : by_index L = by_index K).
        { unfold L. rewrite (part_list K f HK), Ef. simpl.
          assert (G : forall l : list simplex, filter f l = [] -> filter (fun t => negb (f t)) l = l).
          { induction l as [|x l IH]; simpl; auto. destruct (f x) eqn:E; [discriminate|]. intro H. simpl. f_equal; auto. }
          apply G; auto. }
        assert (EC : C = F) by (unfold C, F; rewrite E0; auto).
        assert (HFL : filtration_order (by_index L)) by (rewrite EL; auto).
        pose proof (matrix_valid L HL (part_closed K f HK HC) HFL) as HV. fold F dims in HV. rewrite <- EC in HV.
        assert (Hnone : forall p, is_pairing C dims true (ok_of (Some s) (length C)) p -> p = []).
        { intros [|[u o] p] Hp; auto. exfalso. destruct Hp as (_ & H1 & H2).
          destruct o as [v|].
          - destruct (proj1 (H1 u v)) as (_ & _ & H); [simpl; auto|]. unfold ok_of in H. lia.
          - destruct (proj1 (H2 u)) as (_ & _ & _ & _ & H); [simpl; auto|]. unfold ok_of in H. lia. }
        destruct dual.
        * destruct (dualize_correct (Matrix C dims false)) as (D & ED & _);
            [apply HV|apply (valid_square (Matrix C dims false) HV)|apply HV|].
          rewrite ED. cbn [bind]. unfold calculatePersistencePairing.
          pose proof (dual_valid (Matrix C dims false) D HV ED) as HVD.
          destruct (reduce_correct a D HVD) as (R & ER & HR). rewrite ER. cbn [bind].
          destruct (pairing_dual order (Matrix C dims false) D R true (Some s) Ho HV eq_refl ED HR) as (p & E & Hp).
          rewrite E. f_equal. apply Hnone; auto.
        * cbn [bind]. destruct (pairing_correct order a (Matrix C dims false) true (Some s) Ho HV eq_refl) as (p & E & Hp).
          rewrite E. f_equal. apply Hnone; auto.
      + intros i j d Hi Hj. simpl. exists 0, 0. refine (conj _ (conj _ eq_refl)).
        * apply has_dim_none; [apply intersection_cycles_add|]. intros x k [(_ & H & _) _] Hk. apply H in Hk. lia.
        * apply has_dim_none.
          -- intros x y [H1 H2] [H3 H4]. split; [apply intersection_cycles_add|apply intersection_boundaries_add]; auto.
          -- intros x k [[(_ & H & _) _] _] Hk. apply H in Hk. lia.
    - assert (Hs : 0 < s) by lia.
      pose proof (part_allowable K f HK HC HF Hs) as HA. fold L s C dims in HA.
      assert (Hid : forall l : list nat, Permutation ((fun l => l) l) l) by (intro; apply Permutation_refl).
      destruct (allow_pairing (fun l => l) AStandard (Matrix C dims false) s false Hid HA eq_refl) as (B0 & p & EB0 & Ep0 & Hp).
      cbn [cols Matrix.dims] in Hp. exists p. split; [|split].
      + intros order a dual Ho.
        destruct (allow_pairing order a (Matrix C dims false) s dual Ho HA eq_refl) as (B & p' & EB & Ep & Hp').
        rewrite EB. cbn [bind]. rewrite Ep. f_equal. eapply is_pairing_unique; eauto.
      + intros [u [v|]] Hq; apply Hp in Hq; simpl.
        * destruct Hq as (_ & Hm & Hu). split; auto. apply (allow_low_col C dims s HA v u Hm).
        * tauto.
      + intros i j d Hi Hj.
        destruct (allow_betti C dims s HA p Hp i j d Hi Hj) as (z & b & Hz & Hb & E).
        assert (Ecyc : forall x, cycles C dims i d x <-> intersection_cycles F dims s i d x).
        { intro x. split.
          - intros [H1 H2].
            assert (Hx : forall k, x k = true -> k < s) by (intros k Hk; apply H1 in Hk; lia).
            assert (Z : veq (bd F x) vzero).
            { intro r. pose proof (part_bd K f x Hs Hx r) as Q. unfold F, L. rewrite <- Q. apply H2. }
            refine (conj (conj H1 (conj Hx _)) Z). intros r Hr. rewrite Z in Hr. discriminate.
          - intros [(H1 & H2 & H3) H4]. split; auto. intro r. pose proof (part_bd K f x Hs H2 r) as Q.
            unfold C, L, s. rewrite Q. apply H4. }
        exists z, b. refine (conj _ (conj _ E)).
        * eapply has_dim_ext; [|apply Hz]. exact Ecyc.
        * eapply has_dim_ext; [|apply Hb]. intro x. cbv beta. rewrite Ecyc. split.
          -- intros [H1 (y & Hy & Ey)]. split; auto.
             assert (Hys : forall k, y k = true -> k < s) by (intros k Hk; apply Hy in Hk; lia).
             assert (Q : veq (bd C y) (bd F y)) by apply (part_bd K f y Hs Hys).
             exists y. split.
             ++ refine (conj Hy (conj Hys _)). intros r Hr. rewrite <- Q, <- Ey in Hr.
                destruct H1 as [(H1 & H2 & _) _]. auto.
             ++ intro r. rewrite Ey, Q. auto.
          -- intros [H1 (y & (Hy & Hys & _) & Ey)]. split; auto.
             assert (Q : veq (bd C y) (bd F y)) by apply (part_bd K f y Hs Hys).
             exists y. split; auto. intro r. rewrite Ey, Q. auto.
  Qed.
End Ranks.

(** ** Allowable simplices *)
Lemma length_sdim t : verts t <> [] -> Z.of_nat (sdim t) = (Z.of_nat (length (verts t)) - 1)%Z.
Proof. unfold sdim. destruct (verts t) as [|v l]; [easy|]. intros _. cbn [length]. lia. Qed.

Lemma admissible_loop_spec X p q d s ks :
  (forall x, In x X -> reachable x) -> good s ->
  (forall k, In k ks -> p k = Ok (q k)) -> (forall k, In k ks -> d - k < length X) ->
  exists b, admissible_loop X p d s ks = Ok b /\
    (b = true <-> forall k, In k ks -> forall t, In t (by_index (nth (d - k) X k_empty)) -> subset (verts t) (verts s) ->
       (Z.of_nat (length (verts t)) <= Z.of_nat (length (verts s)) - Z.of_nat k + q k)%Z).
Proof.
  intros HX Hs. induction ks as [|k ks IH]; intros Hp Hk.
  - exists true. split; auto. split; [easy|auto].
  - destruct IH as (b & E & Hb); [intros; apply Hp; simpl; auto|intros; apply Hk; simpl; auto|].
    assert (Hk' : d - k < length X) by (apply Hk; simpl; auto).
    assert (HXk : In (nth (d - k) X k_empty) X) by (apply nth_In; auto).
    pose proof (reachable_kwf _ (HX _ HXk)) as HKk.
    assert (Hsub : forall t, In t (by_index (nth (d - k) X k_empty)) -> subset (verts t) (verts s) ->
              length (verts t) <= length (verts s)).
    { intros t Ht Hts. apply NoDup_incl_length; auto. apply SSgt_NoDup, (kwf_good _ HKk t Ht). }
    cbn [admissible_loop]. rewrite Hp by (simpl; auto). cbn [bind].
    destruct (Z.leb_spec 0 (q k - Z.of_nat k)) as [Hq|Hq].
    + exists b. split; auto. rewrite Hb. split.
      * intros H j [<-|Hj]; auto. intros t Ht Hts. specialize (Hsub t Ht Hts). lia.
      * intros H j Hj. apply H. simpl; auto.
    + rewrite (good_dimension s Hs). cbn [bind]. unfold at_. rewrite (nth_error_nth' X k_empty Hk'). cbn [bind].
      destruct (C67_last _ s (HX _ HXk) (proj1 Hs)) as (r & Er & Hr). rewrite Er. cbn [bind].
      destruct Hr as [[Er0 Hno]|(Hin & Hrs & Hmax)].
      * unfold s_empty. rewrite Er0. cbn [bind]. exists b. split; auto. rewrite Hb. split.
        -- intros H j [<-|Hj]; auto. intros t Ht Hts. destruct (Hno t Ht Hts).
        -- intros H j Hj. apply H. simpl; auto.
      * pose proof (kwf_good _ HKk r Hin) as Gr. destruct (s_empty r) eqn:Es.
        { unfold s_empty in Es. destruct Gr as [_ N]. destruct (verts r); easy. }
        rewrite (good_dimension r Gr). cbn [bind].
        rewrite (length_sdim r) by apply Gr. rewrite (length_sdim s) by apply Hs.
        assert (Hall : forall t, In t (by_index (nth (d - k) X k_empty)) -> subset (verts t) (verts s) ->
                  length (verts t) <= length (verts r)).
        { intros t Ht Hts. destruct (Hmax t Ht Hts) as [H|[->|[H _]]]; lia. }
        destruct (Z.leb_spec (Z.of_nat (length (verts r)) - 1) (Z.of_nat (length (verts s)) - 1 - Z.of_nat k + q k)) as [Hle|Hgt].
        -- exists b. split; auto. rewrite Hb. split.
           ++ intros H j [<-|Hj]; auto. intros t Ht Hts. specialize (Hall t Ht Hts). lia.
           ++ intros H j Hj. apply H. simpl; auto.
        -- exists false. split; auto. split; [easy|]. intro H.
           specialize (H k ltac:(simpl; auto) r Hin Hrs). lia.
Qed.

Lemma admissible_map_spec gm p q K X d :
  let start := if gm : bool then 2 else 1 in
  kwf K -> (forall x, In x X -> reachable x) -> (forall k, start <= k -> p k = Ok (q k)) ->
  k_dimension K = Ok d -> d < start + length X ->
  exists f phi, admissible_map gm p K X = Ok phi /\
    (forall t, In t (by_index K) -> phi_at phi t = Some (f t)) /\
    (forall t, In t (by_index K) -> (f t = true <-> allowable d start q (fun i => by_index (nth i X k_empty)) t)).
Proof.
  intros start HK HX Hp Hd Hl. unfold admissible_map. rewrite Hd. cbn [bind]. fold start.
  assert (Hloop : forall t, good t -> exists b, admissible_loop X p d t (seq start (S d - start)) = Ok b /\
            (b = true <-> allowable d start q (fun i => by_index (nth i X k_empty)) t)).
  { intros t Gt. destruct (admissible_loop_spec X p q d t (seq start (S d - start)) HX Gt) as (b & E & Hb).
    - intros k Hk. apply in_seq in Hk. apply Hp. lia.
    - intros k Hk. apply in_seq in Hk. lia.
    - exists b. split; auto. rewrite Hb. unfold allowable. split.
      + intros H k H1 H2. apply H. apply in_seq. lia.
      + intros H k Hk. apply in_seq in Hk. apply H; lia. }
  exists (fun t => match admissible_loop X p d t (seq start (S d - start)) with Ok b => b | _ => false end).
  set (f := fun t => match admissible_loop X p d t (seq start (S d - start)) with Ok b => b | _ => false end).
  assert (Hfold : forall l acc, (forall t, In t l -> good t) ->
    foldM (fun phi s => let* b := admissible_loop X p d s (seq start (S d - start)) in Ok (phi ++ [(s, b)])) l acc
    = Ok (acc ++ map (fun t => (t, f t)) l)).
  { induction l as [|t l IH]; intros acc Hg; cbn [foldM map]; [rewrite app_nil_r; auto|].
    destruct (Hloop t) as (b & E & _); [apply Hg; simpl; auto|]. unfold f at 1. rewrite E. cbn [bind].
    rewrite IH by (intros; apply Hg; simpl; auto). rewrite <- app_assoc. auto. }
  exists (map (fun t => (t, f t)) (by_index K)). rewrite (Hfold (by_index K) []) by apply (kwf_good K HK).
  split; auto. split.
  - intros t Ht. unfold phi_at.
    assert (G : forall l, In t l -> NoDup (map verts l) ->
              find (fun q => s_eqb (fst q) t) (map (fun t => (t, f t)) l) = Some (t, f t)).
    { induction l as [|u l IH]; [easy|]. simpl. intros Hin Hn. inversion Hn as [|? ? Hn1 Hn2]; subst.
      destruct (s_eqb u t) eqn:E.
      - apply s_eqb_eq in E. destruct Hin as [->|Hin]; auto. exfalso. apply Hn1. rewrite E. apply in_map; auto.
      - destruct Hin as [->|Hin]; [rewrite s_eqb_refl in E; discriminate|]. apply IH; auto. }
    rewrite (G _ Ht (kwf_nodup K HK)). auto.
  - intros t Ht. destruct (Hloop t (kwf_good K HK t Ht)) as (b & E & Hb). unfold f. rewrite E. auto.
Qed.

(** ** Checks *)
Lemma check_filtration_ok K X d : kwf K -> k_dimension K = Ok d ->
  (forall x, In x X -> exists e, k_dimension x = Ok e /\ e <= d) -> (exists x, In x X /\ k_dimension x = Ok d) ->
  check_filtration K X = Ok tt.
Proof.
  intros HK Hd H1 H2. unfold check_filtration. rewrite Hd. cbn [bind].
  assert (HE : k_isempty K = false).
  { unfold k_isempty. destruct (by_index K) eqn:E; auto.
    rewrite (proj1 (dimension_spec K HK) E) in Hd. discriminate. }
  rewrite HE.
  assert (G : forall l m, (forall x, In x l -> exists e, k_dimension x = Ok e /\ e <= d) -> m <= d ->
    exists m', foldM (fun m x => let* e := k_dimension x in Ok (Nat.max m e)) l m = Ok m' /\
      m <= m' <= d /\ ((exists x, In x l /\ k_dimension x = Ok d) -> m' = d)).
  { induction l as [|x l IH]; intros m Hl Hm; cbn [foldM].
    - exists m. split; auto. split; [lia|]. intros (x & [] & _).
    - destruct (Hl x) as (e & E & He); [simpl; auto|]. rewrite E. cbn [bind].
      destruct (IH (Nat.max m e)) as (m' & E' & Hm' & H); [intros; apply Hl; simpl; auto|lia|].
      exists m'. split; auto. split; [lia|].
      intros (y & [<-|Hy] & Ey); [|apply H; eauto]. rewrite E in Ey. injection Ey as ->. lia. }
  destruct (G X 0 H1 ltac:(lia)) as (m & E & _ & Hm). cbv iota. rewrite E. cbn [bind].
  rewrite (Hm H2), Nat.eqb_refl. auto.
Qed.

Lemma check_gm_ok gm X : (gm = true -> exists Y x y z, X = Y ++ [x; y; z] /\ map verts (by_index x) = map verts (by_index y)) ->
  check_gm gm X = Ok tt.
Proof.
  intro H. unfold check_gm. destruct gm; auto. destruct (H eq_refl) as (Y & x & y & z & -> & E).
  rewrite app_length. simpl length. destruct (Nat.leb_spec (length Y + 3) 2); [lia|].
  rewrite rev_app_distr. unfold get_. simpl.
  assert (Q : k_eqb y x = true) by (apply C54_equality; auto). rewrite Q. auto.
Qed.

(** ** C79: intersection homology *)
Lemma ascending_filter f l : ascending_data l -> ascending_data (filter f l).
Proof.
  intros HA i j a b Hij Hi Hj. destruct (nth_filter_before f l i j a b Hi Hj Hij) as (i' & j' & Hi' & Hj' & H).
  apply (HA i' j'); auto.
Qed.

(** For every perversity and every filtration that passes the checks, the result
    does not depend on algorithm, dualization or hash order, and its points count
    the ranks of persistent intersection homology: [l] lists the allowable
    simplices, in their order in [K], before the others, [F] is the boundary
    matrix of [l], [s] the number of allowable simplices. *)
Theorem C79_ranks : forall inf (gm : bool) p q K X d,
  let start := if gm then 2 else 1 in
  reachable K -> closed (by_index K) -> filtration_order (by_index K) ->
  (forall x, In x X -> reachable x) -> (forall k, start <= k -> p k = Ok (q k)) ->
  (gm = true -> exists Y x y z, X = Y ++ [x; y; z] /\ map verts (by_index x) = map verts (by_index y)) ->
  k_dimension K = Ok d -> (forall x, In x X -> exists e, k_dimension x = Ok e /\ e <= d) ->
  (exists x, In x X /\ k_dimension x = Ok d) -> d < start + length X ->
  exists f l F ds,
    (forall t, In t (by_index K) -> (f t = true <-> allowable d start q (fun i => by_index (nth i X k_empty)) t)) /\
    l = filter f (by_index K) ++ filter (fun t => negb (f t)) (by_index K) /\
    length F = length l /\
    (forall r j, entry F r j = true <->
       exists a b, nth_error l j = Some a /\ nth_error l r = Some b /\
         subset (verts b) (verts a) /\ length (verts a) = S (length (verts b))) /\
    (forall order a dual, (forall l, Permutation (order l) l) ->
       calculateIntersectionHomology inf order a gm p K X dual = Ok ds) /\
    (ascending_data (by_index K) -> forall x y e, (y < inf)%Z ->
       intersection_betti F (map (fun t => length (verts t) - 1) l) (length (filter f (by_index K)))
         (length (filter (fun t => data t <=? x)%Z (filter f (by_index K))))
         (length (filter (fun t => data t <=? y)%Z (filter f (by_index K)))) e
         (length (filter (fun q => (fst q <=? x)%Z && (y <? snd q)%Z) (points_of ds e)))).
Proof.
  intros inf gm p q K X d start HR HC HF HX Hp Hgm Hd H1 H2 Hl. pose proof (reachable_kwf K HR) as HK.
  destruct (admissible_map_spec gm p q K X d HK HX Hp Hd Hl) as (f0 & phi & Ephi & Hphi & Hf0).
  set (f := fun t => match phi_at phi t with Some b => b | None => false end).
  assert (Hf : forall t, In t (by_index K) -> (f t = true <-> allowable d start q (fun i => by_index (nth i X k_empty)) t)).
  { intros t Ht. unfold f. rewrite (Hphi t Ht). apply Hf0; auto. }
  set (L := fst (partition_phi K f)). set (s := snd (partition_phi K f)).
  destruct (rank_pairing K f HK HC HF) as (pr & Epr & Hpr & HB). fold L s in Epr, Hpr, HB.
  pose proof (part_kwf K f HK) as HL. pose proof (part_le K f HK) as Hle.
  pose proof (part_list K f HK) as EL. pose proof (part_count K f HK) as Es. fold L s in HL, Hle, EL, Es.
  destruct (tabulates_pairing inf L pr HL) as (ds & Eds & _).
  { intros r Hr. destruct (Hpr r Hr). lia. }
  exists f, (by_index L), (map (bcol L 0) (enum (by_index L))), ds.
  refine (conj Hf (conj EL (conj _ (conj _ (conj _ _))))).
  - rewrite map_length, enum_length. auto.
  - apply (part_entries K f HK HC).
  - intros order a dual Ho. unfold calculateIntersectionHomology.
    rewrite (check_gm_ok gm X Hgm), (check_filtration_ok K X d HK Hd H1 H2). cbn [bind].
    fold start in Ephi. rewrite Ephi. cbn [bind]. fold f.
    specialize (Epr order a dual Ho). rewrite (surjective_pairing (partition_phi K f)). fold L s.
    destruct (makeBoundaryMatrix L s) as [M| | |]; try discriminate. cbn [bind] in *.
    destruct (if dual then dualize M else Ok M) as [B| | |]; try discriminate. cbn [bind] in *.
    rewrite Epr. cbn [bind]. apply Eds.
  - intros HA x y e Hy. pose proof (ascending_filter f _ HA) as HA'.
    rewrite (points_of_pairs inf L pr ds e HL) by (auto; intros r Hr; destruct (Hpr r Hr); lia).
    set (lev := fun z => length (filter (fun t => data t <=? z)%Z (filter f (by_index K)))).
    change (length (filter (fun t => data t <=? x)%Z (filter f (by_index K)))) with (lev x).
    change (length (filter (fun t => data t <=? y)%Z (filter f (by_index K)))) with (lev y).
    rewrite filter_map_len, filter_filter, <- Es.
    assert (Hlev : forall k z, k < s -> (data_at L k <=? z)%Z = (k <? lev z)).
    { intros k z Hk. unfold data_at.
      destruct (nth_error (filter f (by_index K)) k) as [t|] eqn:Et; [|apply nth_error_None in Et; lia].
      assert (Et' : nth_error (by_index L) k = Some t) by (rewrite EL, nth_error_app1; auto; lia).
      rewrite (nth_error_nth _ _ dummy_simplex Et'). apply eq_true_iff_eq. rewrite Z.leb_le, Nat.ltb_lt.
      apply (sublevel_spec _ z HA' k t Et). }
    assert (Hlele : forall z, lev z <= s) by (intro z; unfold lev; rewrite Es; clear; induction (filter f (by_index K)) as [|t l IH]; simpl; [lia|]; destruct (data t <=? z)%Z; simpl; lia).
    specialize (HB (lev x) (lev y) e (Hlele x) (Hlele y)).
    match goal with |- intersection_betti _ _ _ _ _ _ (length (filter ?g pr)) =>
      replace (filter g pr) with (filter (fun q => ((fst q <? lev x) && (nth (fst q) (map sdim (by_index L)) 0 =? e)) && negb (dies (lev y) q)) pr) end; [apply HB|].
    apply filter_ext_in. intros r Hr. destruct (Hpr r Hr) as [Hu Hv]. unfold dies, pair_point. cbn [fst snd].
    assert (Hdim : nth (fst r) (map sdim (by_index L)) 0 = dim_at L (fst r)).
    { unfold dim_at. destruct (nth_error (by_index L) (fst r)) as [t|] eqn:Et; [|apply nth_error_None in Et; unfold k_size in Hle; lia].
      rewrite (nth_error_nth _ _ dummy_simplex Et). apply (map_nth_error sdim) in Et. apply (nth_error_nth _ _ 0 Et). }
    rewrite Hdim, <- (Hlev _ x Hu).
    destruct r as [u [v|]]; cbn [fst snd] in *.
    + assert (Hv' : (v <? length (by_index L)) = true) by (apply Nat.ltb_lt; unfold k_size in Hle; lia). rewrite Hv'.
      rewrite <- (Hlev v y Hv). replace (y <? data_at L v)%Z with (negb (data_at L v <=? y)%Z).
      * destruct (data_at L u <=? x)%Z, (dim_at L u =? e), (data_at L v <=? y)%Z; auto.
      * destruct (Z.leb_spec (data_at L v) y), (Z.ltb_spec y (data_at L v)); auto; lia.
    + apply Z.ltb_lt in Hy. rewrite Hy. destruct (data_at L u <=? x)%Z, (dim_at L u =? e); auto.
Qed.

(** The same for the perversities of the library. *)
Theorem C79_perversity : forall inf values K X d,
  reachable K -> closed (by_index K) -> filtration_order (by_index K) -> (forall x, In x X -> reachable x) ->
  k_dimension K = Ok d -> (forall x, In x X -> exists e, k_dimension x = Ok e /\ e <= d) ->
  (exists x, In x X /\ k_dimension x = Ok d) -> d < 1 + length X ->
  exists ds, forall order a dual, (forall l, Permutation (order l) l) ->
    calculateIntersectionHomology inf order a false (perversity_at (perversity values)) K X dual = Ok ds.
Proof.
  intros inf values K X d HR HC HF HX Hd H1 H2 Hl.
  destruct (C79_ranks inf false (perversity_at (perversity values))
              (fun k => nth (k - 1) (perversity values) 0%Z) K X d HR HC HF HX) as (f & l & F & ds & _ & _ & _ & _ & H & _); auto.
  - intros k Hk. unfold perversity_at. destruct k as [|k]; [lia|]. replace (S k - 1) with k by lia.
    destruct (Nat.ltb_spec (S k) (length (perversity values) + 1)).
    + unfold get_. rewrite (nth_error_nth' _ 0%Z) by lia. auto.
    + rewrite nth_overflow by lia. auto.
  - discriminate.
  - exists ds. auto.
Qed.

Theorem C79_perversityGM : forall inf values K X d,
  reachable K -> closed (by_index K) -> filtration_order (by_index K) -> (forall x, In x X -> reachable x) ->
  (exists Y x y z, X = Y ++ [x; y; z] /\ map verts (by_index x) = map verts (by_index y)) ->
  k_dimension K = Ok d -> (forall x, In x X -> exists e, k_dimension x = Ok e /\ e <= d) ->
  (exists x, In x X /\ k_dimension x = Ok d) -> d < 2 + length X ->
  exists ds, forall order a dual, (forall l, Permutation (order l) l) ->
    calculateIntersectionHomology inf order a true
      (fun k => let* q := perversityGM_at (perversityGM values) k in Ok (Z.of_nat q)) K X dual = Ok ds.
Proof.
  intros inf values K X d HR HC HF HX HG Hd H1 H2 Hl.
  destruct (C79_ranks inf true (fun k => let* q := perversityGM_at (perversityGM values) k in Ok (Z.of_nat q))
              (fun k => Z.of_nat (nth (k - 2) (perversityGM values) 0)) K X d HR HC HF HX) as (f & l & F & ds & _ & _ & _ & _ & H & _); auto.
  - intros k Hk. unfold perversityGM_at. destruct k as [|[|k]]; try lia. replace (S (S k) - 2) with k by lia.
    destruct (Nat.ltb_spec (S (S k)) (length (perversityGM values) + 2)).
    + unfold get_. rewrite (nth_error_nth' _ 0) by lia. auto.
    + rewrite nth_overflow by lia. auto.
  - exists ds. auto.
Qed.

(** ** Rejected inputs *)
Lemma check_gm_cases gm X : check_gm gm X = Ok tt \/ check_gm gm X = Throw RuntimeError.
Proof.
  unfold check_gm. destruct gm; auto. destruct (Nat.leb_spec (length X) 2); auto.
  rewrite <- rev_length in H. destruct (rev X) as [|a [|b [|c m]]]; simpl in H; try lia.
  simpl. destruct (k_eqb b c); simpl; auto.
Qed.

(** An empty complex, too few strata or differing strata for a Goresky-MacPherson
    perversity, an empty stratum, and strata whose largest dimension is not that of
    the complex lead to [std::runtime_error]. *)
Theorem C79_rejected : forall inf order a gm p K X dual, reachable K -> (forall x, In x X -> reachable x) ->
  by_index K = [] \/
  (gm = true /\ length X <= 2) \/
  (gm = true /\ exists Y x y z, X = Y ++ [x; y; z] /\ map verts (by_index x) <> map verts (by_index y)) \/
  (exists x, In x X /\ by_index x = []) \/
  (exists d, k_dimension K = Ok d /\ 0 < d /\ forall x e, In x X -> k_dimension x = Ok e -> e < d) \/
  (exists d x e, k_dimension K = Ok d /\ In x X /\ k_dimension x = Ok e /\ d < e) ->
  calculateIntersectionHomology inf order a gm p K X dual = Throw RuntimeError.
Proof.
  intros inf order a gm p K X dual HR HX H. unfold calculateIntersectionHomology.
  destruct (check_gm_cases gm X) as [E|E]; rewrite E; cbn [bind]; auto.
  pose proof (reachable_kwf K HR) as HK. destruct (dimension_spec K HK) as [D1 D2].
  enough (Q : check_filtration K X = Throw RuntimeError) by (rewrite Q; auto).
  unfold check_filtration. destruct (by_index K) as [|s0 l0] eqn:EK.
  { rewrite D1 by auto. auto. }
  destruct D2 as (d & Ed & _ & _); [discriminate|]. rewrite Ed. cbn [bind].
  assert (HE : k_isempty K = false) by (unfold k_isempty; rewrite EK; auto). rewrite HE. cbv iota.
  assert (G : forall l m, (forall x, In x l -> reachable x) ->
    (exists x, In x l /\ by_index x = []) /\ foldM (fun m x => let* e := k_dimension x in Ok (Nat.max m e)) l m = Throw RuntimeError \/
    exists m', foldM (fun m x => let* e := k_dimension x in Ok (Nat.max m e)) l m = Ok m' /\ m <= m' /\
      (forall x e, In x l -> k_dimension x = Ok e -> e <= m') /\ (m' = m \/ exists x, In x l /\ k_dimension x = Ok m') /\
      forall x, In x l -> by_index x <> []).
  { induction l as [|x l IH]; intros m Hl; cbn [foldM].
    - right. exists m. split; auto. split; auto. split; [easy|]. split; auto.
    - destruct (dimension_spec x (reachable_kwf x (Hl x ltac:(simpl; auto)))) as [F1 F2].
      destruct (by_index x) as [|u w] eqn:Ex.
      + left. split; [exists x; simpl; auto|]. rewrite F1 by auto. auto.
      + destruct F2 as (e & Ee & _); [discriminate|]. rewrite Ee. cbn [bind].
        destruct (IH (Nat.max m e)) as [[(y & Hy & Ey) E']|(m' & E' & Hm & Hall & Hex & Hne)]; [intros; apply Hl; simpl; auto| |].
        * left. split; [exists y; simpl; auto|auto].
        * right. exists m'. split; auto. split; [lia|]. split; [|split].
          -- intros y e' [<-|Hy] Ee'; [|eapply Hall; eauto]. rewrite Ee in Ee'. injection Ee' as <-. lia.
          -- destruct Hex as [->|(y & Hy & Ey)]; [|right; exists y; simpl; auto].
             destruct (Nat.max_spec m e) as [[_ ->]|[_ ->]]; [right; exists x; simpl; auto|auto].
          -- intros y [<-|Hy]; [rewrite Ex; discriminate|auto]. }
  destruct (G X 0 HX) as [[_ E']|(m & E' & _ & Hall & Hex & Hne)]; rewrite E'; auto. cbn [bind].
  destruct (Nat.eqb_spec m d) as [->|]; auto. exfalso. unfold check_gm in E.
  destruct H as [H|[(-> & H)|[(-> & Y & x & y & z & -> & H)|[(x & Hx & H)|[(d' & Ed' & Hd & H)|(d' & x & e & Ed' & Hx & Ee & H)]]]]].
  - discriminate.
  - apply Nat.leb_le in H. rewrite H in E. discriminate.
  - rewrite app_length in E. simpl length in E. destruct (Nat.leb_spec (length Y + 3) 2); [lia|].
    rewrite rev_app_distr in E. unfold get_ in E. simpl in E.
    destruct (k_eqb y x) eqn:Q; [|discriminate]. apply C54_equality in Q. auto.
  - apply (Hne x Hx H).
  - rewrite Ed in Ed'. injection Ed' as <-. destruct Hex as [->|(x & Hx & Ex)]; [lia|]. specialize (H x d Hx Ex). lia.
  - rewrite Ed in Ed'. injection Ed' as <-. specialize (Hall x e Hx Ee). lia.
Qed.

(** The checks do not notice that there are fewer strata than dimensions: then
    the stratum [X.at( d - k )] does not exist. *)
Theorem C79_too_few_strata : forall inf order a (gm : bool) p q K X d dual,
  let start := if gm then 2 else 1 in
  check_gm gm X = Ok tt -> check_filtration K X = Ok tt ->
  reachable K -> k_dimension K = Ok d -> p start = Ok q -> (q < Z.of_nat start)%Z -> start <= d -> length X <= d - start ->
  calculateIntersectionHomology inf order a gm p K X dual = Throw OutOfRange.
Proof.
  intros inf order a gm p q K X d dual start H1 H2 HR Hd Hp Hq Hs Hl. unfold calculateIntersectionHomology.
  rewrite H1, H2. cbn [bind]. enough (Q : admissible_map gm p K X = Throw OutOfRange) by (rewrite Q; auto).
  pose proof (reachable_kwf K HR) as HK. unfold admissible_map. rewrite Hd. cbn [bind]. fold start.
  destruct (by_index K) as [|s l] eqn:E; [rewrite (proj1 (dimension_spec K HK) E) in Hd; discriminate|].
  cbn [foldM]. replace (S d - start) with (S (d - start)) by lia. cbn [seq admissible_loop]. rewrite Hp. cbn [bind].
  destruct (Z.leb_spec 0 (q - Z.of_nat start)); [lia|].
  rewrite (good_dimension s) by (apply (kwf_good K HK); rewrite E; simpl; auto). cbn [bind].
  unfold at_. rewrite (proj2 (nth_error_None X (d - start)) Hl). auto.
Qed.

Example C79_too_few_example : exists K X,
  check_gm false X = Ok tt /\ check_filtration K X = Ok tt /\ reachable K /\ k_dimension K = Ok 2 /\ length X = 1.
Proof.
  set (K := mk [PushBack [0] 0; PushBack [1] 0; PushBack [2] 0; PushBack [0;1] 1; PushBack [0;2] 1; PushBack [1;2] 1; PushBack [0;1;2] 2]).
  exists K, [K]. refine (conj eq_refl (conj _ (conj (mk_reachable _) (conj _ eq_refl)))); vm_compute; reflexivity.
Qed.

(** Two circles that share the vertex 0, which is the singular stratum.  With
    [p(1)=0] the vertex is not allowable, but all edges are: one component and two
    cycles.  With [p(1)=-1] the edges at the vertex are not allowable either: two
    components and no cycles. *)
Definition figure_eight : complex := mk
  [PushBack [0] 0; PushBack [1] 0; PushBack [2] 0; PushBack [3] 0; PushBack [4] 0;
   PushBack [0;1] 1; PushBack [0;2] 1; PushBack [1;2] 1; PushBack [0;3] 1; PushBack [0;4] 1; PushBack [3;4] 1].
Example C79_example :
  let X := [mk [PushBack [0] 0]; figure_eight] in
  forall a dual, In a [AStandard; ATwist] ->
  (exists ds, calculateIntersectionHomology 1000 (fun l => l) a false (perversity_at (perversity [(-1)%Z])) figure_eight X dual = Ok ds /\
    length (filter (fun q => (snd q =? 1000)%Z) (points_of ds 0)) = 2 /\ length (points_of ds 0) = 4 /\
    points_of ds 1 = []) /\
  (exists ds, calculateIntersectionHomology 1000 (fun l => l) a false (perversity_at (perversity [0%Z])) figure_eight X dual = Ok ds /\
    length (filter (fun q => (snd q =? 1000)%Z) (points_of ds 0)) = 1 /\ length (points_of ds 0) = 4 /\
    length (points_of ds 1) = 2).
Proof.
  cbv zeta. intros a dual [<-|[<-|[]]]; destruct dual; split; eexists; (split; [vm_compute; reflexivity|]); vm_compute; auto.
Qed.

(** the hypotheses of [C79_ranks] hold for this example *)
Example C79_example_hypotheses :
  let X := [mk [PushBack [0] 0]; figure_eight] in
  reachable figure_eight /\ closed (by_index figure_eight) /\ filtration_order (by_index figure_eight) /\
  (forall x, In x X -> reachable x) /\ k_dimension figure_eight = Ok 1 /\
  (forall x, In x X -> exists e, k_dimension x = Ok e /\ e <= 1) /\
  (exists x, In x X /\ k_dimension x = Ok 1) /\ 1 < 1 + length X.
Proof.
  cbv zeta. refine (conj (mk_reachable _) (conj _ (conj _ (conj _ (conj eq_refl (conj _ (conj _ _))))))).
  - apply closed_check; [apply mk_reachable|]. vm_compute. reflexivity.
  - apply filtration_check. vm_compute. reflexivity.
  - intros x [<-|[<-|[]]]; apply mk_reachable.
  - intros x [<-|[<-|[]]]; [exists 0|exists 1]; split; auto.
  - exists figure_eight. split; [simpl; auto|]. reflexivity.
  - simpl. lia.
Qed.

Print Assumptions C79_ranks.
Print Assumptions C79_perversity.
Print Assumptions C79_perversityGM.
Print Assumptions C79_rejected.
Print Assumptions C79_too_few_strata.
