(** * C68, C69: Dowker complexes; C70: Čech complexes *)

From Coq Require Import List Arith Bool ZArith Lia Permutation Sorted.
From Verif Require Import Base BaseFacts Simplex SimplexFacts SpecComplex Complex ComplexFacts FiltrationFacts History Subcomplex SubcomplexFacts
  Quotient PropertiesComplex PropertiesQuotient PropertiesCliqueGraph PairingFacts TopDown CombinationFacts PropertiesTopDown SpecCombine Combine CombineFacts PropertiesCombine
  PropertiesIntersections SpecDowker Dowker DowkerFacts.
Import ListNotations.

Lemma sort_reachable cmp K : reachable K -> reachable (k_sort cmp K).
Proof. intros (lo & hi & h & ->). exists lo, hi, (h ++ [Sort cmp]). unfold k_run. rewrite fold_left_app. reflexivity. Qed.

Lemma data_cmp_total s t : data_cmp s t = false -> data_cmp t s = false -> s = t.
Proof.
  unfold data_cmp. rewrite (Z.eqb_sym (data t)), (Nat.eqb_sym (sdim t)). destruct (Z.eqb_spec (data s) (data t)) as [Ed|Ed].
  - destruct (Nat.eqb_spec (sdim s) (sdim t)) as [En|En].
    + intros A B. pose proof (eqb_of_not_lt s t A B) as E. apply s_eqb_eq in E. destruct s, t. simpl in *. congruence.
    + rewrite !Nat.ltb_ge. lia.
  - rewrite !Z.ltb_ge. lia.
Qed.

Lemma SS_neq {A} (R : A -> A -> Prop) l : StronglySorted R l -> NoDup l -> StronglySorted (fun a b => R a b /\ a <> b) l.
Proof.
  induction 1 as [|x l HS IH HF]; intro N; constructor; inversion N; subst; auto. rewrite Forall_forall in *. intros y Hy. split; [auto|]. intros ->. contradiction.
Qed.

Lemma sort_unique K K' : NoDup (by_index K) -> NoDup (by_index K') -> (forall s, In s (by_index K) <-> In s (by_index K')) ->
  by_index (k_sort data_cmp K) = by_index (k_sort data_cmp K').
Proof.
  intros N N' H. cbn [k_sort by_index]. apply (SS_ext (fun a b => data_cmp b a = false /\ a <> b)).
  - intros x [_ F]. apply F. reflexivity.
  - intros x y [A F] [B _]. apply F. apply data_cmp_total; auto.
  - apply SS_neq; [apply cpp_sort_sorted, data_cmp_swo|]. apply (Permutation_NoDup (Permutation_sym (cpp_sort_perm data_cmp _))). exact N.
  - apply SS_neq; [apply cpp_sort_sorted, data_cmp_swo|]. apply (Permutation_NoDup (Permutation_sym (cpp_sort_perm data_cmp _))). exact N'.
  - intro s. rewrite !cpp_sort_In. apply H.
Qed.

Lemma NoDup_by_index K : kwf K -> NoDup (by_index K).
Proof. intro HK. apply (NoDup_map_inv verts). apply (kwf_nodup K HK). Qed.

Lemma is_dowker_perm E d L L' : Permutation L L' -> is_dowker E d L -> is_dowker E d L'.
Proof.
  intros P [A B]. split.
  - intros vs Hn Hne. rewrite <- (A vs Hn Hne). unfold has. split; intros (s & Hs & X); exists s; split; auto; [apply (Permutation_in _ (Permutation_sym P))|apply (Permutation_in _ P)]; auto.
  - intros s Hs. apply B. apply (Permutation_in _ (Permutation_sym P)). exact Hs.
Qed.

Lemma dowker_build E kx lowest dimension order1 order2 :
  (forall p v w, E p v w <-> In (p, (v, w)) kx) -> (forall p v w, E p v w -> (lowest <= w)%Z) ->
  (forall l, Permutation (order1 l) l) -> (forall l, Permutation (order2 l) l) ->
  exists L K, makeSimplices order1 order2 lowest dimension (base_map kx) = Ok L /\ insert_into k_empty L = Ok K /\
    reachable (k_sort data_cmp K) /\ is_dowker E dimension (by_index (k_sort data_cmp K)).
Proof.
  intros HE Hlow O1 O2. destruct (make_ok E kx lowest dimension HE Hlow order1 order2 O1 O2) as (L & E1 & N & G & M & D).
  destruct (insert_into_new L G N) as (K & E2 & R & I). exists L, K. refine (conj E1 (conj E2 (conj (sort_reachable _ _ R) _))).
  apply (is_dowker_perm _ _ L); [|split; auto]. rewrite <- I. apply Permutation_sym, cpp_sort_perm.
Qed.

Definition source_relation (pairs : list dpair) (p v : nat) (w : Z) : Prop := In (DPair p v w) pairs.
Definition sink_relation (pairs : list dpair) (q v : nat) (w : Z) : Prop := In (DPair v q w) pairs.

Lemma sourceMap_base pairs : sourceMap pairs = base_map (map (fun p => (dp p, (dq p, dw p))) pairs).
Proof. unfold sourceMap, base_map. generalize (@nil (nat * list dvertex)). induction pairs as [|p pairs IH]; intro m; [reflexivity|]. apply IH. Qed.
Lemma sinkMap_base pairs : sinkMap pairs = base_map (map (fun p => (dq p, (dp p, dw p))) pairs).
Proof. unfold sinkMap, base_map. generalize (@nil (nat * list dvertex)). induction pairs as [|p pairs IH]; intro m; [reflexivity|]. apply IH. Qed.

(** The source (sink) complex has as simplices the sets of vertices that have a
    pair with a common source (sink), with the smallest weight up to which
    there is one as data. *)
Theorem C68_dowker : forall order1 order2 lowest pairs dimension,
  (forall l, Permutation (order1 l) l) -> (forall l, Permutation (order2 l) l) ->
  (forall p, In p pairs -> (lowest <= dw p)%Z) ->
  exists K1 K2, buildDowkerSinkSourceComplexes order1 order2 lowest pairs dimension = Ok (K1, K2) /\
    reachable K1 /\ reachable K2 /\
    is_dowker (source_relation pairs) dimension (by_index K1) /\
    is_dowker (sink_relation pairs) dimension (by_index K2).
Proof.
  intros order1 order2 lowest pairs dimension O1 O2 Hlow. unfold buildDowkerSinkSourceComplexes. rewrite sourceMap_base, sinkMap_base.
  destruct (dowker_build (source_relation pairs) (map (fun p => (dp p, (dq p, dw p))) pairs) lowest dimension order1 order2) as (L1 & K1 & A1 & B1 & R1 & D1); auto.
  { intros p v w. unfold source_relation. rewrite in_map_iff. split; [intro H; exists (DPair p v w); auto|]. intros ([p' v' w'] & E & H). cbn [dp dq dw] in E. injection E as -> -> ->. exact H. }
  { intros p v w H. apply (Hlow _ H). }
  destruct (dowker_build (sink_relation pairs) (map (fun p => (dq p, (dp p, dw p))) pairs) lowest dimension order1 order2) as (L2 & K2 & A2 & B2 & R2 & D2); auto.
  { intros p v w. unfold sink_relation. rewrite in_map_iff. split; [intro H; exists (DPair v p w); auto|]. intros ([p' v' w'] & E & H). cbn [dp dq dw] in E. injection E as -> -> ->. exact H. }
  { intros p v w H. apply (Hlow _ H). }
  rewrite A1, A2. cbn [bind]. rewrite B1, B2. cbn [bind]. eexists _, _. split; [reflexivity|]. auto.
Qed.

(** the data order of a list *)
Definition by_data (L : list simplex) : Prop :=
  forall i j s t, i < j -> nth_error L i = Some s -> nth_error L j = Some t -> (data s <= data t)%Z.

Lemma dowker_monotone E d L : is_dowker E d L -> monotone L.
Proof.
  intros [_ B] s t Hs Ht H. destruct (B t Ht) as [_ M]. apply M. destruct (B s Hs) as [(p & Hp) _]. exists p. intros v Hv. apply Hp. apply H. exact Hv.
Qed.
Lemma dowker_closed E d L : (forall s, In s L -> wf s) -> is_dowker E d L -> closed L.
Proof.
  intros W [A _] s vs Hs Hne H. set (us := nodup Nat.eq_dec vs).
  assert (Hu : set_eq us vs) by (intro v; apply nodup_In).
  assert (Nu : us <> []) by (destruct vs as [|v vs']; [easy|]; intro F; assert (X : In v us) by (apply Hu; left; reflexivity); rewrite F in X; destruct X).
  assert (Hv : verts s <> []) by (destruct vs as [|v vs']; [easy|]; intro F; specialize (H v (or_introl eq_refl)); rewrite F in H; destruct H).
  assert (Hh : has L us).
  { apply (A us (NoDup_nodup _ _) Nu). destruct (proj1 (A (verts s) (SSgt_NoDup _ (W s Hs)) Hv)) as [Hd (p & Hp)]; [exists s; split; [exact Hs|intro v; tauto]|]. split.
    - destruct Hd as [Hd|Hd]; [auto|]. right. eapply Nat.le_trans; [|exact Hd]. apply NoDup_incl_length; [apply NoDup_nodup|]. intros v X. apply H, Hu. exact X.
    - exists p. intros v X. apply Hp, H, Hu. exact X. }
  destruct Hh as (u & Hu1 & Hu2). exists u. split; [exact Hu1|]. intro v. rewrite (Hu2 v). apply Hu.
Qed.

(** Both are simplicial complexes, in filtration order with increasing data. *)
Theorem C68_filtration : forall order1 order2 lowest pairs dimension K1 K2,
  (forall l, Permutation (order1 l) l) -> (forall l, Permutation (order2 l) l) ->
  (forall p, In p pairs -> (lowest <= dw p)%Z) ->
  buildDowkerSinkSourceComplexes order1 order2 lowest pairs dimension = Ok (K1, K2) ->
  forall K, K = K1 \/ K = K2 -> closed (by_index K) /\ monotone (by_index K) /\ filtration_order (by_index K) /\ by_data (by_index K).
Proof.
  intros order1 order2 lowest pairs dimension K1 K2 O1 O2 Hlow H.
  destruct (C68_dowker order1 order2 lowest pairs dimension O1 O2 Hlow) as (K1' & K2' & H' & R1 & R2 & D1 & D2). rewrite H' in H. injection H as <- <-.
  assert (S : forall K0, reachable (k_sort data_cmp K0) -> forall E, is_dowker E dimension (by_index (k_sort data_cmp K0)) -> reachable K0 ->
    closed (by_index (k_sort data_cmp K0)) /\ monotone (by_index (k_sort data_cmp K0)) /\ filtration_order (by_index (k_sort data_cmp K0)) /\ by_data (by_index (k_sort data_cmp K0))).
  { intros K0 R0 E D Rk. pose proof (dowker_monotone _ _ _ D) as M. refine (conj _ (conj M _)).
    - apply (dowker_closed E dimension); [|exact D]. intros s Hs. apply (kwf_good _ (reachable_kwf _ R0) s Hs).
    - assert (M0 : monotone (by_index K0)).
      { intros s t Hs Ht X. apply M; auto; apply cpp_sort_In; auto. }
      destruct (C08_data_filtration K0 Rk M0) as (_ & X & Y). split; [exact X|exact Y]. }
  unfold buildDowkerSinkSourceComplexes in H'.
  destruct (makeSimplices order1 order2 lowest dimension (sourceMap pairs)) as [L1| | |] eqn:A1; try discriminate. cbn [bind] in H'.
  destruct (makeSimplices order1 order2 lowest dimension (sinkMap pairs)) as [L2| | |] eqn:A2; try discriminate. cbn [bind] in H'.
  destruct (insert_into k_empty L1) as [J1| | |] eqn:B1; try discriminate. cbn [bind] in H'.
  destruct (insert_into k_empty L2) as [J2| | |] eqn:B2; try discriminate. cbn [bind] in H'. injection H' as <- <-.
  assert (RJ : forall L J, insert_into k_empty L = Ok J -> (forall s, In s L -> wf s) -> reachable J).
  { intros L J HJ W. unfold insert_into in HJ. destruct (k_insert k_empty L) as [J' r] eqn:Q. destruct r; try discriminate. injection HJ as <-.
    replace J' with (fst (k_insert k_empty L)) by (rewrite Q; reflexivity). apply insert_reachable; [|exact W]. exists 0%Z, 0%Z, []. reflexivity. }
  assert (W : forall m L, makeSimplices order1 order2 lowest dimension (base_map m) = Ok L -> (forall y, In y m -> (lowest <= snd (snd y))%Z) -> forall s, In s L -> wf s).
  { intros m L HL Hm s Hs. destruct (make_ok (fun p v w => In (p, (v, w)) m) m lowest dimension) with (order1 := order1) (order2 := order2) as (L' & EL & _ & G & _); auto.
    - tauto.
    - intros p v w X. apply (Hm _ X).
    - rewrite EL in HL. injection HL as <-. apply G; auto. }
  rewrite sourceMap_base in A1. rewrite sinkMap_base in A2.
  intros K [->| ->].
  - apply (S J1 R1 _ D1). apply (RJ L1 J1 B1). apply (W _ _ A1). intros y Hy. apply in_map_iff in Hy. destruct Hy as (p & <- & Hp). apply Hlow. exact Hp.
  - apply (S J2 R2 _ D2). apply (RJ L2 J2 B2). apply (W _ _ A2). intros y Hy. apply in_map_iff in Hy. destruct Hy as (p & <- & Hp). apply Hlow. exact Hp.
Qed.

Lemma dowker_same E d K K' : kwf K -> kwf K' -> is_dowker E d (by_index K) -> is_dowker E d (by_index K') ->
  forall s, In s (by_index K) -> In s (by_index K').
Proof.
  intros HK HK' [A B] [A' B'] s Hs. destruct (kwf_good K HK s Hs) as [W N].
  assert (H : has (by_index K') (verts s)).
  { apply (A' _ (SSgt_NoDup _ W) N). apply (A _ (SSgt_NoDup _ W) N). exists s. split; [exact Hs|]. intro v. tauto. }
  destruct H as (t & Ht & Et). destruct (kwf_good K' HK' t Ht) as [W' _]. assert (Ev : verts t = verts s) by (apply wf_ext; auto).
  replace s with t; [exact Ht|]. destruct (B s Hs) as [S1 S2]. destruct (B' t Ht) as [T1 T2]. rewrite Ev in *. apply S2 in T1. apply T2 in S1.
  destruct s, t. simpl in *. f_equal; [auto|lia].
Qed.

(** The order of the hash tables is not visible. *)
Theorem C68_order : forall order1 order2 order1' order2' lowest pairs dimension K1 K2 K1' K2',
  (forall l, Permutation (order1 l) l) -> (forall l, Permutation (order2 l) l) ->
  (forall l, Permutation (order1' l) l) -> (forall l, Permutation (order2' l) l) ->
  (forall p, In p pairs -> (lowest <= dw p)%Z) ->
  buildDowkerSinkSourceComplexes order1 order2 lowest pairs dimension = Ok (K1, K2) ->
  buildDowkerSinkSourceComplexes order1' order2' lowest pairs dimension = Ok (K1', K2') ->
  by_index K1 = by_index K1' /\ by_index K2 = by_index K2'.
Proof.
  intros o1 o2 o1' o2' lowest pairs dimension K1 K2 K1' K2' O1 O2 O1' O2' Hlow H H'.
  destruct (C68_dowker o1 o2 lowest pairs dimension O1 O2 Hlow) as (J1 & J2 & X & R1 & R2 & D1 & D2). pose proof X as Y. rewrite H in X. injection X as -> ->.
  destruct (C68_dowker o1' o2' lowest pairs dimension O1' O2' Hlow) as (I1 & I2 & X' & R1' & R2' & D1' & D2'). pose proof X' as Y'. rewrite H' in X'. injection X' as -> ->.
  assert (G : forall E A B, reachable (k_sort data_cmp A) -> reachable (k_sort data_cmp B) ->
     is_dowker E dimension (by_index (k_sort data_cmp A)) -> is_dowker E dimension (by_index (k_sort data_cmp B)) -> by_index (k_sort data_cmp A) = by_index (k_sort data_cmp B)).
  { intros E A B RA RB DA DB. apply reachable_kwf in RA. apply reachable_kwf in RB. apply sort_unique.
    - apply (Permutation_NoDup (cpp_sort_perm data_cmp _)). apply (NoDup_by_index _ RA).
    - apply (Permutation_NoDup (cpp_sort_perm data_cmp _)). apply (NoDup_by_index _ RB).
    - intro s. rewrite <- (cpp_sort_In data_cmp s (by_index A)), <- (cpp_sort_In data_cmp s (by_index B)). split; intro Hs.
      + apply (dowker_same E dimension _ _ RA RB DA DB s Hs).
      + apply (dowker_same E dimension _ _ RB RA DB DA s Hs). }
  unfold buildDowkerSinkSourceComplexes in Y, Y'.
  destruct (makeSimplices o1 o2 lowest dimension (sourceMap pairs)) as [L1| | |]; try discriminate. cbn [bind] in Y.
  destruct (makeSimplices o1 o2 lowest dimension (sinkMap pairs)) as [L2| | |]; try discriminate. cbn [bind] in Y.
  destruct (insert_into k_empty L1) as [A1| | |]; try discriminate. cbn [bind] in Y.
  destruct (insert_into k_empty L2) as [A2| | |]; try discriminate. cbn [bind] in Y. injection Y as <- <-.
  destruct (makeSimplices o1' o2' lowest dimension (sourceMap pairs)) as [L1'| | |]; try discriminate. cbn [bind] in Y'.
  destruct (makeSimplices o1' o2' lowest dimension (sinkMap pairs)) as [L2'| | |]; try discriminate. cbn [bind] in Y'.
  destruct (insert_into k_empty L1') as [A1'| | |]; try discriminate. cbn [bind] in Y'.
  destruct (insert_into k_empty L2') as [A2'| | |]; try discriminate. cbn [bind] in Y'. injection Y' as <- <-.
  split; eapply G; eassumption.
Qed.

Lemma sorted_filtration K0 : kwf (k_sort data_cmp K0) -> monotone (by_index (k_sort data_cmp K0)) ->
  filtration_order (by_index (k_sort data_cmp K0)) /\ by_data (by_index (k_sort data_cmp K0)).
Proof.
  intros HK M. split.
  - cbn [k_sort by_index]. apply sort_filtration; [apply data_cmp_swo|]. intros s t Hs Ht Hp.
    assert (Hs' : In s (by_index (k_sort data_cmp K0))) by (apply cpp_sort_In; exact Hs). assert (Ht' : In t (by_index (k_sort data_cmp K0))) by (apply cpp_sort_In; exact Ht).
    pose proof (M s t Hs' Ht' (proj1 Hp)) as Hd. unfold data_cmp.
    pose proof (proper_face_dim t s (kwf_good _ HK t Ht') (kwf_good _ HK s Hs') Hp) as Hl.
    destruct (Z.eqb_spec (data t) (data s)); [|apply Z.ltb_lt; lia].
    destruct (Nat.eqb_spec (sdim t) (sdim s)); [lia|]. apply Nat.ltb_lt; auto.
  - unfold by_data. apply sorted_by_value; [apply data_cmp_swo|]. intros s t. unfold data_cmp.
    destruct (Z.eqb_spec (data t) (data s)); [lia|]. rewrite Z.ltb_ge. lia.
Qed.

(** The second interface, for the matrix [D] of shortest path lengths *)
Definition path_relation (n : nat) (D : nat -> nat -> Z) (epsilon : Z) (p v : nat) (w : Z) : Prop :=
  p < n /\ v < n /\ w = D p v /\ (w <= epsilon)%Z.

Lemma admissible_In n D R p : In p (admissiblePairs n D R) <-> path_relation n D R (dp p) (dq p) (dw p).
Proof.
  unfold admissiblePairs, path_relation. rewrite in_flat_map. split.
  - intros (i & Hi & H). apply in_flat_map in H. destruct H as (j & Hj & H). apply in_seq in Hi, Hj. destruct (Z.leb_spec (D i j) R) as [L|L]; [|destruct H].
    destruct H as [<-|[]]. cbn [dp dq dw]. refine (conj _ (conj _ (conj eq_refl L))); lia.
  - destruct p as [i j w]. cbn [dp dq dw]. intros (Hi & Hj & -> & L). exists i. split; [apply in_seq; lia|]. apply in_flat_map. exists j. split; [apply in_seq; lia|].
    apply Z.leb_le in L. rewrite L. left. reflexivity.
Qed.

Theorem C69_pairs : forall n D epsilon p v w,
  In (DPair p v w) (admissiblePairs n D epsilon) <-> path_relation n D epsilon p v w.
Proof. intros. apply (admissible_In n D epsilon (DPair p v w)). Qed.

Theorem C69_dowker : forall order1 order2 lowest n D epsilon dimension,
  (forall l, Permutation (order1 l) l) -> (forall l, Permutation (order2 l) l) ->
  (forall i j, i < n -> j < n -> (lowest <= D i j)%Z) ->
  exists K, buildDowkerSourceComplex order1 order2 lowest n D epsilon dimension = Ok K /\ reachable K /\
    is_dowker (path_relation n D epsilon) dimension (by_index K) /\
    closed (by_index K) /\ monotone (by_index K) /\ filtration_order (by_index K) /\ by_data (by_index K).
Proof.
  intros order1 order2 lowest n D epsilon dimension O1 O2 Hlow. unfold buildDowkerSourceComplex. rewrite sourceMap_base.
  destruct (dowker_build (path_relation n D epsilon) (map (fun p => (dp p, (dq p, dw p))) (admissiblePairs n D epsilon)) lowest dimension order1 order2) as (L1 & K1 & A1 & B1 & R1 & D1); auto.
  { intros p v w. rewrite in_map_iff. split; [intro H; exists (DPair p v w); split; [reflexivity|]; apply C69_pairs; exact H|]. intros ([p' v' w'] & E & H). cbn [dp dq dw] in E. injection E as -> -> ->. apply C69_pairs in H. exact H. }
  { intros p v w (H1 & H2 & -> & _). auto. }
  rewrite A1. cbn [bind]. rewrite B1. cbn [bind]. eexists. refine (conj eq_refl (conj R1 (conj D1 (conj _ (conj (dowker_monotone _ _ _ D1) _))))); [|apply sorted_filtration; [apply reachable_kwf; exact R1|apply (dowker_monotone _ _ _ D1)]].
  apply (dowker_closed _ _ _ (fun s Hs => proj1 (kwf_good _ (reachable_kwf _ R1) s Hs)) D1).
Qed.

(** ** C70 *)
Lemma SS_rev {A} (R : A -> A -> Prop) l : StronglySorted R l -> StronglySorted (fun a b => R b a) (rev l).
Proof.
  induction 1 as [|x l HS IH HF]; cbn [rev]; [constructor|]. apply StronglySorted_app. refine (conj IH (conj _ _)); [repeat constructor|].
  intros a b Ha [<-|[]]. rewrite Forall_forall in HF. apply HF. apply in_rev. exact Ha.
Qed.
Section Cech.
Variable radius2 : list nat -> Z.
Variable diameter : Z -> Z.
Variable R : Z.

Definition cech_simplices (l : list (list nat)) : list simplex :=
  map (fun vs => simplex_of vs (diameter (radius2 vs))) (filter (fun vs => (radius2 vs <=? R)%Z) l).

Lemma cech_visit_all l : forall acc, visit (cech_visit radius2 diameter R) l acc = Ok (false, acc ++ cech_simplices l).
Proof.
  induction l as [|vs l IH]; intro acc; cbn [visit].
  - unfold cech_simplices. cbn [filter map]. rewrite app_nil_r. reflexivity.
  - unfold cech_visit at 1. unfold cech_simplices. cbn [filter]. destruct (radius2 vs <=? R)%Z; cbn [bind fst snd map]; rewrite IH; [|reflexivity].
    rewrite <- app_assoc. reflexivity.
Qed.

Hypothesis mono : forall vs ws, StronglySorted lt vs -> StronglySorted lt ws -> subset vs ws -> (radius2 vs <= radius2 ws)%Z.

Lemma none_larger n d e : 1 <= d -> d <= e -> filter (fun vs => (radius2 vs <=? R)%Z) (combs d (seq 0 n)) = [] ->
  filter (fun vs => (radius2 vs <=? R)%Z) (combs e (seq 0 n)) = [].
Proof.
  intros H1 He H. destruct (filter _ (combs e (seq 0 n))) as [|vs r] eqn:F; [reflexivity|]. exfalso.
  assert (Hv : In vs (filter (fun vs => (radius2 vs <=? R)%Z) (combs e (seq 0 n)))) by (rewrite F; left; reflexivity).
  apply filter_In in Hv. destruct Hv as [Hv L]. apply (combs_In _ (seq_sorted _ _)) in Hv. destruct Hv as (S & Len & Sub).
  assert (Hw : In (firstn d vs) (filter (fun vs => (radius2 vs <=? R)%Z) (combs d (seq 0 n)))).
  { assert (S' : StronglySorted lt (firstn d vs)).
    { rewrite <- (firstn_skipn d vs) in S. apply StronglySorted_app in S. apply S. }
    assert (Sb : subset (firstn d vs) vs) by (intros v X; rewrite <- (firstn_skipn d vs); apply in_or_app; auto).
    apply filter_In. split.
    - apply (combs_In _ (seq_sorted _ _)). refine (conj S' (conj _ (fun v X => Sub v (Sb v X)))). rewrite firstn_length. lia.
    - apply Z.leb_le in L. apply Z.leb_le. specialize (mono _ _ S' S Sb). lia. }
  rewrite H in Hw. destruct Hw.
Qed.

Lemma cech_loop_ok n : forall steps d acc, 1 <= d -> d + steps = S n \/ (steps = 0) ->
  cech_loop radius2 diameter R steps d (seq 0 n) acc = Ok (acc ++ flat_map (fun e => cech_simplices (combs e (seq 0 n))) (seq d steps)).
Proof.
  induction steps as [|steps IH]; intros d acc Hd Hs; cbn [cech_loop seq flat_map].
  - rewrite app_nil_r. reflexivity.
  - assert (Hs' : d + S steps = S n) by (destruct Hs; [auto|discriminate]).
    pose proof (for_each_ok (cech_visit radius2 diameter R) d (seq 0 n) acc ltac:(rewrite seq_length; lia)) as M. rewrite cech_visit_all in M. cbn [matches] in M.
    rewrite M. cbn [bind fst snd]. rewrite app_length. destruct (Nat.eqb_spec (length acc) (length acc + length (cech_simplices (combs d (seq 0 n))))) as [Z0|Z0].
    + assert (E0 : cech_simplices (combs d (seq 0 n)) = []) by (apply length_zero_iff_nil; lia). rewrite E0. cbn [app]. f_equal. f_equal.
      assert (F0 : filter (fun vs => (radius2 vs <=? R)%Z) (combs d (seq 0 n)) = []) by (unfold cech_simplices in E0; apply map_eq_nil in E0; exact E0).
      assert (G : forall k, S d <= k -> forall m, flat_map (fun e => cech_simplices (combs e (seq 0 n))) (seq k m) = []).
      { intros k Hk m. revert k Hk. induction m as [|m IHm]; intros k Hk; [reflexivity|]. cbn [seq flat_map]. rewrite IHm by lia. unfold cech_simplices. rewrite (none_larger n d k) by (auto; lia). reflexivity. }
      rewrite G by lia. reflexivity.
    + rewrite IH by lia. rewrite Nat.add_1_r, <- app_assoc. reflexivity.
Qed.
End Cech.

(** Exactly the vertex sets whose smallest enclosing ball has a radius of at most [r],
    with the diameter of the ball as data. *)
Theorem C70_cech : forall radius2 diameter n r,
  (forall vs ws, StronglySorted lt vs -> StronglySorted lt ws -> subset vs ws -> (radius2 vs <= radius2 ws)%Z) ->
  exists K, buildCechComplex radius2 diameter n r = Ok K /\ reachable K /\
    (forall vs, StronglySorted lt vs -> vs <> [] ->
       (has (by_index K) vs <-> (forall v, In v vs -> v < n) /\ (length vs = 1 \/ (radius2 vs <= r * r)%Z))) /\
    (forall s, In s (by_index K) -> data s = if length (verts s) =? 1 then 0%Z else diameter (radius2 (rev (verts s)))) /\
    closed (by_index K).
Proof.
  intros radius2 diameter n r mono. unfold buildCechComplex.
  rewrite (cech_loop_ok radius2 diameter (r * r) mono n (n - 1) 2 _ ltac:(lia) ltac:(lia)). cbn [bind].
  set (L := map (fun v => simplex_vertex v 0) (seq 0 n) ++ flat_map (fun e => cech_simplices radius2 diameter (r * r) (combs e (seq 0 n))) (seq 2 (n - 1))).
  assert (HL : forall s, In s L <-> (exists v, v < n /\ s = simplex_of [v] 0) \/
     exists vs, StronglySorted lt vs /\ 2 <= length vs /\ (forall v, In v vs -> v < n) /\ (radius2 vs <= r * r)%Z /\ s = simplex_of vs (diameter (radius2 vs))).
  { intro s. unfold L. rewrite in_app_iff, in_map_iff, in_flat_map. split.
    - intros [(v & <- & Hv)|(e & He & Hs)].
      + left. exists v. apply in_seq in Hv. split; [lia|reflexivity].
      + right. unfold cech_simplices in Hs. apply in_map_iff in Hs. destruct Hs as (vs & <- & Hv). apply filter_In in Hv. destruct Hv as [Hv Le]. apply Z.leb_le in Le.
        apply (combs_In _ (seq_sorted _ _)) in Hv. destruct Hv as (S & Len & Sub). apply in_seq in He. exists vs. refine (conj S (conj _ (conj _ (conj Le eq_refl)))); [lia|].
        intros v Hv. apply Sub in Hv. apply in_seq in Hv. lia.
    - intros [(v & Hv & ->)|(vs & S & Len & Sub & Le & ->)].
      + left. exists v. split; [reflexivity|]. apply in_seq. lia.
      + right. assert (Lv : length vs <= n).
        { rewrite <- (seq_length n 0). apply NoDup_incl_length; [apply SSlt_NoDup; exact S|]. intros v Hv. apply in_seq. specialize (Sub v Hv). lia. }
        exists (length vs). split; [apply in_seq; lia|]. unfold cech_simplices. apply in_map_iff. exists vs. split; [reflexivity|]. apply filter_In. split; [|apply Z.leb_le; exact Le].
        apply (combs_In _ (seq_sorted _ _)). refine (conj S (conj eq_refl _)). intros v Hv. apply in_seq. specialize (Sub v Hv). lia. }
  assert (Hrev : forall vs d, StronglySorted lt vs -> verts (simplex_of vs d) = rev vs).
  { intros vs d S. change (rev vs) with (verts (Simplex (rev vs) 0)). apply wf_ext; [apply simplex_of_wf| |].
    - unfold wf. cbn [verts]. apply (SS_rev lt). exact S.
    - intro v. rewrite simplex_of_In. cbn [verts]. rewrite <- in_rev. tauto. }
  assert (Hsv : forall s, In s L -> exists vs, StronglySorted lt vs /\ vs <> [] /\ verts s = rev vs /\ (forall v, In v vs -> v < n) /\
      (length vs = 1 /\ data s = 0%Z \/ 2 <= length vs /\ (radius2 vs <= r * r)%Z /\ data s = diameter (radius2 vs))).
  { intros s Hs. apply HL in Hs. destruct Hs as [(v & Hv & ->)|(vs & S & Len & Sub & Le & ->)].
    - exists [v]. refine (conj _ (conj _ (conj eq_refl (conj _ (or_introl (conj eq_refl eq_refl)))))); [repeat constructor|easy|]. intros v' [<-|[]]. exact Hv.
    - exists vs. refine (conj S (conj _ (conj (Hrev vs _ S) (conj Sub (or_intror (conj Len (conj Le eq_refl))))))). intros ->. simpl in Len. lia. }
  assert (Hg : forall s, In s L -> good s).
  { intros s Hs. destruct (Hsv s Hs) as (vs & S & N & Ev & _). split; [|rewrite Ev; intro F; apply N; rewrite <- (rev_involutive vs), F; reflexivity].
    unfold wf. rewrite Ev. apply (SS_rev lt). exact S. }
  assert (Hn : NoDup (map verts L)).
  { unfold L. rewrite map_app, map_map. cbn [simplex_vertex verts].
    assert (Hf : forall steps d, NoDup (map verts (flat_map (fun e => cech_simplices radius2 diameter (r * r) (combs e (seq 0 n))) (seq d steps))) /\
       forall vs, In vs (map verts (flat_map (fun e => cech_simplices radius2 diameter (r * r) (combs e (seq 0 n))) (seq d steps))) -> d <= length vs).
    { induction steps as [|steps IH]; intro d; [split; [constructor|easy]|]. cbn [seq flat_map]. rewrite map_app. destruct (IH (S d)) as [I1 I2].
      assert (Hc : map verts (cech_simplices radius2 diameter (r * r) (combs d (seq 0 n))) = map (@rev nat) (filter (fun vs => (radius2 vs <=? r * r)%Z) (combs d (seq 0 n)))).
      { unfold cech_simplices. rewrite map_map. apply map_ext_in. intros vs Hv. apply filter_In in Hv. destruct Hv as [Hv _]. apply (combs_In _ (seq_sorted _ _)) in Hv. apply Hrev, Hv. }
      assert (Hcl : forall vs, In vs (map verts (cech_simplices radius2 diameter (r * r) (combs d (seq 0 n)))) -> length vs = d).
      { intros vs Hv. rewrite Hc in Hv. apply in_map_iff in Hv. destruct Hv as (ws & <- & Hw). apply filter_In in Hw. destruct Hw as [Hw _]. apply (combs_In _ (seq_sorted _ _)) in Hw. rewrite rev_length. apply Hw. }
      split.
      - apply NoDup_app_intro; [|exact I1|].
        + rewrite Hc. apply FinFun.Injective_map_NoDup; [intros x y X; rewrite <- (rev_involutive x), X; apply rev_involutive|]. apply NoDup_filter. apply combs_NoDup. apply SSlt_NoDup, seq_sorted.
        + intros vs H1 H2. apply Hcl in H1. apply I2 in H2. lia.
      - intros vs Hv. apply in_app_or in Hv. destruct Hv as [Hv|Hv]; [apply Hcl in Hv; lia|apply I2 in Hv; lia]. }
    destruct (Hf (n - 1) 2) as [F1 F2]. apply NoDup_app_intro; [|exact F1|].
    - apply FinFun.Injective_map_NoDup; [intros x y X; injection X; auto|apply seq_NoDup].
    - intros vs H1 H2. apply F2 in H2. apply in_map_iff in H1. destruct H1 as (v & <- & _). simpl in H2. lia. }
  destruct (insert_into_new L Hg Hn) as (K & EK & RK & IK). rewrite EK. cbn [bind]. eexists. split; [reflexivity|]. split; [apply sort_reachable; exact RK|].
  assert (HK : forall s, In s (by_index (k_sort data_cmp K)) <-> In s L) by (intro s; cbn [k_sort by_index]; rewrite cpp_sort_In, IK; tauto).
  assert (Hhas : forall vs, StronglySorted lt vs -> vs <> [] ->
       (has (by_index (k_sort data_cmp K)) vs <-> (forall v, In v vs -> v < n) /\ (length vs = 1 \/ (radius2 vs <= r * r)%Z))).
  { intros vs S N. split.
    - intros (s & Hs & Es). apply HK in Hs. destruct (Hsv s Hs) as (ws & S' & N' & Ev & Sub & X).
      assert (E : ws = vs). { apply SSlt_ext; auto. intro v. rewrite in_rev, <- Ev. apply Es. }
      subst ws. split; [exact Sub|]. destruct X as [[X _]|(_ & X & _)]; auto.
    - intros [Sub X]. destruct (Nat.eq_dec (length vs) 1) as [L1|L1].
      + destruct vs as [|v [|? ?]]; try discriminate. exists (simplex_of [v] 0). split; [|intro u; apply simplex_of_In]. apply HK, HL. left. exists v. split; [apply Sub; left; reflexivity|reflexivity].
      + destruct X as [X|X]; [easy|]. exists (simplex_of vs (diameter (radius2 vs))). split; [|intro u; apply simplex_of_In]. apply HK, HL. right. exists vs.
        refine (conj S (conj _ (conj Sub (conj X eq_refl)))). destruct vs as [|? [|? ?]]; [easy|simpl in L1; lia|simpl; lia]. }
  refine (conj Hhas (conj _ _)).
  - intros s Hs. apply HK in Hs. destruct (Hsv s Hs) as (vs & S & N & Ev & _ & X). rewrite Ev, rev_length, rev_involutive.
    destruct X as [[X1 X2]|(X1 & _ & X2)]; destruct (Nat.eqb_spec (length vs) 1); auto; lia.
  - intros s vs Hs Nv Sub. apply HK in Hs. destruct (Hsv s Hs) as (ws & S & N & Ev & Lt & X).
    set (us := rev (verts (simplex_of vs 0))).
    assert (Su : StronglySorted lt us).
    { unfold us. apply (SS_rev gt). apply (simplex_of_wf vs 0). }
    assert (Eu : set_eq us vs) by (intro v; unfold us; rewrite <- in_rev; apply simplex_of_In).
    assert (Nu : us <> []) by (destruct vs as [|v vs']; [easy|]; intro F; assert (Y : In v us) by (apply Eu; left; reflexivity); rewrite F in Y; destruct Y).
    assert (Uw : subset us ws) by (intros v Hv; apply Eu, Sub in Hv; rewrite Ev in Hv; apply in_rev in Hv; exact Hv).
    assert (Hh : has (by_index (k_sort data_cmp K)) us).
    { apply (Hhas us Su Nu). split; [intros v Hv; apply Lt, Uw, Hv|]. destruct X as [[X1 _]|(_ & X & _)].
      - left. destruct ws as [|w [|? ?]]; try discriminate. assert (Hl : length us <= 1) by (apply (NoDup_incl_length (l' := [w]) (SSlt_NoDup _ Su)); exact Uw). destruct us; [easy|]. simpl in *. lia.
      - right. specialize (mono _ _ Su S Uw). lia. }
    destruct Hh as (t & Ht & Et). exists t. split; [exact Ht|]. intro v. rewrite (Et v). apply Eu.
Qed.

(** The simplices are in filtration order, with increasing data. *)
Theorem C70_filtration : forall radius2 diameter n r K,
  (forall vs ws, StronglySorted lt vs -> StronglySorted lt ws -> subset vs ws -> (radius2 vs <= radius2 ws)%Z) ->
  (forall x y, (x <= y)%Z -> (diameter x <= diameter y)%Z) -> (forall x, (0 <= diameter x)%Z) ->
  buildCechComplex radius2 diameter n r = Ok K ->
  monotone (by_index K) /\ filtration_order (by_index K) /\ by_data (by_index K).
Proof.
  intros radius2 diameter n r K mono Hm H0 HK. destruct (C70_cech radius2 diameter n r mono) as (K' & E & R & _ & D & _). pose proof E as E'. rewrite HK in E. injection E as <-.
  pose proof (reachable_kwf _ R) as W.
  assert (M : monotone (by_index K)).
  { intros s t Hs Ht Sub. rewrite (D s Hs), (D t Ht). destruct (kwf_good _ W s Hs) as [Ws Ns]. destruct (kwf_good _ W t Ht) as [Wt Nt].
    assert (Len : length (verts t) <= length (verts s)) by (apply NoDup_incl_length; [apply SSgt_NoDup; exact Wt|exact Sub]).
    destruct (Nat.eqb_spec (length (verts t)) 1); destruct (Nat.eqb_spec (length (verts s)) 1); [lia|apply H0| |].
    - destruct (verts t); [easy|]. simpl in *. exfalso. lia.
    - apply Hm, mono; [apply (SS_rev gt); exact Wt|apply (SS_rev gt); exact Ws|]. intros v Hv. rewrite <- in_rev in *. apply Sub. exact Hv. }
  refine (conj M _). unfold buildCechComplex in E'.
  destruct (cech_loop _ _ _ _ _ _ _) as [L| | |] in E'; try discriminate. cbn [bind] in E'. destruct (insert_into k_empty L) as [K0| | |]; try discriminate. cbn [bind] in E'.
  injection E' as <-. apply sorted_filtration; [exact W|exact M].
Qed.

(** Without a monotone radius the early end of the loop loses simplices. *)
Definition odd_radius (vs : list nat) : Z := if length vs =? 2 then 5 else 0.
Theorem C70_monotone_needed :
  exists radius2 n r K, buildCechComplex radius2 (fun x => x) n r = Ok K /\ Z.le (radius2 [0; 1; 2]) (r * r) /\ n = 3 /\ ~ has (by_index K) [0; 1; 2].
Proof.
  exists odd_radius, 3, 2%Z. eexists. split; [vm_compute; reflexivity|]. refine (conj _ (conj eq_refl _)); [vm_compute; discriminate|].
  intros (s & Hs & E). assert (X : In 0 (verts s) /\ In 1 (verts s)) by (split; apply E; simpl; auto). clear E. destruct X as [X Y].
  cbn [by_index In] in Hs. do 3 (destruct Hs as [<-|Hs]; [simpl in X, Y; lia|]). destruct Hs.
Qed.

(** ** Examples *)
Definition some_pairs := [DPair 0 1 3; DPair 0 2 5; DPair 3 2 1; DPair 3 1 4; DPair 3 4 2].
Example C68_example :
  exists K1 K2, buildDowkerSinkSourceComplexes (@rev _) (fun l => l) (-100) some_pairs 0 = Ok (K1, K2) /\
    map (fun s => (verts s, data s)) (by_index K1) =
      [([2], 1%Z); ([4], 2%Z); ([4; 2], 2%Z); ([1], 3%Z); ([2; 1], 4%Z); ([4; 1], 4%Z); ([4; 2; 1], 4%Z)] /\
    map (fun s => (verts s, data s)) (by_index K2) = [([3], 1%Z); ([0], 3%Z); ([3; 0], 4%Z)].
Proof. eexists _, _. split; [vm_compute; reflexivity|]. split; reflexivity. Qed.

Definition some_distances (i j : nat) : Z := nth j (nth i [[0; 2; 7]; [9; 0; 3]; [1; 8; 0]]%Z []) 0%Z.
Example C69_example :
  exists K, buildDowkerSourceComplex (@rev _) (fun l => l) (-100) 3 some_distances 3 1 = Ok K /\
    map (fun s => (verts s, data s)) (by_index K) =
      [([0], 0%Z); ([1], 0%Z); ([2], 0%Z); ([2; 0], 1%Z); ([1; 0], 2%Z); ([2; 1], 3%Z)].
Proof. eexists. split; [vm_compute; reflexivity|]. reflexivity. Qed.

(** points [0, 2, 4, 20] on a line, in units such that the squared radius is an integer *)
Definition line_radius2 (vs : list nat) : Z :=
  let xs := map (fun v => nth v [0; 2; 4; 20]%Z 0%Z) vs in
  let r := ((fold_left Z.max xs 0 - fold_left Z.min xs 20) / 2)%Z in (r * r)%Z.
Example C70_example :
  exists K, buildCechComplex line_radius2 (fun x => 2 * Z.sqrt x)%Z 4 2 = Ok K /\
    map (fun s => (verts s, data s)) (by_index K) =
      [([0], 0%Z); ([1], 0%Z); ([2], 0%Z); ([3], 0%Z); ([1; 0], 2%Z); ([2; 1], 2%Z); ([2; 0], 4%Z); ([2; 1; 0], 4%Z)].
Proof. eexists. split; [vm_compute; reflexivity|]. reflexivity. Qed.

Print Assumptions C68_dowker.
Print Assumptions C68_filtration.
Print Assumptions C68_order.
Print Assumptions C69_pairs.
Print Assumptions C69_dowker.
Print Assumptions C70_cech.
Print Assumptions C70_filtration.
Print Assumptions C70_monotone_needed.
