(** * Properties C19, C24 and C55: persistence diagrams. *)
From Coq Require Import List Arith Bool ZArith Lia Permutation Sorted.
From Verif Require Import Base BaseFacts Matrix SpecMatrix PairingFacts DualFacts RepFacts PropertiesMatrix
  SpecHomology HomologyFacts Simplex SpecComplex Complex ComplexFacts FiltrationFacts History SubcomplexFacts
  PropertiesComplex PropertiesHomology SpecDiagram Diagram DiagramFacts.
Import ListNotations.

(** ** C19 *)
Lemma tabulates_pairing : forall inf K p, kwf K ->
  (forall q, In q p -> fst q < k_size K) ->
  exists ds, makePersistenceDiagrams inf p K = Ok ds /\
    StronglySorted lt (map dgm_dim ds) /\
    (forall D, In D ds -> points D <> [] /\
       points D = map (pair_point inf K) (filter (fun q => dim_at K (fst q) =? dgm_dim D) p)) /\
    (forall q, In q p -> exists D, In D ds /\ dgm_dim D = dim_at K (fst q)).
Proof.
  intros inf K p HK Hp. destruct (make_diagrams inf K p HK Hp) as (ds & E & Hs & Hn & H).
  exists ds. refine (conj E (conj Hs (conj _ _))).
  - intros [d l] HD. split; [apply (Hn _ HD)|]. simpl. apply H; auto.
  - intros q Hq. destruct (H (dim_at K (fst q)) (map (pair_point inf K) (filter (fun r => dim_at K (fst r) =? dim_at K (fst q)) p))) as [H1 _]. specialize (H1 eq_refl).
    eexists. split; [apply H1|reflexivity].
    intro E0. apply map_eq_nil in E0.
    assert (In q []) by (rewrite <- E0; apply filter_In; split; auto; apply Nat.eqb_refl). easy.
Qed.

Theorem C19_tabulates_pairing : forall inf K p, reachable K ->
  (forall q, In q p -> fst q < k_size K) ->
  exists ds, makePersistenceDiagrams inf p K = Ok ds /\
    StronglySorted lt (map dgm_dim ds) /\
    (forall D, In D ds -> points D <> [] /\
       points D = map (pair_point inf K) (filter (fun q => dim_at K (fst q) =? dgm_dim D) p)) /\
    (forall q, In q p -> exists D, In D ds /\ dgm_dim D = dim_at K (fst q)).
Proof. intros inf K p HR. apply tabulates_pairing, reachable_kwf, HR. Qed.

Theorem C19_invalid_creator : forall inf K p, reachable K ->
  (exists q, In q p /\ k_size K <= fst q) -> makePersistenceDiagrams inf p K = Throw OutOfRange.
Proof. intros inf K p HR. apply make_diagrams_throw, reachable_kwf, HR. Qed.

Example C19_example :
  makePersistenceDiagrams 99 [(0, None); (1, Some 3); (5, Some 6); (2, Some 4); (4, Some 70)] full_triangle
  = Ok [Diagram 0 (map (fun q => (data_at full_triangle (fst q), match snd q with Some j => data_at full_triangle j | None => 99%Z end))
                      [(0, None); (1, Some 3); (2, Some 4)]);
        Diagram 1 [(data_at full_triangle 5, data_at full_triangle 6); (data_at full_triangle 4, 99%Z)]].
Proof. reflexivity. Qed.

(** ** C24 *)
Theorem C24_operations : forall inf D E q,
  let mult D := count_occ point_dec (points D) q in
  mult (removeDiagonal D) = (if Z.eq_dec (fst q) (snd q) then 0 else mult D) /\
  mult (removeUnpaired inf D) = (if Z.eq_dec (snd q) inf then 0 else mult D) /\
  mult (removeDuplicates D) = Nat.min 1 (mult D) /\
  mult (d_merge D E) = mult D + mult E /\
  d_betti inf D + d_size (removeUnpaired inf D) = d_size D /\
  dgm_dim (removeDiagonal D) = dgm_dim D /\ dgm_dim (removeUnpaired inf D) = dgm_dim D /\
  dgm_dim (removeDuplicates D) = dgm_dim D /\ dgm_dim (d_merge D E) = dgm_dim D.
Proof.
  intros inf D E q mult. unfold mult. refine (conj _ (conj _ (conj _ (conj _ (conj _ _))))).
  - simpl. rewrite count_filter_pt. destruct (Z.eq_dec (fst q) (snd q)), (Z.eqb_spec (fst q) (snd q)); easy.
  - simpl. rewrite count_filter_pt. unfold isUnpaired. destruct (Z.eq_dec (snd q) inf), (Z.eqb_spec (snd q) inf); easy.
  - simpl. destruct (dedup_spec (points D) [] (SSorted_nil _)) as [A B]. apply pt_sorted_NoDup in A.
    pose proof (proj1 (NoDup_count_occ point_dec _) A q) as Hle.
    set (r := fold_left (fun acc p => pset_insert p acc) (points D) []) in *.
    assert (Hq : In q r <-> In q (points D)) by (rewrite B; simpl; tauto).
    rewrite (count_occ_In point_dec r q), (count_occ_In point_dec (points D) q) in Hq. unfold gt in Hq.
    change (count_occ point_dec r q = Nat.min 1 (count_occ point_dec (points D) q)).
    destruct Hq as [Hq1 Hq2]. revert Hle Hq1 Hq2. generalize (count_occ point_dec r q), (count_occ point_dec (points D) q). intros; lia.
  - simpl. apply count_occ_app.
  - unfold d_betti, d_size. simpl. induction (points D) as [|p l IH]; simpl; auto.
    destruct (isUnpaired inf p); simpl; lia.
  - repeat split.
Qed.

(** equality compares the sequences of points only *)
Theorem C24_equality : forall D E, d_eqb D E = true <-> points D = points E.
Proof. intros D E. apply points_eqb_eq. Qed.

Example C24_example :
  let D := Diagram 1 [(1,1); (0,9); (2,3); (0,9); (2,2); (0,4)]%Z in
  points (removeDiagonal D) = [(0,9); (2,3); (0,9); (0,4)]%Z /\
  points (removeUnpaired 9 D) = [(1,1); (2,3); (2,2); (0,4)]%Z /\
  points (removeDuplicates D) = [(0,4); (0,9); (1,1); (2,2); (2,3)]%Z /\
  d_betti 9 D = 2 /\ d_eqb D (removeDuplicates D) = false /\ d_eqb D (Diagram 7 (points D)) = true.
Proof. repeat split. Qed.

(** ** C55: the whole pipeline *)

Lemma pipeline (inf : Z) K (all : bool) : reachable K -> closed (by_index K) -> filtration_order (by_index K) ->
  exists M p p1 ds, makeBoundaryMatrix K 0 = Ok M /\ valid_boundary (cols M) (dims M) /\
    length (cols M) = k_size K /\ dims M = map sdim (by_index K) /\
    is_pairing (cols M) (dims M) true (fun _ => True) p /\
    p1 = (if all then p else filter (fun x => match snd x with
                         | Some _ => true
                         | None => negb (nth (fst x) (dims M) 0 =? list_max (dims M))
                         end) p) /\
    (forall q, In q p1 -> fst q < k_size K) /\
    makePersistenceDiagrams inf p1 K = Ok ds /\
    forall order a dual, (forall l, Permutation (order l) l) ->
      calculatePersistenceDiagrams inf order a K dual all = Ok ds.
Proof.
  intros HR HC HF. pose proof (reachable_kwf K HR) as HK.
  destruct (C09_boundary_matrix K HR HC HF) as (M & E & Hd & HL & _ & HV).
  assert (Hdims : dims M = map sdim (by_index K)).
  { rewrite (matrix_value K 0 HK) in E. injection E as <-. auto. }
  assert (Hid : forall l : list nat, Permutation ((fun l => l) l) l) by (intro; apply Permutation_refl).
  destruct (pairing_correct (fun l => l) AStandard M true None Hid HV Hd) as (p & Ep & Hp).
  destruct (C13_without_top_creators (fun l => l) AStandard M None Hid HV Hd) as (p' & q & Ep' & Eq & Hq).
  rewrite Ep in Ep'. injection Ep' as <-.
  set (p1 := if all then p else filter (fun x => match snd x with
                         | Some _ => true
                         | None => negb (nth (fst x) (dims M) 0 =? list_max (dims M))
                         end) p).
  assert (Hp1 : calculatePersistencePairing (fun l => l) AStandard M all None = Ok p1).
  { unfold p1. destruct all; auto. rewrite Eq, Hq. auto. }
  assert (Hb : forall q, In q p1 -> fst q < k_size K).
  { intros x Hx. assert (In x p) as Hxp by (unfold p1 in Hx; destruct all; auto; apply filter_In in Hx; tauto).
    destruct x as [u [v|]]; apply Hp in Hxp; simpl.
    - rewrite <- HL. destruct Hxp as (Hv & Hm & _).
      destruct (valid_low_facts M HV u v Hv Hm) as [Hlt _]. lia.
    - rewrite <- HL. tauto. }
  destruct (make_diagrams inf K p1 HK Hb) as (ds & Ed & _).
  exists M, p, p1, ds. refine (conj E (conj HV (conj HL (conj Hdims (conj Hp (conj eq_refl (conj Hb (conj Ed _)))))))).
  intros order a dual Ho. unfold calculatePersistenceDiagrams. rewrite E. simpl bind.
  destruct (C15_dual_pairing (fun l => l) order AStandard a M all None Hid Ho HV Hd) as (D & r & ED & E1 & E2).
  rewrite Hp1 in E1. injection E1 as <-. destruct dual.
  - rewrite ED. simpl bind. rewrite E2. exact Ed.
  - simpl bind. destruct (C12_same_pairing (fun l => l) order AStandard a M all None Hid Ho HV Hd) as (r & E1 & E3).
    rewrite Hp1 in E1. injection E1 as <-. rewrite E3. exact Ed.
Qed.

(** the points of dimension [d] *)
Definition points_of (ds : list diagram) (d : nat) : list point :=
  flat_map (fun D => if dgm_dim D =? d then points D else []) ds.

Lemma points_of_none ds d : (forall D, In D ds -> dgm_dim D <> d) -> points_of ds d = [].
Proof.
  unfold points_of. induction ds as [|D ds IH]; intro H; simpl; auto.
  destruct (Nat.eqb_spec (dgm_dim D) d) as [E|_]; [elim (H D); simpl; auto|]. apply IH. intros; apply H; simpl; auto.
Qed.

Lemma points_of_one ds D : StronglySorted lt (map dgm_dim ds) -> In D ds -> points_of ds (dgm_dim D) = points D.
Proof.
  unfold points_of. induction ds as [|E ds IH]; [easy|]. simpl. intros Hs Hin. inversion Hs as [|? ? Hs' Hx]; subst.
  rewrite Forall_forall in Hx. destruct Hin as [->|Hin].
  - rewrite Nat.eqb_refl.
    assert (X : points_of ds (dgm_dim D) = []).
    { apply points_of_none. intros F HF. specialize (Hx _ (in_map dgm_dim _ _ HF)). lia. }
    unfold points_of in X. rewrite X. apply app_nil_r.
  - specialize (Hx _ (in_map dgm_dim _ _ Hin)). destruct (Nat.eqb_spec (dgm_dim E) (dgm_dim D)); [lia|]. simpl. auto.
Qed.

Lemma points_of_pairs inf K p ds d : kwf K -> (forall q, In q p -> fst q < k_size K) ->
  makePersistenceDiagrams inf p K = Ok ds ->
  points_of ds d = map (pair_point inf K) (filter (fun q => dim_at K (fst q) =? d) p).
Proof.
  intros HK Hp E. destruct (tabulates_pairing inf K p HK Hp) as (ds' & E' & Hs & H1 & H2).
  rewrite E in E'. injection E' as <-.
  destruct (existsb (fun D => dgm_dim D =? d) ds) eqn:X.
  - apply existsb_exists in X. destruct X as (D & HD & X). apply Nat.eqb_eq in X. subst d.
    rewrite points_of_one by auto. apply H1; auto.
  - assert (Hnone : forall D, In D ds -> dgm_dim D <> d).
    { intros D HD Hd. rewrite <- not_true_iff_false in X. apply X. apply existsb_exists. exists D. split; auto. apply Nat.eqb_eq; auto. }
    rewrite points_of_none by auto. rewrite (filter_nil _ p); auto.
    intros q Hq. apply Nat.eqb_neq. intro Hd. destruct (H2 q Hq) as (D & HD & HDd). apply (Hnone D HD). congruence.
Qed.

Lemma filter_map_len {A B} (f : A -> B) (g : B -> bool) l :
  length (filter g (map f l)) = length (filter (fun x => g (f x)) l).
Proof. induction l as [|x l IH]; simpl; auto. destruct (g (f x)); simpl; auto. Qed.

Lemma filter_filter {A} (f g : A -> bool) l : filter g (filter f l) = filter (fun x => f x && g x) l.
Proof. induction l as [|x l IH]; simpl; auto. destruct (f x); simpl; rewrite IH; auto. Qed.

(** The diagrams do not depend on whether the matrix is dualized, on the
    reduction algorithm and on the order of iteration of hash containers. *)
Theorem C55_parameters_do_not_matter : forall inf K all, reachable K -> closed (by_index K) -> filtration_order (by_index K) ->
  exists ds, forall order a dual, (forall l, Permutation (order l) l) ->
    calculatePersistenceDiagrams inf order a K dual all = Ok ds.
Proof.
  intros inf K all HR HC HF. destruct (pipeline inf K all HR HC HF) as (M & p & p1 & ds & _ & _ & _ & _ & _ & _ & _ & _ & H).
  eauto.
Qed.

(** number of simplices with data at most [x] *)
Definition sublevel (K : complex) (x : Z) : nat := length (filter (fun s => (data s <=? x)%Z) (by_index K)).

Definition ascending_data (L : list simplex) : Prop :=
  forall i j s t, i < j -> nth_error L i = Some s -> nth_error L j = Some t -> (data s <= data t)%Z.

Lemma sublevel_spec L x : ascending_data L -> forall k s, nth_error L k = Some s ->
  ((data s <= x)%Z <-> k < length (filter (fun s => (data s <=? x)%Z) L)).
Proof.
  induction L as [|t L IH]; intros HA k s Hk; [destruct k; discriminate|].
  assert (HA' : ascending_data L) by (intros i j a b Hij Hi Hj; apply (HA (S i) (S j)); auto; lia).
  simpl. destruct (Z.leb_spec (data t) x) as [Hle|Hgt]; simpl.
  - destruct k as [|k]; simpl in Hk.
    + injection Hk as ->. split; [lia|auto].
    + rewrite (IH HA' k s Hk). lia.
  - assert (Hs : (x < data s)%Z).
    { destruct k as [|k]; simpl in Hk; [injection Hk as ->; auto|].
      assert (data t <= data s)%Z by (apply (HA 0 (S k) t s); auto; lia). lia. }
    assert (E : filter (fun s => (data s <=? x)%Z) L = []).
    { apply filter_nil. intros u Hu. apply Z.leb_gt. apply In_nth_error in Hu. destruct Hu as [j Hj].
      assert (data t <= data u)%Z by (apply (HA 0 (S j) t u); auto; lia). lia. }
    rewrite E. simpl. lia.
Qed.

Lemma sublevel_le K x : sublevel K x <= k_size K.
Proof.
  unfold sublevel, k_size. induction (by_index K) as [|s l IH]; simpl; auto.
  destruct (data s <=? x)%Z; simpl; lia.
Qed.

(** Reading homology off the diagrams: the rank of the map from the [d]-th
    homology of the sublevel set of [x] to that of [y] is the number of points born
    at or before [x] and dying after [y]. *)
Theorem C55_diagrams_give_persistent_ranks : forall inf order a K dual all,
  (forall l, Permutation (order l) l) ->
  reachable K -> closed (by_index K) -> filtration_order (by_index K) -> ascending_data (by_index K) ->
  exists M ds, makeBoundaryMatrix K 0 = Ok M /\
    calculatePersistenceDiagrams inf order a K dual all = Ok ds /\
    forall d x y, (all = true \/ exists s, In s (by_index K) /\ S d < length (verts s)) -> (y < inf)%Z ->
      persistent_betti (cols M) (dims M) (sublevel K x) (sublevel K y) d
        (length (filter (fun q => (fst q <=? x)%Z && (y <? snd q)%Z) (points_of ds d))).
Proof.
  intros inf order a K dual all Ho HR HC HF HA.
  destruct (pipeline inf K all HR HC HF) as (M & p & p1 & ds & E & HV & HL & Hdims & Hp & Hp1 & Hb & Ed & H).
  exists M, ds. refine (conj E (conj (H order a dual Ho) _)). intros d x y Hd Hy.
  assert (Hdim : forall u, u < k_size K -> nth u (dims M) 0 = dim_at K u).
  { intros u Hu. rewrite Hdims. unfold dim_at.
    destruct (nth_error (by_index K) u) as [s|] eqn:Es; [|apply nth_error_None in Es; unfold k_size in Hu; lia].
    rewrite (nth_error_nth _ _ dummy_simplex Es). apply (map_nth_error sdim) in Es. apply (nth_error_nth _ _ 0 Es). }
  assert (Hf : filter (fun q => dim_at K (fst q) =? d) p1 = filter (fun q => dim_at K (fst q) =? d) p).
  { subst p1. destruct all; auto. rewrite filter_filter. apply filter_ext_in. intros [u [v|]] Hq; simpl; auto.
    destruct (Nat.eqb_spec (dim_at K u) d) as [Eu|Eu]; [|apply andb_false_r]. rewrite andb_true_r.
    apply negb_true_iff, Nat.eqb_neq. apply Hp in Hq. rewrite Hdim by (rewrite <- HL; tauto).
    destruct Hd as [Hd|(s & Hs & Hd)]; [discriminate|]. intro Ex.
    assert (sdim s <= list_max (dims M)).
    { assert (Q : Forall (fun k => k <= list_max (dims M)) (dims M)) by (apply list_max_le; auto).
      rewrite Forall_forall in Q. apply Q. rewrite Hdims. apply in_map; auto. }
    unfold sdim in *. lia. }
  rewrite (points_of_pairs inf K p1 ds d (reachable_kwf _ HR) Hb Ed), Hf, filter_map_len, filter_filter.
  pose proof (persistent_betti_pairing _ _ HV p Hp (sublevel K x) (sublevel K y) d) as HB.
  rewrite !HL in HB. specialize (HB (sublevel_le K x) (sublevel_le K y)).
  match goal with |- persistent_betti _ _ _ _ _ (length (filter ?f p)) =>
    replace (filter f p) with (filter (fun q => (fst q <? sublevel K x) && (nth (fst q) (dims M) 0 =? d) && negb (dies (sublevel K y) q)) p); auto end.
  apply filter_ext_in. intros q Hq. unfold dies, pair_point. simpl.
  assert (Hlev : forall k z, k < k_size K -> ((data_at K k <=? z)%Z = (k <? sublevel K z))).
  { intros k z Hk. unfold data_at.
    destruct (nth_error (by_index K) k) as [s|] eqn:Es; [|apply nth_error_None in Es; unfold k_size in Hk; lia].
    rewrite (nth_error_nth _ _ dummy_simplex Es). apply eq_true_iff_eq. rewrite Z.leb_le, Nat.ltb_lt.
    apply (sublevel_spec _ z HA k s Es). }
  assert (Hu : fst q < k_size K).
  { destruct q as [u [v|]]; apply Hp in Hq; simpl; rewrite <- HL; [|tauto].
    destruct Hq as (Hv & Hm & _). destruct (valid_low_facts M HV u v Hv Hm) as [Hlt _]. lia. }
  rewrite (Hdim _ Hu), <- (Hlev _ x Hu).
  destruct q as [u [v|]]; simpl.
  - apply Hp in Hq. destruct Hq as [Hv _]. rewrite HL in Hv. pose proof Hv as Hv'. unfold k_size in Hv'.
    apply Nat.ltb_lt in Hv'. rewrite Hv'. rewrite <- (Hlev v y Hv).
    replace (y <? data_at K v)%Z with (negb (data_at K v <=? y)%Z).
    + destruct (data_at K u <=? x)%Z, (dim_at K u =? d), (data_at K v <=? y)%Z; auto.
    + destruct (Z.leb_spec (data_at K v) y), (Z.ltb_spec y (data_at K v)); auto; lia.
  - apply Z.ltb_lt in Hy. rewrite Hy. destruct (data_at K u <=? x)%Z, (dim_at K u =? d); auto.
Qed.

(** In particular [betti()] is the Betti number. *)
Theorem C55_betti : forall inf order a K dual all,
  (forall l, Permutation (order l) l) ->
  reachable K -> closed (by_index K) -> filtration_order (by_index K) ->
  (forall s, In s (by_index K) -> (data s < inf)%Z) ->
  exists M ds, makeBoundaryMatrix K 0 = Ok M /\
    calculatePersistenceDiagrams inf order a K dual all = Ok ds /\
    forall d, (all = true \/ exists s, In s (by_index K) /\ S d < length (verts s)) ->
      betti (cols M) (dims M) (k_size K) d (d_betti inf (Diagram d (points_of ds d))).
Proof.
  intros inf order a K dual all Ho HR HC HF HI.
  destruct (pipeline inf K all HR HC HF) as (M & p & p1 & ds & E & HV & HL & Hdims & Hp & Hp1 & Hb & Ed & H).
  exists M, ds. refine (conj E (conj (H order a dual Ho) _)). intros d Hd.
  assert (Hdim : forall u, u < k_size K -> nth u (dims M) 0 = dim_at K u).
  { intros u Hu. rewrite Hdims. unfold dim_at.
    destruct (nth_error (by_index K) u) as [s|] eqn:Es; [|apply nth_error_None in Es; unfold k_size in Hu; lia].
    rewrite (nth_error_nth _ _ dummy_simplex Es). apply (map_nth_error sdim) in Es. apply (nth_error_nth _ _ 0 Es). }
  assert (Hf : filter (fun q => dim_at K (fst q) =? d) p1 = filter (fun q => dim_at K (fst q) =? d) p).
  { subst p1. destruct all; auto. rewrite filter_filter. apply filter_ext_in. intros [u [v|]] Hq; simpl; auto.
    destruct (Nat.eqb_spec (dim_at K u) d) as [Eu|Eu]; [|apply andb_false_r]. rewrite andb_true_r.
    apply negb_true_iff, Nat.eqb_neq. apply Hp in Hq. rewrite Hdim by (rewrite <- HL; tauto).
    destruct Hd as [Hd|(s & Hs & Hd)]; [discriminate|]. intro Ex.
    assert (sdim s <= list_max (dims M)).
    { assert (Q : Forall (fun k => k <= list_max (dims M)) (dims M)) by (apply list_max_le; auto).
      rewrite Forall_forall in Q. apply Q. rewrite Hdims. apply in_map; auto. }
    unfold sdim in *. lia. }
  unfold d_betti. cbn [points]. rewrite (points_of_pairs inf K p1 ds d (reachable_kwf _ HR) Hb Ed), Hf, filter_map_len, filter_filter.
  pose proof (betti_pairing _ _ HV p Hp (length (cols M)) d (le_n _)) as HB. rewrite HL in HB.
  match goal with |- betti _ _ _ _ (length (filter ?f p)) =>
    replace (filter f p) with (filter (fun q => (fst q <? k_size K) && (nth (fst q) (dims M) 0 =? d) && negb (dies (k_size K) q)) p); auto end.
  apply filter_ext_in. intros q Hq. unfold dies, pair_point, isUnpaired. simpl.
  assert (Hu : fst q < k_size K).
  { destruct q as [u [v|]]; apply Hp in Hq; simpl; rewrite <- HL; [|tauto].
    destruct Hq as (Hv & Hm & _). destruct (valid_low_facts M HV u v Hv Hm) as [Hlt _]. lia. }
  rewrite (Hdim _ Hu). pose proof Hu as Hu'. apply Nat.ltb_lt in Hu'. rewrite Hu'. simpl.
  destruct q as [u [v|]]; simpl.
  - apply Hp in Hq. destruct Hq as [Hv _]. rewrite HL in Hv. pose proof Hv as Hv'. apply Nat.ltb_lt in Hv'.
    rewrite Hv'. unfold k_size in Hv'. rewrite Hv'.
    assert (data_at K v < inf)%Z by (apply HI; apply nth_In; exact Hv).
    destruct (Z.eqb_spec (data_at K v) inf); [lia|]. simpl. auto.
  - rewrite Z.eqb_refl. auto.
Qed.

(** The boundary of a triangle with increasing weights, filled in at the end. *)
Definition weighted_triangle : complex :=
  mk [PushBack [0] 1; PushBack [1] 2; PushBack [2] 3; PushBack [0;1] 4; PushBack [1;2] 5; PushBack [0;2] 6; PushBack [0;1;2] 8].

Example C55_example :
  reachable weighted_triangle /\ ascending_data (by_index weighted_triangle) /\
  calculatePersistenceDiagrams 99 (fun l => l) ATwist weighted_triangle true true
  = Ok [Diagram 0 [(1,99); (2,4); (3,5)]; Diagram 1 [(6,8)]]%Z /\
  calculatePersistenceDiagrams 99 (@rev nat) AStandard weighted_triangle false false
  = Ok [Diagram 0 [(1,99); (2,4); (3,5)]; Diagram 1 [(6,8)]]%Z.
Proof.
  split; [apply mk_reachable|]. split; [|split; reflexivity].
  intros i j s t Hij Hi Hj.
  do 7 (destruct i as [|i]; [injection Hi as <-; do 7 (destruct j as [|j]; [try lia; injection Hj as <-; simpl; lia|]); destruct j; discriminate|]).
  destruct i; discriminate.
Qed.

Print Assumptions C19_tabulates_pairing.
Print Assumptions C19_invalid_creator.
Print Assumptions C24_operations.
Print Assumptions C24_equality.
Print Assumptions C55_parameters_do_not_matter.
Print Assumptions C55_diagrams_give_persistent_ranks.
Print Assumptions C55_betti.
