(** * Properties C16 and C17: what the pairing says about homology. *)

From Coq Require Import List Arith Bool ZArith Lia Permutation Sorted.
From Verif Require Import Base BaseFacts Matrix SpecMatrix ReductionFacts AlgorithmFacts PairingFacts
  DualFacts RepFacts PropertiesMatrix SpecHomology HomologyFacts
  Simplex SpecComplex Complex ComplexFacts FiltrationFacts History PropertiesComplex.
Import ListNotations.

(** The specification determines the numbers. *)
Theorem C17_rank_unique : forall C dims i j d n m,
  persistent_betti C dims i j d n -> persistent_betti C dims i j d m -> n = m.
Proof.
  intros C dims i j d n m (z & b & Hz & Hb & E) (z' & b' & Hz' & Hb' & E').
  pose proof (has_dim_unique _ _ _ Hz Hz'). pose proof (has_dim_unique _ _ _ Hb Hb'). lia.
Qed.

Theorem C16_betti_unique : forall C dims i d n m,
  betti C dims i d n -> betti C dims i d m -> n = m.
Proof.
  intros C dims i d n m (z & b & Hz & Hb & E) (z' & b' & Hz' & Hb' & E').
  pose proof (has_dim_unique _ _ _ Hz Hz'). pose proof (has_dim_unique _ _ _ Hb Hb'). lia.
Qed.

(** The rank of the map in homology induced by the inclusion of the first [i]
    into the first [j] simplices is the number of pairs created before [i] and
    not destroyed before [j]. *)
Theorem C17_persistent_ranks : forall order a M,
  (forall l, Permutation (order l) l) ->
  valid_boundary (cols M) (dims M) -> dualized M = false ->
  exists p, calculatePersistencePairing order a M true None = Ok p /\
    forall i j d, i <= length (cols M) -> j <= length (cols M) ->
      persistent_betti (cols M) (dims M) i j d
        (length (filter (fun q => ((fst q <? i) && (nth (fst q) (dims M) 0 =? d)) &&
                                  negb (match snd q with Some v => v <? j | None => false end)) p)).
Proof.
  intros order a M Ho HV Hd. destruct (pairing_correct order a M true None Ho HV Hd) as (p & E & Hp).
  exists p. split; auto. intros i j d Hi Hj. apply (persistent_betti_pairing _ _ HV p Hp i j d Hi Hj).
Qed.

(** Unpaired creators count independent homology classes. *)
Theorem C16_betti_numbers : forall order a M,
  (forall l, Permutation (order l) l) ->
  valid_boundary (cols M) (dims M) -> dualized M = false ->
  exists p, calculatePersistencePairing order a M true None = Ok p /\
    forall d, betti (cols M) (dims M) (length (cols M)) d
      (length (filter (fun q => match snd q with Some _ => false | None => nth (fst q) (dims M) 0 =? d end) p)).
Proof.
  intros order a M Ho HV Hd. destruct (pairing_correct order a M true None Ho HV Hd) as (p & E & Hp).
  exists p. split; auto. intro d.
  assert (X : filter (fun q => match snd q with Some _ => false | None => nth (fst q) (dims M) 0 =? d end) p
            = filter (fun q => ((fst q <? length (cols M)) && (nth (fst q) (dims M) 0 =? d)) && negb (dies (length (cols M)) q)) p).
  { apply filter_ext_in. intros [u [v|]] Hq; unfold dies; simpl.
    - apply Hp in Hq. destruct Hq as [Hv _]. apply Nat.ltb_lt in Hv. rewrite Hv. simpl. rewrite andb_false_r. auto.
    - apply Hp in Hq. destruct Hq as [Hu _]. apply Nat.ltb_lt in Hu. rewrite Hu. simpl. rewrite andb_true_r. auto. }
  rewrite X. apply (betti_pairing _ _ HV p Hp). auto.
Qed.

(** Both for simplicial complexes: every closed complex that has been put into
    filtration order. *)
Theorem C17_complex : forall order a K,
  (forall l, Permutation (order l) l) ->
  reachable K -> closed (by_index K) -> filtration_order (by_index K) ->
  exists M p, makeBoundaryMatrix K 0 = Ok M /\
    calculatePersistencePairing order a M true None = Ok p /\
    (forall i j d, i <= k_size K -> j <= k_size K ->
      persistent_betti (cols M) (dims M) i j d
        (length (filter (fun q => ((fst q <? i) && (nth (fst q) (dims M) 0 =? d)) &&
                                  negb (match snd q with Some v => v <? j | None => false end)) p))) /\
    (forall d, betti (cols M) (dims M) (k_size K) d
      (length (filter (fun q => match snd q with Some _ => false | None => nth (fst q) (dims M) 0 =? d end) p))).
Proof.
  intros order a K Ho HR HC HF.
  destruct (C09_boundary_matrix K HR HC HF) as (M & E & Hd & HL & _ & HV).
  destruct (C17_persistent_ranks order a M Ho HV Hd) as (p & Ep & H).
  destruct (C16_betti_numbers order a M Ho HV Hd) as (p' & Ep' & H').
  rewrite Ep in Ep'. injection Ep' as <-.
  exists M, p. rewrite <- HL. auto.
Qed.

(** A hollow triangle with a filled one glued along an edge. *)
Definition two_triangles : matrix :=
  Matrix [[];[];[];[];[0;1];[0;2];[1;2];[1;3];[2;3];[4;5;6]] [0;0;0;0;1;1;1;1;1;2] false.

Lemma two_triangles_valid : valid_boundary (cols two_triangles) (dims two_triangles).
Proof.
  refine (conj eq_refl (conj _ (conj _ _))).
  - intros c Hc. repeat (destruct Hc as [<-|Hc]; [repeat constructor; lia|]). destruct Hc.
  - intros j r H. do 10 (destruct j as [|j]; [simpl in H; do 7 (destruct r as [|r]; [try discriminate H; simpl; lia|]); discriminate H|]).
    unfold entry in H. rewrite nth_overflow in H by (simpl; lia). discriminate.
  - intros j r. do 10 (destruct j as [|j]; [simpl; do 10 (destruct r as [|r]; [reflexivity|]); reflexivity|]).
    rewrite nth_overflow by (simpl; lia). reflexivity.
Qed.

Example C16_example :
  calculatePersistencePairing (fun l => l) ATwist two_triangles true None
  = Ok [(0, None); (1, Some 4); (2, Some 5); (3, Some 7); (6, Some 9); (8, None)] /\
  betti (cols two_triangles) (dims two_triangles) 10 0 1 /\
  betti (cols two_triangles) (dims two_triangles) 10 1 1 /\
  betti (cols two_triangles) (dims two_triangles) 10 2 0 /\
  (* the loop that is filled by the triangle is alive between 6 and 9 *)
  persistent_betti (cols two_triangles) (dims two_triangles) 7 9 1 1 /\
  persistent_betti (cols two_triangles) (dims two_triangles) 7 10 1 0.
Proof.
  split; [reflexivity|].
  destruct (C16_betti_numbers (fun l => l) ATwist two_triangles (fun l => Permutation_refl l) two_triangles_valid eq_refl)
    as (p & E & H).
  destruct (C17_persistent_ranks (fun l => l) ATwist two_triangles (fun l => Permutation_refl l) two_triangles_valid eq_refl)
    as (q & E' & H').
  vm_compute in E. injection E as <-. vm_compute in E'. injection E' as <-.
  refine (conj (H 0) (conj (H 1) (conj (H 2) (conj (H' 7 9 1 _ _) (H' 7 10 1 _ _))))); simpl; lia.
Qed.

Print Assumptions C16_betti_unique.
Print Assumptions C16_betti_numbers.
Print Assumptions C17_rank_unique.
Print Assumptions C17_persistent_ranks.
Print Assumptions C17_complex.
