(** * Properties C22 and C23: connected components and zero-dimensional persistence. *)
From Coq Require Import List Arith Bool ZArith Lia Permutation Sorted Relations.
From Verif Require Import Base BaseFacts Matrix SpecMatrix PairingFacts RepFacts PropertiesMatrix
  Simplex SimplexFacts SpecComplex Complex ComplexFacts ClosureFacts FiltrationFacts History SubcomplexFacts PropertiesComplex
  UnionFind SpecUnionFind UnionFindFacts PropertiesUnionFind
  SpecDiagram SpecComponents Diagram DiagramFacts Components ComponentFacts.
Import ListNotations.

(** ** C22 *)
Definition edge_op (s : simplex) : uf_op := UMerge (nth 0 (verts s) 0) (nth 1 (verts s) 0).

Lemma component_run l m : (forall s, In s l -> wf s /\ length (verts s) = 2) ->
  foldM component_step l m = foldM uf_exec (map edge_op l) m.
Proof.
  revert m. induction l as [|s l IH]; intros m H; simpl; auto.
  destruct (H s) as [Hw Hn]; [simpl; auto|].
  assert (E : component_step m s = uf_exec m (edge_op s)).
  { unfold component_step, edge_op, s_nth, at_, uf_exec, wf in *. destruct (verts s) as [|u [|v [|w t]]]; try discriminate.
    simpl. inversion Hw as [|? ? _ Ha]; subst. inversion Ha as [|? ? Huv]; subst.
    destruct (Nat.ltb_spec u v); auto. lia. }
  change (uf_merge m (nth 0 (verts s) 0) (nth 1 (verts s) 0)) with (uf_exec m (edge_op s)).
  rewrite E. destruct (uf_exec m (edge_op s)); simpl; auto. apply IH. intros; apply H; simpl; auto.
Qed.

Lemma merged_pairs_edges l : merged_pairs (map edge_op l) = map (fun s => (nth 0 (verts s) 0, nth 1 (verts s) 0)) l.
Proof. induction l; simpl; auto. f_equal; auto. Qed.

Lemma edge_list K u v : kwf K ->
  (In (u, v) (map (fun s => (nth 0 (verts s) 0, nth 1 (verts s) 0)) (k_range K 1)) <->
   exists s, In s (by_index K) /\ verts s = [u; v]).
Proof.
  intro HK. rewrite in_map_iff. split.
  - intros (s & [= <- <-] & Hs). apply range_In in Hs; auto. destruct Hs as [Hs Hn]. exists s. split; auto.
    destruct (verts s) as [|a [|b [|c t]]]; try discriminate. auto.
  - intros (s & Hs & Es). exists s. rewrite Es. split; auto. apply range_In; auto. rewrite Es. auto.
Qed.

Lemma joined_connected K u v : kwf K ->
  (joined K u v <-> connected (map (fun s => (nth 0 (verts s) 0, nth 1 (verts s) 0)) (k_range K 1)) u v).
Proof.
  intro HK. split; intro H.
  - induction H as [a b (s & Hs & Es)| |a b _ IH|a b c _ IH1 _ IH2]; [|apply rst_refl|apply rst_sym; auto|eapply rst_trans; eauto].
    destruct (Nat.eq_dec a b) as [->|Hab]; [apply rst_refl|].
    destruct (kwf_good K HK s Hs) as [Hw _]. apply SSgt_NoDup in Hw.
    assert (Hl : length (verts s) = 2).
    { assert (incl (verts s) [a; b]) by (intros x Hx; apply Es; auto).
      assert (incl [a; b] (verts s)) by (intros x Hx; apply Es; auto).
      assert (NoDup [a; b]) by (constructor; [simpl; intuition|constructor; [easy|constructor]]).
      apply Nat.le_antisymm; [change 2 with (length [a; b])|change 2 with (length [a; b])]; apply NoDup_incl_length; auto. }
    destruct (verts s) as [|x [|y [|z t]]] eqn:E; try discriminate.
    assert (Hx : x = a \/ x = b) by (assert (In x [a; b]) by (apply Es; simpl; auto); simpl in *; intuition).
    assert (Hy : y = a \/ y = b) by (assert (In y [a; b]) by (apply Es; simpl; auto); simpl in *; intuition).
    assert (Hxy : x <> y) by (intros ->; inversion Hw as [|? ? H1]; subst; apply H1; simpl; auto).
    destruct Hx as [->| ->], Hy as [->| ->]; try easy.
    + apply rst_step, edge_list; eauto.
    + apply rst_sym, rst_step, edge_list; eauto.
  - induction H as [a b H| |a b _ IH|a b c _ IH1 _ IH2]; [|apply rst_refl|apply rst_sym; auto|eapply rst_trans; eauto].
    apply edge_list in H; auto. destruct H as (s & Hs & Es). apply rst_step. exists s. rewrite Es. split; auto. intro; tauto.
Qed.

(** The classes are the path components of the 1-skeleton. *)
Theorem C22_components : forall K, reachable K -> closed (by_index K) ->
  exists m rep, calculateConnectedComponents K = Ok m /\
    let vertex v := has (by_index K) [v] in
    (forall u v, vertex u -> vertex v -> (rep u = rep v <-> joined K u v)) /\
    (forall u, vertex u -> vertex (rep u) /\ exists m', uf_find m u = Ok (m', rep u)) /\
    (forall u, uf_contains m u = true <-> vertex u) /\
    (forall order, (forall l, Permutation (order l) l) ->
       exists m' l, uf_roots order m = Ok (m', l) /\ NoDup l /\
         (forall u, In u l -> vertex u) /\
         forall v, vertex v -> exists u, In u l /\ joined K u v /\ forall u', In u' l -> joined K u' v -> u' = u) /\
    (forall order v, (forall l, Permutation (order l) l) -> vertex v ->
       exists m' l, uf_get order m v = Ok (m', l) /\ NoDup l /\ forall u, In u l <-> vertex u /\ joined K u v).
Proof.
  intros K HR HC. pose proof (reachable_kwf K HR) as HK.
  set (V := k_vertices K). set (h := map edge_op (k_range K 1)).
  assert (HV : forall v, In v V <-> has (by_index K) [v]).
  { intro v. unfold V. rewrite (proj2 (vertices_spec K HK)). split.
    - intros (s & Hs & Es). exists s. rewrite Es. split; auto. intro; tauto.
    - intros (s & Hs & Es). exists s. split; auto. destruct (kwf_good K HK s Hs) as [Hw Hn].
      apply SSgt_NoDup in Hw. assert (X : forall x, In x (verts s) -> x = v) by (intros x Hx; apply Es in Hx; simpl in Hx; intuition).
      destruct (verts s) as [|x [|y l]]; [easy| |].
      + f_equal. apply X; simpl; auto.
      + exfalso. inversion Hw as [|? ? H1]; subst. apply H1. rewrite (X x), (X y); simpl; auto. }
  assert (Hh : forall o v, In o h -> In v (mentions o) -> In v V).
  { intros o v Ho Hv. apply in_map_iff in Ho. destruct Ho as (s & <- & Hs). apply range_In in Hs; auto.
    destruct Hs as [Hs Hn]. apply HV. apply (HC s [v] Hs); [discriminate|]. intros x [<-|[]]. simpl in Hv.
    destruct (verts s) as [|a [|b [|c t]]]; try discriminate. simpl in *. intuition. }
  destruct (C21_classes V h Hh) as (m & rep & Em & H1 & H2 & H3 & _ & H4 & H5 & H6).
  assert (Hj : forall u v, connected (merged_pairs h) u v <-> joined K u v).
  { intros u v. unfold h. rewrite merged_pairs_edges. symmetry. apply joined_connected; auto. }
  exists m, rep. split.
  { unfold calculateConnectedComponents. rewrite component_run; [exact Em|].
    intros s Hs. apply range_In in Hs; auto. destruct Hs as [Hs Hn]. split; auto. apply (kwf_good K HK s Hs). }
  cbv zeta. refine (conj _ (conj _ (conj _ (conj _ _)))).
  - intros u v Hu Hv. rewrite <- Hj. apply H1; apply HV; auto.
  - intros u Hu. apply HV in Hu. split; [apply HV; apply H2; auto|auto].
  - intro u. rewrite H4. apply HV.
  - intros order Ho. destruct (H5 order Ho) as (m' & l & E & Hn & Hl). exists m', l. refine (conj E (conj Hn (conj _ _))).
    + intros u Hu. apply Hl in Hu. apply HV; tauto.
    + intros v Hv. apply HV in Hv. destruct (H2 v Hv) as [Hr1 Hr2]. exists (rep v). split; [apply Hl; auto|].
      split; [rewrite <- Hj; apply H1; auto|]. intros u' Hu' Hjj. apply Hl in Hu'. destruct Hu' as [Hu'V Eu].
      rewrite <- Hj in Hjj. apply H1 in Hjj; auto. congruence.
  - intros order v Ho Hv. apply HV in Hv. destruct (H6 order v Ho Hv) as (m' & l & E & Hn & Hl). exists m', l.
    refine (conj E (conj Hn _)). intro u. rewrite Hl, Hj, HV. tauto.
Qed.

(** Finding: an edge with a vertex that is not stored ends the program, because
    [UnionFind::merge] is [noexcept]. *)
Theorem C22_not_closed_refuted :
  exists K, reachable K /\ calculateConnectedComponents K = Throw Terminated.
Proof. exists (mk [PushBack [0] 0; PushBack [0;1] 0]). split; [apply mk_reachable|reflexivity]. Qed.

Definition two_parts : complex :=
  mk [PushBack [0] 0; PushBack [1] 0; PushBack [2] 1; PushBack [3] 0; PushBack [4] 2; PushBack [4;0] 3; PushBack [1;2] 4;
      PushBack [0;3] 5; PushBack [3;4] 6].

Example C22_example :
  reachable two_parts /\
  (let* m := calculateConnectedComponents two_parts in
   let* (_, r) := uf_roots (fun l => l) m in
   let* (_, g) := uf_get (fun l => l) m 4 in Ok (r, g)) = Ok ([0;1], [0;3;4]).
Proof. split; [apply mk_reachable|reflexivity]. Qed.

(** ** C23 *)

(** Pairs and points are those of the boundary matrix whose creator has
    dimension zero; the default traits leave out pairs whose simplices have
    the same data. *)
Theorem C23_agrees_with_matrix : forall inf keep order order' a K,
  (forall l, Permutation (order l) l) -> (forall l, Permutation (order' l) l) ->
  reachable K -> closed (by_index K) -> filtration_order (by_index K) ->
  exists M p pp, makeBoundaryMatrix K 0 = Ok M /\
    calculatePersistencePairing order' a M true None = Ok p /\
    zeroDimensional inf keep order K = Ok (map (pair_point inf K) pp, pp) /\
    Permutation pp
      (filter (fun q => (dim_at K (fst q) =? 0) &&
                        match snd q with
                        | Some k => keep || negb (data_at K (fst q) =? data_at K k)%Z
                        | None => true
                        end) p).
Proof.
  intros inf keep order order' a K Ho Ho' HR HC HF. pose proof (reachable_kwf K HR) as HK.
  destruct (C09_boundary_matrix K HR HC HF) as (M & E & Hd & HL & Hcol & HV).
  assert (Hdims : dims M = map sdim (by_index K)).
  { rewrite (matrix_value K 0 HK) in E. injection E as <-. auto. }
  destruct (pairing_correct order' a M true None Ho' HV Hd) as (p & Ep & Hp).
  destruct (zero_correct K M HR HC HV HL Hdims) with (inf := inf) (keep := keep) (order := order) (p := p) as (pp & Epp & HP & _); auto.
  { intros j s Hs. destruct (Hcol j s Hs) as (_ & c & Ec & _ & _ & Hc). exists c. auto. }
  exists M, p, pp. refine (conj E (conj Ep (conj Epp _))). eapply Permutation_trans; [exact HP|].
  match goal with |- Permutation (filter ?f p) (filter ?g p) => assert (X : filter f p = filter g p) end;
    [|rewrite X; apply Permutation_refl].
  apply filter_ext_in. intros q Hq. unfold kept. f_equal. f_equal.
  assert (Hu : fst q < k_size K).
  { destruct q as [u [v|]]; apply Hp in Hq; simpl; rewrite <- HL; [|tauto].
    destruct Hq as (Hv & Hm & _). destruct (valid_low_facts M HV u v Hv Hm) as [Hlt _]. lia. }
  rewrite Hdims. unfold dim_at.
  destruct (nth_error (by_index K) (fst q)) as [s|] eqn:Es; [|apply nth_error_None in Es; unfold k_size in Hu; lia].
  rewrite (nth_error_nth _ _ dummy_simplex Es). apply (map_nth_error sdim) in Es. apply (nth_error_nth _ _ 0 Es).
Qed.

(** Unpaired points: one per connected component, for its first vertex. *)
Theorem C23_components : forall inf keep order K,
  (forall l, Permutation (order l) l) ->
  reachable K -> closed (by_index K) -> filtration_order (by_index K) ->
  exists pd pp, zeroDimensional inf keep order K = Ok (pd, pp) /\ NoDup pp /\
    forall j w, nth_error (map verts (by_index K)) j = Some [w] ->
      exists i u, In (i, None) pp /\ nth_error (map verts (by_index K)) i = Some [u] /\ joined K u w /\ i <= j /\
        forall i' u', In (i', None) pp -> nth_error (map verts (by_index K)) i' = Some [u'] -> joined K u' w -> i' = i.
Proof.
  intros inf keep order K Ho HR HC HF. pose proof (reachable_kwf K HR) as HK.
  destruct (C09_boundary_matrix K HR HC HF) as (M & E & Hd & HL & Hcol & HV).
  assert (Hdims : dims M = map sdim (by_index K)).
  { rewrite (matrix_value K 0 HK) in E. injection E as <-. auto. }
  destruct (pairing_correct order ATwist M true None Ho HV Hd) as (p & Ep & Hp).
  destruct (zero_correct K M HR HC HV HL Hdims) with (inf := inf) (keep := keep) (order := order) (p := p) as (pp & Epp & HP & rep & HA & HB); auto.
  { intros j s Hs. destruct (Hcol j s Hs) as (_ & c & Ec & _ & _ & Hc). exists c. auto. }
  exists (map (pair_point inf K) pp), pp. split; auto. split.
  { eapply Permutation_NoDup; [apply Permutation_sym, HP|]. apply NoDup_filter, pairs_sorted_NoDup. apply Hp. }
  assert (G : forall j w, nth_error (map verts (by_index K)) j = Some [w] -> In w (k_vertices K) /\ idx K w = j).
  { intros j w H. rewrite nth_error_map in H. destruct (nth_error (by_index K) j) as [s|] eqn:Es; [|discriminate].
    injection H as H. apply (idx_of K HR j s w Es H). }
  assert (G' : forall w, In w (k_vertices K) -> nth_error (map verts (by_index K)) (idx K w) = Some [w]).
  { intros w Hw. destruct (idx_spec K HR w Hw) as (s & Hs & Es & _). rewrite nth_error_map, Hs. simpl. congruence. }
  intros j w Hj. destruct (G j w Hj) as [Hw <-]. destruct (HA w Hw) as (Hr & Hjr & Hmin & _).
  exists (idx K (rep w)), (rep w). refine (conj _ (conj (G' _ Hr) (conj _ (conj Hmin _)))).
  - apply (HA (rep w) Hr). symmetry. apply HB; auto.
  - apply rst_sym; auto.
  - intros i' u' Hi' Hn Hj'. destruct (G i' u' Hn) as [Hu' <-]. f_equal. apply HB in Hj'. rewrite <- Hj'.
    symmetry. apply (HA u' Hu'); auto.
Qed.

Example C23_example :
  zeroDimensional 99 true (fun l => l) two_parts
  = Ok ([(2,3); (1,4); (0,5); (0,99); (0,99)]%Z, [(4, Some 5); (2, Some 6); (3, Some 7); (0, None); (1, None)]) /\
  zeroDimensional 99 false (fun l => l) (mk [PushBack [0] 1; PushBack [1] 1; PushBack [0;1] 1; PushBack [2] 2; PushBack [1;2] 3])
  = Ok ([(2,3); (1,99)]%Z, [(3, Some 4); (0, None)]).
Proof. split; reflexivity. Qed.

(** the example satisfies the hypotheses *)
Fixpoint filtration_checkb (L : list simplex) : bool :=
  match L with
  | [] => true
  | s :: t => forallb (fun u => negb (supersetb s (verts u) && negb (supersetb u (verts s)))) t && filtration_checkb t
  end.

Lemma filtration_check L : filtration_checkb L = true -> filtration_order L.
Proof.
  induction L as [|a L IH]; intros H i j s t Hi Hj Hp; [destruct i; discriminate|].
  simpl in H. apply andb_true_iff in H. destruct H as [H1 H2]. rewrite forallb_forall in H1.
  destruct i as [|i], j as [|j]; simpl in *.
  - injection Hi as ->. injection Hj as ->. destruct Hp as [A B]. easy.
  - injection Hi as ->. apply nth_error_In in Hj. specialize (H1 t Hj). destruct Hp as [A B].
    apply supersetb_spec in A. rewrite A in H1. simpl in H1. rewrite negb_involutive in H1. apply supersetb_spec in H1. easy.
  - lia.
  - specialize (IH H2 i j s t Hi Hj Hp). lia.
Qed.

Example C23_hypotheses :
  reachable two_parts /\ closed (by_index two_parts) /\ filtration_order (by_index two_parts).
Proof.
  split; [apply mk_reachable|]. split; [apply closed_check; [apply mk_reachable|vm_compute; reflexivity]|].
  apply filtration_check. vm_compute. reflexivity.
Qed.

Print Assumptions C22_components.
Print Assumptions C22_not_closed_refuted.
Print Assumptions C23_agrees_with_matrix.
Print Assumptions C23_components.
