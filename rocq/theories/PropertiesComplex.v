(** * C03-C09, C42, C44, C47, C51, C52: simplicial complexes.

    The theorems quantify over all complexes [reachable] by public operations
    from the empty one (History.v). *)

From Coq Require Import List Arith Lia Bool Permutation Sorted ZArith.
From Verif Require Import Base BaseFacts Simplex SimplexFacts SpecMatrix Matrix DualFacts RepFacts
  SpecComplex Complex ComplexFacts ClosureFacts WeightFacts FiltrationFacts History Subcomplex
  SubcomplexFacts PropertiesMatrix.
Import ListNotations.

Definition mk (h : list kop) : complex := k_run (-1000) 1000 h.
Lemma mk_reachable h : reachable (mk h).
Proof. exists (-1000)%Z, 1000%Z, h. reflexivity. Qed.

(** a full triangle *)
Definition full_triangle : complex := mk [PushBack [0;1;2] 3; PushBack [2] 1; CreateMissingFaces; Sort data_cmp].

(** decision procedures for the examples *)
Lemma closed_check K : reachable K -> forallb (checkValidity K) (by_index K) = true -> closed (by_index K).
Proof.
  intros HR H. apply closedB_closed; [apply reachable_kwf; auto|]. intros s f Hs Hf.
  rewrite forallb_forall in H. apply (proj1 (checkValidity_true K s)); auto.
Qed.

Lemma monotone_check L :
  forallb (fun s => forallb (fun t => negb (supersetb s (verts t)) || (data t <=? data s)%Z) L) L = true -> monotone L.
Proof.
  intros H s t Hs Ht Hsub. rewrite forallb_forall in H. specialize (H s Hs). rewrite forallb_forall in H.
  specialize (H t Ht). apply supersetb_spec in Hsub. rewrite Hsub in H. simpl in H. apply Z.leb_le; auto.
Qed.

(** ** C03 *)
Theorem C03_views_consistent : forall K, reachable K ->
  (* stored simplices are canonical and not empty, no vertex set occurs twice *)
  proper_simplices (by_index K) /\
  (* element access *)
  (forall i, (exists s, k_at K i = Ok s) <-> i < k_size K) /\
  (forall s, In s (by_index K) <-> exists i, k_at K i = Ok s) /\
  (* contains, find and index agree *)
  (forall l d, k_contains K (simplex_of l d) = true <-> exists i s, k_at K i = Ok s /\ set_eq (verts s) l) /\
  (forall l d i, k_find K (simplex_of l d) = Some i <-> exists s, k_at K i = Ok s /\ set_eq (verts s) l) /\
  (forall s i, k_index K s = Ok i <-> k_find K s = Some i) /\
  (forall s, k_index K s = Throw RuntimeError <-> k_contains K s = false) /\
  (* queries by dimension *)
  (forall d, Permutation (k_range K d) (filter (fun s => length (verts s) =? S d) (by_index K))) /\
  (k_size K = 0 -> k_dimension K = Throw RuntimeError) /\
  (k_size K <> 0 -> exists d, k_dimension K = Ok d /\
     (exists s, In s (by_index K) /\ length (verts s) = S d) /\
     (forall s, In s (by_index K) -> length (verts s) <= S d)).
Proof.
  intros K HR. pose proof (reachable_kwf K HR) as HK.
  assert (Hset : forall l d t, In t (by_index K) -> (verts t = verts (simplex_of l d) <-> set_eq (verts t) l)).
  { intros l d t Ht. split.
    - intros E v. rewrite E. apply simplex_of_In.
    - intro E. apply wf_ext; [apply (kwf_good K HK); auto|apply simplex_of_wf|].
      intro v. rewrite simplex_of_In. apply E. }
  assert (Hfind : forall l d i, k_find K (simplex_of l d) = Some i <->
            exists s, k_at K i = Ok s /\ set_eq (verts s) l).
  { intros l d i. rewrite find_pos_spec by auto. split; intros (s & H1 & H2); exists s.
    - split; [apply (proj2 (BaseFacts.at_ok _ _ _)); auto|]. apply (Hset l d); auto. eapply nth_error_In; eauto.
    - apply (proj1 (BaseFacts.at_ok _ _ _)) in H1. split; auto. apply (Hset l d); auto. eapply nth_error_In; eauto. }
  refine (conj (conj _ _) (conj _ (conj _ (conj _ (conj Hfind (conj _ (conj _ (conj _ (conj _ _))))))))).
  - intros s Hs. destruct (kwf_good K HK s Hs) as [Hw Hn]. exists (verts s), (data s). split; auto.
    apply wf_simplex_of; auto.
  - intros i j s t Hs Ht Hne E. apply Hne. apply (nth_error_verts_inj K i j s t); auto.
    apply set_eq_wf; auto; apply (kwf_good K HK); eapply nth_error_In; eauto.
  - intro i. split.
    + intros (s & H). apply (proj1 (BaseFacts.at_ok _ _ _)) in H. eapply nth_error_lt; eauto.
    + intro H. destruct (nth_error_ex _ _ H) as (s & E). exists s. apply (proj2 (BaseFacts.at_ok _ _ _)); auto.
  - intro s. split.
    + intro H. apply In_nth_error in H. destruct H as (i & H). exists i. apply (proj2 (BaseFacts.at_ok _ _ _)); auto.
    + intros (i & H). apply (proj1 (BaseFacts.at_ok _ _ _)) in H. eapply nth_error_In; eauto.
  - intros l d. split.
    + intro H. destruct (k_find K (simplex_of l d)) as [i|] eqn:E.
      * apply Hfind in E. eauto.
      * apply find_pos_none in E. congruence.
    + intros (i & s & H1 & H2). destruct (k_contains K (simplex_of l d)) eqn:E; auto.
      apply find_pos_none in E. assert (k_find K (simplex_of l d) = Some i) by (apply Hfind; eauto). congruence.
  - intros s i. unfold k_index. destruct (k_find K s); split; congruence.
  - intro s. unfold k_index. rewrite <- find_pos_none. destruct (k_find K s); split; congruence.
  - intro d. rewrite range_filter by auto.
    eapply Permutation_trans; [apply filter_perm, Permutation_sym, (kwf_perm K HK)|].
    erewrite filter_ext_in; [apply Permutation_refl|]. intros s Hs. simpl.
    destruct (kwf_good K HK s Hs) as [_ Hn]. unfold sdim. destruct (verts s); [easy|]. simpl.
    rewrite Nat.sub_0_r. auto.
  - intro H. apply dimension_spec; auto. destruct (by_index K) eqn:E; auto. unfold k_size in H. rewrite E in H. discriminate.
  - intro H. apply dimension_spec; auto. intro E. apply H. unfold k_size. rewrite E. auto.
Qed.

(** What single operations do to the sequence of simplices, and that rejected
    ones change nothing. *)
Theorem C03_push_back : forall K l d, reachable K ->
  (l = [] -> k_push_back K (simplex_of l d) = (K, Throw RuntimeError)) /\
  (l <> [] -> has (by_index K) l -> k_push_back K (simplex_of l d) = (K, Ok tt)) /\
  (l <> [] -> ~ has (by_index K) l ->
     snd (k_push_back K (simplex_of l d)) = Ok tt /\
     by_index (fst (k_push_back K (simplex_of l d))) = by_index K ++ [simplex_of l d]).
Proof.
  intros K l d HR. pose proof (reachable_kwf K HR) as HK. refine (conj _ (conj _ _)).
  - intros ->. unfold k_push_back. destruct (k_contains K (simplex_of [] d)) eqn:E; auto.
    apply contains_In, in_map_iff in E. destruct E as (s & E & Hs).
    destruct (kwf_good K HK s Hs) as [_ Hn]. easy.
  - intros Hl Hh. apply push_back_dup. apply contains_has; auto.
  - intros Hl Hh. destruct (push_back_new K (simplex_of l d) HK) as [E _].
    + apply simplex_of_good; auto.
    + destruct (k_contains K (simplex_of l d)) eqn:E; auto. apply contains_has in E; auto. easy.
    + rewrite E. auto.
Qed.

Theorem C03_replace : forall K i l d old, reachable K -> nth_error (by_index K) i = Some old ->
  (l = [] -> k_replace K i (simplex_of l d) = (K, Throw RuntimeError)) /\
  (l <> [] -> has (by_index K) l -> ~ set_eq (verts old) l ->
     k_replace K i (simplex_of l d) = (K, Ok false)) /\
  (l <> [] -> ~ has (by_index K) l \/ set_eq (verts old) l ->
     snd (k_replace K i (simplex_of l d)) = Ok true /\
     by_index (fst (k_replace K i (simplex_of l d))) = upd (by_index K) i (simplex_of l d)).
Proof.
  intros K i l d old HR Hi. pose proof (reachable_kwf K HR) as HK.
  assert (Hg : good old) by (apply (kwf_good K HK); eapply nth_error_In; eauto).
  unfold k_replace. rewrite Hi.
  assert (Heq : s_eqb old (simplex_of l d) = true <-> set_eq (verts old) l).
  { rewrite s_eqb_eq. split.
    - intros E v. rewrite E. apply simplex_of_In.
    - intro E. apply wf_ext; [apply Hg|apply simplex_of_wf|]. intro v. rewrite simplex_of_In. apply E. }
  refine (conj _ (conj _ _)).
  - intros ->. destruct (k_contains K (simplex_of [] d)) eqn:E.
    + apply contains_In, in_map_iff in E. destruct E as (s & E & Hs).
      destruct (kwf_good K HK s Hs) as [_ Hn]. easy.
    + rewrite andb_false_r. auto.
  - intros Hl Hh Hne. apply (contains_has K l d HK) in Hh. rewrite Hh.
    destruct (s_eqb old (simplex_of l d)); auto. exfalso. apply Hne, Heq; auto.
  - intros Hl Hor.
    assert (C : negb (s_eqb old (simplex_of l d)) && k_contains K (simplex_of l d) = false).
    { destruct Hor as [Hn|He].
      - destruct (k_contains K (simplex_of l d)) eqn:E; [|apply andb_false_r].
        apply contains_has in E; auto. easy.
      - apply Heq in He. rewrite He. auto. }
    rewrite C, (good_dimension _ (simplex_of_good l d Hl)). auto.
Qed.

Theorem C03_sort_permutes : forall K cmp, reachable K ->
  Permutation (by_index (k_sort cmp K)) (by_index K).
Proof. intros K cmp _. apply cpp_sort_perm. Qed.

Example C03_example :
  reachable full_triangle /\ k_size full_triangle = 7 /\ k_dimension full_triangle = Ok 2 /\
  map verts (by_index full_triangle) = [[2]; [0]; [1]; [1;0]; [2;0]; [2;1]; [2;1;0]] /\
  k_index full_triangle (simplex_of [0;2;0] 7) = Ok 4 /\
  map verts (k_range full_triangle 1) = [[1;0]; [2;0]; [2;1]] /\
  k_push_back full_triangle (simplex_of [1;2] 9) = (full_triangle, Ok tt).
Proof. split; [apply mk_reachable|]. repeat split; reflexivity. Qed.

(** Two complexes are equal iff they list the same simplices (as vertex sets)
    in the same order. *)
Lemma all2_spec l m : length l = length m -> (all2 l m = true <-> map verts l = map verts m).
Proof.
  revert m. induction l as [|s l IH]; intros [|t m] H; simpl in *; try discriminate; [tauto|].
  rewrite andb_true_iff, s_eqb_eq, IH by lia. split; [intros [-> ->]; auto|intros [= -> ->]; auto].
Qed.

Theorem C54_equality : forall K L,
  k_eqb K L = true <-> map verts (by_index K) = map verts (by_index L).
Proof.
  intros K L. unfold k_eqb, k_size. destruct (Nat.eqb_spec (length (by_index K)) (length (by_index L))) as [E|E]; simpl.
  - apply all2_spec; auto.
  - split; [discriminate|]. intro H. apply (f_equal (@length _)) in H. rewrite !map_length in H. lia.
Qed.

Example C54_example :
  k_eqb (mk [PushBack [0] 1; PushBack [1] 2]) (mk [PushBack [0] 5; PushBack [1] 6]) = true /\
  k_eqb (mk [PushBack [0] 1; PushBack [1] 2]) (mk [PushBack [1] 2; PushBack [0] 1]) = false /\
  k_eqb (mk [PushBack [0] 1; PushBack [1] 2]) (mk [PushBack [0] 1]) = false.
Proof. repeat split; reflexivity. Qed.

(** ** C04 *)
Theorem C04_missing_faces : forall K, reachable K ->
  exists K' added, createMissingFaces K = Ok K' /\
    by_index K' = by_index K ++ added /\
    (forall t, In t added -> exists s, In s (by_index K) /\ proper_face t s /\ data t = data s) /\
    (forall vs, has (by_index K') vs <-> vs <> [] /\ exists s, In s (by_index K) /\ subset vs (verts s)) /\
    proper_simplices (by_index K').
Proof.
  intros K HR. pose proof (reachable_kwf K HR) as HK.
  destruct (missing_faces_correct K HK) as (K' & added & E & HK' & Ea & H1 & _ & H2).
  exists K', added. refine (conj E (conj Ea (conj H1 (conj H2 _)))).
  apply C03_views_consistent. destruct HR as (lo & hi & h & ->).
  exists lo, hi, (h ++ [CreateMissingFaces]). unfold k_run. rewrite fold_left_app. simpl.
  fold (k_run lo hi h). rewrite E. reflexivity.
Qed.

Example C04_example :
  let K := mk [PushBack [0;1;2] 3; PushBack [3] 5; PushBack [2;3] 7] in
  reachable K /\ omap (fun K' => map (fun s => (verts s, data s)) (by_index K')) (createMissingFaces K)
  = Ok [([2;1;0], 3%Z); ([3], 5%Z); ([3;2], 7%Z); ([1;0], 3%Z); ([2;0], 3%Z); ([2;1], 3%Z); ([2], 7%Z);
        ([0], 3%Z); ([1], 3%Z)].
Proof. split; [apply mk_reachable|reflexivity]. Qed.

(** ** C05: the guarantee of the source comment does not hold. *)
Theorem C05_face_weights_refuted :
  exists K K', reachable K /\ monotone (by_index K) /\
    createMissingFaces K = Ok K' /\ ~ monotone (by_index K').
Proof.
  exists (mk [PushBack [0;1;2] 5; PushBack [1;2;3] 1]),
    (k_run (-1000) 1000 [PushBack [0;1;2] 5; PushBack [1;2;3] 1; CreateMissingFaces]).
  split; [apply mk_reachable|]. split; [|split; [reflexivity|]].
  - apply monotone_check. vm_compute. reflexivity.
  - intro H. specialize (H (Simplex [3;2;1] 1) (Simplex [2;1] 5)).
    assert (H1 : In (Simplex [3;2;1] 1) (by_index (k_run (-1000) 1000 [PushBack [0;1;2] 5; PushBack [1;2;3] 1; CreateMissingFaces])))
      by (vm_compute; tauto).
    assert (H2 : In (Simplex [2;1] 5) (by_index (k_run (-1000) 1000 [PushBack [0;1;2] 5; PushBack [1;2;3] 1; CreateMissingFaces])))
      by (vm_compute; tauto).
    specialize (H H1 H2). clear H1 H2. cbn [verts data] in H.
    assert (5 <= 1)%Z; [|lia]. apply H. intro v. simpl. tauto.
Qed.

(** What does hold: if all data stored before are equal, or more generally the
    only stored simplices containing an added face have at least its data. *)
Theorem C05_constant_data : forall K c, reachable K ->
  (forall s, In s (by_index K) -> data s = c) ->
  exists K', createMissingFaces K = Ok K' /\ forall s, In s (by_index K') -> data s = c.
Proof.
  intros K c HR Hc. destruct (missing_faces_correct K (reachable_kwf K HR)) as (K' & added & E & _ & Ea & H1 & _).
  exists K'. split; auto. intros s Hs. rewrite Ea in Hs. apply in_app_or in Hs. destruct Hs as [Hs|Hs]; auto.
  destruct (H1 s Hs) as (t & Ht & _ & ->). auto.
Qed.

(** ** C06 *)
Theorem C06_remove_open_star : forall K l d, reachable K -> closed (by_index K) ->
  exists K', k_remove K (simplex_of l d) = Ok K' /\ closed (by_index K') /\
    (has (by_index K) l ->
       by_index K' = filter (fun t => negb (forallb (fun v => existsb (Nat.eqb v) (verts t)) l)) (by_index K)) /\
    (~ has (by_index K) l -> by_index K' = by_index K).
Proof.
  intros K l d HR HC. pose proof (reachable_kwf K HR) as HK.
  destruct (remove_correct K (simplex_of l d) HK HC (simplex_of_wf l d)) as (K' & E & _ & H1 & H2).
  exists K'. refine (conj E (conj H2 (conj _ _))).
  - intro H. apply (contains_has K l d HK) in H. rewrite H in H1. rewrite H1.
    apply filter_ext. intro t. f_equal. apply eq_true_iff_eq.
    rewrite supersetb_spec, forallb_forall. split.
    + intros Hs v Hv. apply mem_In, Hs, simplex_of_In; auto.
    + intros Hs v Hv. apply mem_In, Hs. apply (simplex_of_In l d); auto.
  - intro H. destruct (k_contains K (simplex_of l d)) eqn:C; auto.
    apply contains_has in C; auto. easy.
Qed.

Lemma full_triangle_closed : closed (by_index full_triangle).
Proof. apply closed_check; [apply mk_reachable|]. vm_compute. reflexivity. Qed.

Example C06_example : closed (by_index full_triangle) /\
  omap (fun K' => map verts (by_index K')) (k_remove full_triangle (simplex_of [0] 0)) = Ok [[2]; [1]; [2;1]].
Proof. split; [apply full_triangle_closed|reflexivity]. Qed.

(** On a complex that is not closed, more is removed than the open star. *)
Theorem C06_not_closed_refuted :
  exists K K', reachable K /\ k_remove K (simplex_of [5] 0) = Ok K' /\ has (by_index K) [0;1] /\
    ~ has (by_index K') [0;1].
Proof.
  exists (mk [PushBack [5] 0; PushBack [0;1] 0]), k_empty.
  split; [apply mk_reachable|]. split; [reflexivity|]. split.
  - exists (Simplex [1;0] 0). split; [vm_compute; tauto|]. intro v. simpl. tauto.
  - intros (s & [] & _).
Qed.

(** ** C07 *)

(** [lowest] and [highest]: the numeric limits of the data type. *)
Theorem C07_recalculate_maximum : forall lowest highest K, reachable K -> closed (by_index K) ->
  (forall s, In s (by_index K) -> (lowest <= data s <= highest)%Z) ->
  let K' := recalculateWeights lowest highest true false K in
  map verts (by_index K') = map verts (by_index K) /\
  (forall i s s', nth_error (by_index K) i = Some s -> nth_error (by_index K') i = Some s' ->
     is_max_of_faces (by_index K) 0 s (data s')).
Proof.
  intros lo hi K HR HC Hr K'. pose proof (reachable_kwf K HR) as HK.
  destruct (recalculate_extremum lo hi true false K HK HC) as (g & E & G1 & G2).
  { intros s Hs _. unfold lez, startz. apply Hr; auto. }
  unfold K'. rewrite E. split; [apply redata_verts|].
  intros i s s' Hs Hs'. simpl in Hs'. rewrite nth_error_map, Hs in Hs'. injection Hs' as <-.
  simpl. apply G2; [eapply nth_error_In; eauto|simpl; lia].
Qed.

Theorem C07_recalculate_minimum : forall lowest highest K, reachable K -> closed (by_index K) ->
  (forall s, In s (by_index K) -> (lowest <= data s <= highest)%Z) ->
  let K' := recalculateWeights lowest highest false false K in
  map verts (by_index K') = map verts (by_index K) /\
  (forall i s s', nth_error (by_index K) i = Some s -> nth_error (by_index K') i = Some s' ->
     is_min_of_faces (by_index K) 0 s (data s')).
Proof.
  intros lo hi K HR HC Hr K'. pose proof (reachable_kwf K HR) as HK.
  destruct (recalculate_extremum lo hi false false K HK HC) as (g & E & G1 & G2).
  { intros s Hs _. unfold lez, startz. apply Hr; auto. }
  unfold K'. rewrite E. split; [apply redata_verts|].
  intros i s s' Hs Hs'. simpl in Hs'. rewrite nth_error_map, Hs in Hs'. injection Hs' as <-.
  simpl. apply G2; [eapply nth_error_In; eauto|simpl; lia].
Qed.

(** With [skipOneDimensionalSimplices] vertices and edges keep their data and
    all others get the maximum over their edges. *)
Theorem C07_skip_one_dimensional : forall lowest highest K, reachable K -> closed (by_index K) ->
  (forall s, In s (by_index K) -> (lowest <= data s <= highest)%Z) ->
  let K' := recalculateWeights lowest highest true true K in
  map verts (by_index K') = map verts (by_index K) /\
  (forall i s s', nth_error (by_index K) i = Some s -> nth_error (by_index K') i = Some s' ->
     (length (verts s) <= 2 -> data s' = data s) /\
     (2 <= length (verts s) -> is_max_of_faces (by_index K) 1 s (data s'))).
Proof.
  intros lo hi K HR HC Hr K'. pose proof (reachable_kwf K HR) as HK.
  destruct (recalculate_extremum lo hi true true K HK HC) as (g & E & G1 & G2).
  { intros s Hs _. unfold lez, startz. apply Hr; auto. }
  unfold K'. rewrite E. split; [apply redata_verts|].
  intros i s s' Hs Hs'. simpl in Hs'. rewrite nth_error_map, Hs in Hs'. injection Hs' as <-.
  assert (Hin : In s (by_index K)) by (eapply nth_error_In; eauto). simpl. split; intro H.
  - apply G1; auto. unfold sdim. simpl. lia.
  - apply G2; auto. unfold sdim. simpl. lia.
Qed.

(** The range version: it succeeds exactly if every vertex of a stored simplex
    has a weight, and then every simplex gets the maximum of the weights of its
    vertices; the vertex sets and their order never change. *)
Theorem C07_recalculate_range : forall lowest highest w K K' r, reachable K -> closed (by_index K) ->
  (forall x, In x w -> (lowest <= x)%Z) ->
  recalculateWeights_range lowest highest w K = (K', r) ->
  map verts (by_index K') = map verts (by_index K) /\
  ((r = Ok tt /\ (forall s v, In s (by_index K) -> In v (verts s) -> v < length w) /\
    forall s', In s' (by_index K') -> is_max_over (fun v => nth v w 0%Z) (verts s') (data s')) \/
   (r = Throw OutOfRange /\ exists s v, In s (by_index K) /\ In v (verts s) /\ length w <= v)).
Proof.
  intros lo hi w K K' r HR HC Hw E. pose proof (reachable_kwf K HR) as HK.
  destruct (range_correct lo hi w K HK HC) as (g & r' & E' & D).
  { intros v x Hx. apply Hw. eapply nth_error_In; eauto. }
  rewrite E' in E. injection E as <- <-. split; [apply redata_verts|].
  destruct D as [[-> D]|D]; auto. left. split; auto. split.
  - intros s v Hs Hv. exact (proj2 (D s Hs) v Hv).
  - intros s' Hs'. simpl in Hs'. apply in_map_iff in Hs'. destruct Hs' as (s & <- & Hs). exact (proj1 (D s Hs)).
Qed.

Example C07_example :
  reachable full_triangle /\ closed (by_index full_triangle) /\
  map (fun s => (verts s, data s)) (by_index (fst (recalculateWeights_range (-1000) 1000 [4;9;2]%Z full_triangle)))
  = [([2], 2%Z); ([0], 4%Z); ([1], 9%Z); ([1;0], 9%Z); ([2;0], 4%Z); ([2;1], 9%Z); ([2;1;0], 9%Z)] /\
  snd (recalculateWeights_range (-1000) 1000 [4;9]%Z full_triangle) = Throw OutOfRange /\
  map (fun s => (verts s, data s)) (by_index (recalculateWeights (-1000) 1000 false false full_triangle))
  = [([2], 1%Z); ([0], 3%Z); ([1], 3%Z); ([1;0], 3%Z); ([2;0], 1%Z); ([2;1], 1%Z); ([2;1;0], 1%Z)].
Proof.
  split; [apply mk_reachable|]. split; [apply full_triangle_closed|].
  split; [reflexivity|]. split; reflexivity.
Qed.

(** ** C08 *)
Theorem C08_comparisons_are_orderings : forall lowest highest values,
  let strict_weak (cmp : simplex -> simplex -> bool) :=
    (forall x, cmp x x = false) /\
    (forall x y z, cmp x y = true -> cmp y z = true -> cmp x z = true) /\
    (forall x y z, cmp x y = false -> cmp y x = false -> cmp y z = false -> cmp z y = false ->
       cmp x z = false /\ cmp z x = false) in
  strict_weak s_ltb /\ strict_weak data_cmp /\ strict_weak data_cmp_greater /\
  strict_weak (lower_star_cmp lowest values) /\ strict_weak (upper_star_cmp highest values).
Proof.
  intros lo hi w sw. assert (H : forall cmp, swo cmp -> sw cmp).
  { intros cmp [A B]. refine (conj _ (conj _ _)).
    - intro x. destruct (cmp x x) eqn:E; auto. rewrite (A x x E) in E. auto.
    - intros x y z H1 H2. destruct (cmp x z) eqn:E; auto.
      exfalso. rewrite (B z x y E) in H2; [discriminate|]. apply A; auto.
    - intros x y z H1 H2 H3 H4. split; eapply B; eauto. }
  refine (conj _ (conj _ (conj _ (conj _ _)))); apply H.
  - apply s_ltb_swo.
  - apply data_cmp_swo.
  - apply data_cmp_greater_swo.
  - apply lower_star_swo.
  - apply upper_star_swo.
Qed.

Theorem C08_default_order : forall K, reachable K ->
  Permutation (by_index (k_sort_default K)) (by_index K) /\ filtration_order (by_index (k_sort_default K)).
Proof.
  intros K HR. split; [apply cpp_sort_perm|]. apply filtration_default, reachable_kwf, HR.
Qed.

Theorem C08_data_filtration : forall K, reachable K -> monotone (by_index K) ->
  let L := by_index (k_sort data_cmp K) in
  Permutation L (by_index K) /\ filtration_order L /\
  forall i j s t, i < j -> nth_error L i = Some s -> nth_error L j = Some t -> (data s <= data t)%Z.
Proof.
  intros K HR HM L. split; [apply cpp_sort_perm|]. split; [apply filtration_data; auto using reachable_kwf|].
  apply sorted_by_value; [apply data_cmp_swo|]. intros s t. unfold data_cmp.
  destruct (Z.eqb_spec (data t) (data s)); [lia|]. rewrite Z.ltb_ge. lia.
Qed.

(** With [std::greater] the data have to decrease from faces to cofaces. *)
Theorem C08_data_filtration_descending : forall K, reachable K ->
  (forall s t, In s (by_index K) -> In t (by_index K) -> subset (verts t) (verts s) -> (data s <= data t)%Z) ->
  let L := by_index (k_sort data_cmp_greater K) in
  Permutation L (by_index K) /\ filtration_order L /\
  forall i j s t, i < j -> nth_error L i = Some s -> nth_error L j = Some t -> (data t <= data s)%Z.
Proof.
  intros K HR HM L. split; [apply cpp_sort_perm|]. split; [apply filtration_data_greater; auto using reachable_kwf|].
  intros i j s t Hij Hs Ht. apply Z.opp_le_mono.
  apply (sorted_by_value data_cmp_greater (fun s => - data s)%Z (by_index K) data_cmp_greater_swo) with (i := i) (j := j); auto.
  clear. intros s t. unfold data_cmp_greater. destruct (Z.eqb_spec (data t) (data s)); [lia|]. rewrite Z.ltb_ge. lia.
Qed.

Lemma cover_range values K : values_cover values K = true <->
  forall s v, In s (by_index K) -> In v (verts s) -> v < length values.
Proof.
  unfold values_cover. rewrite forallb_forall. split.
  - intros H s v Hs Hv. specialize (H s Hs). rewrite forallb_forall in H. apply Nat.ltb_lt. auto.
  - intros H s Hs. apply forallb_forall. intros v Hv. apply Nat.ltb_lt. eauto.
Qed.

Theorem C08_lower_star : forall lowest values K, reachable K ->
  (forall x, In x values -> (lowest <= x)%Z) ->
  (forall s v, In s (by_index K) -> In v (verts s) -> v < length values) ->
  exists K', sort_lower_star lowest values K = Ok K' /\
    Permutation (by_index K') (by_index K) /\ filtration_order (by_index K') /\
    forall i j s t a b, i < j -> nth_error (by_index K') i = Some s -> nth_error (by_index K') j = Some t ->
      is_max_over (fun v => nth v values 0%Z) (verts s) a ->
      is_max_over (fun v => nth v values 0%Z) (verts t) b -> (a <= b)%Z.
Proof.
  intros lo w K HR Hlo Hc. pose proof (reachable_kwf K HR) as HK. unfold sort_lower_star.
  rewrite (proj2 (cover_range w K)) by auto. eexists. split; [reflexivity|].
  split; [apply cpp_sort_perm|]. split; [apply filtration_lower; auto|].
  intros i j s t a b Hij Hs Ht Ha Hb.
  assert (Hm : forall u c, In u (by_index K) -> is_max_over (fun v => nth v w 0%Z) (verts u) c -> c = maximumValue lo w u).
  { intros u c Hu [(v & Hv & Ev) Hc1]. destruct (maximumValue_max lo w u) as [(v' & Hv' & Ev') Hc2].
    - apply (kwf_good K HK u Hu).
    - intros x Hx. apply Hlo. apply nth_In. eauto.
    - specialize (Hc1 v' Hv'). specialize (Hc2 v Hv). simpl in *. lia. }
  assert (Hin : forall i u, nth_error (by_index (k_sort (lower_star_cmp lo w) K)) i = Some u -> In u (by_index K)).
  { intros k u H. apply (cpp_sort_In (lower_star_cmp lo w)). eapply nth_error_In; eauto. }
  rewrite (Hm s a), (Hm t b); eauto.
  apply (sorted_by_value (lower_star_cmp lo w) (maximumValue lo w) (by_index K) (lower_star_swo lo w)) with (i := i) (j := j); auto.
  clear. intros s t. unfold lower_star_cmp.
  destruct (Z.ltb_spec (maximumValue lo w t) (maximumValue lo w s)); [discriminate|]. lia.
Qed.

Theorem C08_upper_star : forall highest values K, reachable K ->
  (forall x, In x values -> (x <= highest)%Z) ->
  (forall s v, In s (by_index K) -> In v (verts s) -> v < length values) ->
  exists K', sort_upper_star highest values K = Ok K' /\
    Permutation (by_index K') (by_index K) /\ filtration_order (by_index K') /\
    forall i j s t a b, i < j -> nth_error (by_index K') i = Some s -> nth_error (by_index K') j = Some t ->
      is_min_over (fun v => nth v values 0%Z) (verts s) a ->
      is_min_over (fun v => nth v values 0%Z) (verts t) b -> (b <= a)%Z.
Proof.
  intros hi w K HR Hhi Hc. pose proof (reachable_kwf K HR) as HK. unfold sort_upper_star.
  rewrite (proj2 (cover_range w K)) by auto. eexists. split; [reflexivity|].
  split; [apply cpp_sort_perm|]. split; [apply filtration_upper; auto|].
  intros i j s t a b Hij Hs Ht Ha Hb.
  assert (Hm : forall u c, In u (by_index K) -> is_min_over (fun v => nth v w 0%Z) (verts u) c -> c = minimumValue hi w u).
  { intros u c Hu [(v & Hv & Ev) Hc1]. destruct (minimumValue_min hi w u) as [(v' & Hv' & Ev') Hc2].
    - apply (kwf_good K HK u Hu).
    - intros x Hx. apply Hhi. apply nth_In. eauto.
    - specialize (Hc1 v' Hv'). specialize (Hc2 v Hv). simpl in *. lia. }
  assert (Hin : forall i u, nth_error (by_index (k_sort (upper_star_cmp hi w) K)) i = Some u -> In u (by_index K)).
  { intros k u H. apply (cpp_sort_In (upper_star_cmp hi w)). eapply nth_error_In; eauto. }
  rewrite (Hm s a), (Hm t b); eauto. apply Z.opp_le_mono.
  apply (sorted_by_value (upper_star_cmp hi w) (fun u => - minimumValue hi w u)%Z (by_index K) (upper_star_swo hi w)) with (i := i) (j := j); auto.
  clear. intros s t. unfold upper_star_cmp.
  destruct (Z.ltb_spec (minimumValue hi w s) (minimumValue hi w t)); [discriminate|]. lia.
Qed.

Example C08_example :
  let K := mk [PushBack [0;1;2] 3; PushBack [2] 1; CreateMissingFaces] in
  reachable K /\ monotone (by_index K) /\
  map verts (by_index K) = [[2;1;0]; [2]; [1;0]; [2;0]; [2;1]; [0]; [1]] /\
  map verts (by_index (k_sort data_cmp K)) = [[2]; [0]; [1]; [1;0]; [2;0]; [2;1]; [2;1;0]] /\
  omap (fun K' => map verts (by_index K')) (sort_lower_star (-1000) [4;9;2]%Z K)
  = Ok [[2]; [0]; [2;0]; [1]; [1;0]; [2;1]; [2;1;0]] /\
  omap (fun K' => map verts (by_index K')) (sort_upper_star 1000 [4;9;2]%Z K)
  = Ok [[1]; [0]; [1;0]; [2]; [2;0]; [2;1]; [2;1;0]].
Proof.
  split; [apply mk_reachable|]. split; [|repeat split; reflexivity].
  apply monotone_check. vm_compute. reflexivity.
Qed.

(** ** C09 *)
Theorem C09_boundary_matrix : forall K, reachable K -> closed (by_index K) -> filtration_order (by_index K) ->
  exists M, makeBoundaryMatrix K 0 = Ok M /\ dualized M = false /\
    length (cols M) = k_size K /\
    (forall j s, nth_error (by_index K) j = Some s ->
       getDimension M j = s_dimension s /\
       exists c, getColumn M j = Ok c /\ StronglySorted lt c /\
         (forall r, In r c -> r < j) /\
         (forall r, In r c <-> exists t, nth_error (by_index K) r = Some t /\
            subset (verts t) (verts s) /\ S (length (verts t)) = length (verts s))) /\
    (* the square of the boundary operator vanishes; everything that has been
       shown about valid boundary matrices applies *)
    valid_boundary (cols M) (dims M).
Proof.
  intros K HR HC HF. pose proof (reachable_kwf K HR) as HK.
  eexists. split; [apply (matrix_value K 0 HK)|]. cbn [cols dims dualized].
  pose proof (matrix_valid K HK HC HF) as HV.
  refine (conj eq_refl (conj _ (conj _ HV))).
  - rewrite map_length, enum_length. auto.
  - intros j s Hs. assert (Hin : In s (by_index K)) by (eapply nth_error_In; eauto).
    assert (Hg : good s) by (apply (kwf_good K HK); auto). split.
    + unfold getDimension, at_. cbn [dims]. rewrite nth_error_map, Hs. cbn [option_map].
      rewrite good_dimension; auto.
    + exists (bcol K 0 (j, s)). split; [|split; [|split]].
      * unfold getColumn. apply (proj2 (BaseFacts.at_ok _ _ _)). apply bcol_nth; auto.
      * apply HV. apply (nth_error_In _ j), bcol_nth; auto.
      * intros r Hr. apply (proj1 (proj2 (proj2 HV)) j r). apply (entry_C K). exists s.
        unfold bcol in Hr. simpl in Hr. rewrite cpp_sort_In, in_map_iff in Hr. destruct Hr as (f & E & Hf). eauto.
      * intro r. unfold bcol. simpl. rewrite cpp_sort_In, in_map_iff. split.
        -- intros (f & <- & Hf). destruct (face_index K HK HC s f Hin Hf) as (t & Ht & Hv).
           exists t. split; auto. rewrite Hv. split.
           ++ intros v Hv'. eapply boundary_incl; eauto.
           ++ apply (boundary_size s f); auto. apply Hg.
        -- intros (t & Ht & Hsub & Hl).
           assert (Htin : In t (by_index K)) by (eapply nth_error_In; eauto).
           destruct (kwf_good K HK t Htin) as [Htw Htn].
           destruct (subset_dec (verts s) (verts t)) as [Hss|(v & Hv & Hnv)].
           { exfalso. assert (length (verts s) <= length (verts t)); [|lia].
             apply NoDup_incl_length; auto. apply SSgt_NoDup. apply Hg. }
           assert (Hf : In (boundary_face s v) (boundary s)).
           { apply in_boundary. split; eauto. unfold s_size. destruct (verts t); [easy|simpl in Hl; lia]. }
           exists (boundary_face s v). split; auto.
           destruct (face_index K HK HC s _ Hin Hf) as (t' & Ht' & Hv').
           eapply (nth_error_verts_inj K); eauto. rewrite Hv'.
           symmetry. apply wf_ext; auto using boundary_face_wf.
           assert (Hi : incl (verts t) (verts (boundary_face s v))).
           { intros u Hu. apply boundary_face_In. split; auto. intros ->; easy. }
           intro u. split; auto. apply (NoDup_length_incl (SSgt_NoDup _ Htw)); auto.
           pose proof (boundary_size s _ (proj1 Hg) Hf). unfold s_size in *. lia.
Qed.

Lemma full_triangle_filtration : filtration_order (by_index full_triangle).
Proof.
  apply (filtration_data (mk [PushBack [0;1;2] 3; PushBack [2] 1; CreateMissingFaces])).
  - apply reachable_kwf, mk_reachable.
  - apply C08_example.
Qed.

(** With a maximum index the later columns stay empty but keep their dimension. *)
Theorem C09_maximum_index : forall K mx, reachable K -> 0 < mx ->
  exists M M', makeBoundaryMatrix K 0 = Ok M /\ makeBoundaryMatrix K mx = Ok M' /\
    dims M' = dims M /\ dualized M' = false /\ length (cols M') = k_size K /\
    (forall j, j < mx -> getColumn M' j = getColumn M j) /\
    (forall j, mx <= j -> j < k_size K -> getColumn M' j = Ok []) /\
    (forall j s, nth_error (by_index K) j = Some s -> getDimension M' j = s_dimension s).
Proof.
  intros K mx HR Hm. pose proof (reachable_kwf K HR) as HK.
  eexists _, _. refine (conj (matrix_value K 0 HK) (conj (matrix_value K mx HK) _)). cbn [cols dims dualized].
  refine (conj eq_refl (conj eq_refl (conj _ (conj _ (conj _ _))))).
  - rewrite map_length, enum_length. auto.
  - intros j Hj. unfold getColumn, at_. cbn [cols]. rewrite !nth_error_map, enum_nth.
    destruct (nth_error (by_index K) j); simpl; auto. unfold bcol. simpl.
    destruct (Nat.ltb_spec j mx); [|lia]. rewrite orb_true_r. auto.
  - intros j Hj Hk. unfold getColumn, at_. cbn [cols]. rewrite nth_error_map, enum_nth.
    destruct (nth_error (by_index K) j) eqn:E; [|apply nth_error_None in E; unfold k_size in Hk; lia].
    simpl. unfold bcol. simpl. destruct (Nat.ltb_spec j mx); [lia|]. destruct (Nat.eqb_spec mx 0); [lia|]. auto.
  - intros j s Hs. unfold getDimension, at_. cbn [dims]. rewrite nth_error_map, Hs. cbn [option_map].
    rewrite good_dimension; auto. apply (kwf_good K HK). eapply nth_error_In; eauto.
Qed.

Example C09_maximum_example :
  omap (fun M => (cols M, dims M)) (makeBoundaryMatrix full_triangle 5)
  = Ok ([[];[];[];[1;2];[0;1];[];[]], [0;0;0;1;1;1;2]).
Proof. vm_compute. reflexivity. Qed.

Example C09_example :
  reachable full_triangle /\ closed (by_index full_triangle) /\ filtration_order (by_index full_triangle) /\
  makeBoundaryMatrix full_triangle 0
  = Ok (Matrix [[];[];[];[1;2];[0;1];[0;2];[3;4;5]] [0;0;0;1;1;1;2] false).
Proof.
  refine (conj (mk_reachable _) (conj full_triangle_closed (conj full_triangle_filtration eq_refl))).
Qed.

(** With missing faces the matrix refers to the simplex with index 0 instead. *)
Theorem C09_missing_faces_refuted :
  exists K M c, reachable K /\ makeBoundaryMatrix K 0 = Ok M /\ getColumn M 1 = Ok c /\ In 0 c /\
    exists s t, k_at K 1 = Ok s /\ k_at K 0 = Ok t /\ ~ subset (verts t) (verts s).
Proof.
  exists (mk [PushBack [7] 0; PushBack [0;1] 0]), (Matrix [[];[0;0]] [0;1] false), [0;0].
  split; [apply mk_reachable|]. split; [reflexivity|]. split; [reflexivity|]. split; [simpl; auto|].
  exists (Simplex [1;0] 0), (Simplex [7] 0). split; [reflexivity|]. split; [reflexivity|].
  intro H. specialize (H 7). simpl in H. lia.
Qed.

(** ** C42 *)
Theorem C42_skeleton : forall k K, reachable K ->
  by_index (skeleton k K) = filter (fun s => length (verts s) <=? S k) (by_index K) /\
  (closed (by_index K) -> closed (by_index (skeleton k K))).
Proof.
  intros k K HR. pose proof (reachable_kwf K HR) as HK.
  assert (E : by_index (skeleton k K) = filter (fun s => length (verts s) <=? S k) (by_index K)).
  { unfold skeleton. rewrite (proj2 (push_filter K _ HK)). apply filter_ext_in. intros s Hs.
    destruct (kwf_good K HK s Hs) as [_ Hn]. unfold sdim. destruct (verts s); [easy|]. simpl. rewrite Nat.sub_0_r; auto. }
  split; auto. intros HC s vs Hs Hne Hsub. rewrite E in *. apply filter_In in Hs. destruct Hs as [Hs Hl].
  destruct (HC s vs Hs Hne Hsub) as (t & Ht & Et). exists t. split; auto. apply filter_In. split; auto.
  apply Nat.leb_le in Hl. apply Nat.leb_le.
  assert (length (verts t) <= length (verts s)); [|lia].
  apply NoDup_incl_length; [apply SSgt_NoDup, (kwf_good K HK t Ht)|].
  intros v Hv. apply Hsub, Et; auto.
Qed.

Theorem C42_filter : forall K f, reachable K ->
  by_index (k_filter K f) = filter f (by_index K) /\
  (closed (by_index K) ->
   (forall s t, In s (by_index K) -> In t (by_index K) -> subset (verts t) (verts s) -> f s = true -> f t = true) ->
   closed (by_index (k_filter K f))).
Proof.
  intros K f HR. pose proof (reachable_kwf K HR) as HK.
  assert (E : by_index (k_filter K f) = filter f (by_index K)) by apply (proj2 (push_filter K f HK)).
  split; auto. intros HC Hf s vs Hs Hne Hsub. rewrite E in *. apply filter_In in Hs. destruct Hs as [Hs Hl].
  destruct (HC s vs Hs Hne Hsub) as (t & Ht & Et). exists t. split; auto. apply filter_In. split; auto.
  apply (Hf s t); auto. intros v Hv. apply Hsub, Et; auto.
Qed.

(** sublevel sets *)
Theorem C42_threshold : forall K w, reachable K -> closed (by_index K) -> monotone (by_index K) ->
  closed (by_index (k_filter K (fun s => (data s <=? w)%Z))).
Proof.
  intros K w HR HC HM. apply C42_filter; auto. intros s t Hs Ht Hsub. rewrite !Z.leb_le.
  specialize (HM s t Hs Ht Hsub). lia.
Qed.

Example C42_example :
  map verts (by_index (skeleton 1 full_triangle)) = [[2]; [0]; [1]; [1;0]; [2;0]; [2;1]] /\
  map verts (by_index (k_filter full_triangle (fun s => (data s <=? 1)%Z))) = [[2]].
Proof. split; reflexivity. Qed.

(** ** C44 *)
Theorem C44_partition : forall K phi, reachable K ->
  let '(L, n) := partition_phi K phi in
  Permutation (by_index L) (by_index K) /\
  by_index L = filter phi (by_index K) ++ filter (fun s => negb (phi s)) (by_index K) /\
  n <= k_size L /\
  (forall i s, nth_error (by_index L) i = Some s -> (phi s = true <-> i < n)).
Proof.
  intros K phi HR. pose proof (partition_correct K phi (reachable_kwf K HR)) as (_ & E & En).
  destruct (partition_phi K phi) as [L n]. simpl in E, En. rewrite E.
  split; [apply filter_split_perm|]. split; auto. unfold k_size. rewrite E, app_length.
  split; [lia|]. intros i s Hs. rewrite En. split.
  - intro Hp. destruct (Nat.lt_ge_cases i (length (filter phi (by_index K)))) as [H|H]; auto.
    rewrite nth_error_app2 in Hs by auto. apply nth_error_In, filter_In in Hs. rewrite Hp in Hs. easy.
  - intro H. rewrite nth_error_app1 in Hs by auto. apply nth_error_In, filter_In in Hs. tauto.
Qed.

Example C44_example :
  let p := partition_phi full_triangle (fun s => s_contains s 2) in
  map verts (by_index (fst p)) = [[2]; [2;0]; [2;1]; [2;1;0]; [0]; [1]; [1;0]] /\ snd p = 4.
Proof. split; reflexivity. Qed.

(** ** C47 *)
Theorem C47_vertices_closed : forall K, reachable K -> closed (by_index K) ->
  StronglySorted lt (k_vertices K) /\
  forall v, In v (k_vertices K) <-> exists s, In s (by_index K) /\ In v (verts s).
Proof.
  intros K HR HC. pose proof (reachable_kwf K HR) as HK. destruct (vertices_spec K HK) as [A B].
  split; auto. intro v. rewrite B. split.
  - intros (s & Hs & Hv). exists s. split; auto. rewrite Hv. simpl; auto.
  - intros (s & Hs & Hv). destruct (HC s [v] Hs) as (t & Ht & Et); [easy|intros ? [<-|[]]; auto|].
    exists t. split; auto. apply (wf_ext t (simplex_vertex v 0)); auto.
    + apply (kwf_good K HK); auto.
    + repeat constructor.
Qed.

Theorem C47_vertices_refuted :
  exists K s v, reachable K /\ In s (by_index K) /\ In v (verts s) /\ ~ In v (k_vertices K).
Proof.
  exists (mk [PushBack [0;1] 0]), (Simplex [1;0] 0), 1.
  split; [apply mk_reachable|]. split; [vm_compute; tauto|]. split; [simpl; auto|]. vm_compute. tauto.
Qed.

Example C47_example : k_vertices full_triangle = [0;1;2].
Proof. reflexivity. Qed.

(** ** C51.  The reported degrees belong to the vertices, in ascending order,
    that lie in some simplex of positive dimension. *)
Theorem C51_degrees : forall K, reachable K ->
  exists vs, StronglySorted lt vs /\
    (forall v, In v vs <-> exists s, In s (by_index K) /\ 2 <= length (verts s) /\ In v (verts s)) /\
    degrees K = map (fun v => length (filter (fun s => (2 <=? length (verts s)) && existsb (Nat.eqb v) (verts s)) (by_index K))) vs.
Proof.
  intros K HR. destruct (degrees_correct K (reachable_kwf K HR)) as (vs & A & B & C).
  exists vs. split; auto. split; auto. intro v. rewrite B. unfold pos_containing.
  split; intros (s & H1 & H2); exists s; split; auto.
  - apply andb_true_iff in H2. rewrite Nat.leb_le, mem_In in H2. auto.
  - apply andb_true_iff. rewrite Nat.leb_le, mem_In. auto.
Qed.

(** They do not follow the vertices reported by [vertices()] as documented. *)
Theorem C51_isolated_vertex_refuted :
  exists K, reachable K /\ closed (by_index K) /\ length (degrees K) <> length (k_vertices K).
Proof.
  exists (mk [PushBack [0] 0; PushBack [1;2] 0; PushBack [1] 0; PushBack [2] 0]).
  split; [apply mk_reachable|]. split; [|vm_compute; discriminate].
  apply closed_check; [apply mk_reachable|]. vm_compute. reflexivity.
Qed.

Example C51_example : degrees full_triangle = [3;3;3].
Proof. reflexivity. Qed.

(** ** C52 *)
Theorem C52_n_degree : forall K l d, reachable K -> by_index K <> [] ->
  exists n, k_dimension K = Ok n /\
    n_degree K (simplex_of l d) =
    Ok (length (filter (fun t => (length (verts t) =? S n) &&
                                 forallb (fun v => existsb (Nat.eqb v) (verts t)) l) (by_index K))).
Proof.
  intros K l d HR Hne.
  destruct (n_degree_correct K (simplex_of l d) (reachable_kwf K HR) (simplex_of_wf l d) Hne) as (n & E & En).
  exists n. split; auto. rewrite En. do 2 f_equal. apply filter_ext. intro t. f_equal.
  apply eq_true_iff_eq. rewrite supersetb_spec, forallb_forall. split.
  - intros Hs v Hv. apply mem_In, Hs, simplex_of_In; auto.
  - intros Hs v Hv. apply mem_In, Hs. apply (simplex_of_In l d); auto.
Qed.

Example C52_example : n_degree full_triangle (simplex_of [0;1] 0) = Ok 1.
Proof. reflexivity. Qed.

Print Assumptions C03_views_consistent.
Print Assumptions C03_push_back.
Print Assumptions C03_replace.
Print Assumptions C03_sort_permutes.
Print Assumptions C04_missing_faces.
Print Assumptions C05_face_weights_refuted.
Print Assumptions C05_constant_data.
Print Assumptions C06_remove_open_star.
Print Assumptions C06_not_closed_refuted.
Print Assumptions C07_recalculate_maximum.
Print Assumptions C07_recalculate_minimum.
Print Assumptions C07_skip_one_dimensional.
Print Assumptions C07_recalculate_range.
Print Assumptions C08_comparisons_are_orderings.
Print Assumptions C08_default_order.
Print Assumptions C08_data_filtration.
Print Assumptions C08_data_filtration_descending.
Print Assumptions C08_lower_star.
Print Assumptions C08_upper_star.
Print Assumptions C09_boundary_matrix.
Print Assumptions C09_missing_faces_refuted.
Print Assumptions C42_skeleton.
Print Assumptions C42_filter.
Print Assumptions C42_threshold.
Print Assumptions C44_partition.
Print Assumptions C47_vertices_closed.
Print Assumptions C47_vertices_refuted.
Print Assumptions C51_degrees.
Print Assumptions C51_isolated_vertex_refuted.
Print Assumptions C52_n_degree.
Print Assumptions C54_equality.
Print Assumptions C09_maximum_index.
