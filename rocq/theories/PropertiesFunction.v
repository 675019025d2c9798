(** * Properties C20, C41 and C56: one-dimensional functions. *)
From Coq Require Import List Arith Bool ZArith Lia Permutation Sorted.
From Verif Require Import Base BaseFacts Matrix SpecMatrix ReductionFacts DualFacts RepFacts PairingFacts PropertiesMatrix
  HomologyFacts Simplex SimplexFacts SpecComplex Complex History Subcomplex SubcomplexFacts ComplexFacts FiltrationFacts UnionFind Function FunctionFacts Diagram.
Import ListNotations.

(** ** C41 *)
(** Index [i < n] stands for vertex [i] and index [n + k] for the edge between
    vertices [k] and [k + 1]; [ind] is the order of the filtration. *)
Theorem C41_load : forall values, values <> [] ->
  let n := length values in
  exists M vals ind, loadFunction empty_matrix values = Ok (M, vals) /\
    Permutation ind (seq 0 (2 * n - 1)) /\
    length (cols M) = 2 * n - 1 /\ length vals = 2 * n - 1 /\ dualized M = false /\
    StronglySorted Z.le vals /\
    (forall j i, i < n -> nth_error ind j = Some i ->
       nth_error (cols M) j = Some [] /\ nth_error (dims M) j = Some 0 /\ nth_error vals j = nth_error values i) /\
    (forall j k, S k < n -> nth_error ind j = Some (n + k) ->
       exists a b, nth_error ind a = Some k /\ nth_error ind b = Some (S k) /\ a < j /\ b < j /\
         nth_error (cols M) j = Some [Nat.min a b; Nat.max a b] /\ nth_error (dims M) j = Some 1 /\
         nth_error vals j = Some (Z.max (nth k values 0%Z) (nth (S k) values 0%Z))) /\
    valid_boundary (cols M) (dims M).
Proof.
  intros values Hne n. exists (Matrix (map (colf values) (ind values)) (map (dimf values) (ind values)) false),
    (map (weight_value values) (ind values)), (ind values).
  refine (conj (load_value values Hne) (conj (ind_perm values) _)). cbn [cols dims dualized].
  rewrite !map_length, ind_length. refine (conj eq_refl (conj eq_refl (conj eq_refl (conj _ (conj _ (conj _ _)))))).
  - pose proof (ind_sorted values) as H. induction H as [|x l Hl IH Hx]; simpl; constructor; auto.
    rewrite Forall_forall in *. intros y Hy. apply in_map_iff in Hy. destruct Hy as (i & <- & Hi). specialize (Hx i Hi).
    unfold later in Hx. lia.
  - intros j i Hi Hj. rewrite !nth_error_map, Hj. simpl. unfold colf, dimf.
    destruct (Nat.ltb_spec i (length values)); [|unfold n in *; lia]. repeat split.
    rewrite weight_vertex by auto. symmetry. apply nth_error_nth'; auto.
  - intros j k Hk Hj. exists (pos values k), (pos values (S k)).
    destruct (edge_after values k Hk) as [P1 P2]. fold n in P1, P2. rewrite (pos_unique values _ _ Hj) in P1, P2.
    assert (H1 : nth_error (ind values) (pos values k) = Some k) by (apply pos_spec; unfold n in *; lia).
    assert (H2 : nth_error (ind values) (pos values (S k)) = Some (S k)) by (apply pos_spec; unfold n in *; lia).
    refine (conj H1 (conj H2 (conj P1 (conj P2 _)))).
    rewrite !nth_error_map, Hj. simpl. unfold colf, dimf.
    destruct (Nat.ltb_spec (n + k) (length values)); [unfold n in *; lia|]. refine (conj _ (conj eq_refl _)).
    + fold n. replace (n + k - n) with k by lia. replace (k + 1) with (S k) by lia. simpl. f_equal.
      destruct (Nat.ltb_spec (pos values (S k)) (pos values k)).
      * rewrite Nat.min_r, Nat.max_l by lia. auto.
      * rewrite Nat.min_l, Nat.max_r by lia. auto.
    + f_equal. apply weight_edge; auto.
  - apply load_valid; auto.
Qed.

Theorem C41_no_values : forall M, loadFunction M [] = Throw RuntimeError.
Proof. reflexivity. Qed.

Example C41_example : loadFunction empty_matrix [2; 0; 2; 1]%Z =
  Ok (Matrix [[]; []; []; []; [0; 2]; [0; 3]; [1; 3]] [0; 0; 0; 0; 1; 1; 1] false, [0; 1; 2; 2; 2; 2; 2]%Z).
Proof. reflexivity. Qed.

(** Loading into a matrix that already holds another function can leave a vertex
    with the dimension of an edge: the columns of vertices are cleared, but
    their dimensions are not set. *)
Theorem C41_reused_matrix_refuted : exists first second M vals M' vals',
  loadFunction empty_matrix first = Ok (M, vals) /\
  loadFunction M second = Ok (M', vals') /\
  nth_error (cols M') 2 = Some [] /\ nth_error (dims M') 2 = Some 1 /\
  ~ valid_boundary (cols M') (dims M').
Proof.
  exists [1; 0]%Z, [0; 0; 0]%Z, (Matrix [[]; []; [0; 1]] [0; 0; 1] false), [0; 1; 1]%Z,
    (Matrix [[]; []; []; [0; 1]; [1; 2]] [0; 0; 1; 1; 1] false), [0; 0; 0; 0; 0]%Z.
  split; [vm_compute; reflexivity|]. split; [vm_compute; reflexivity|].
  refine (conj eq_refl (conj eq_refl _)).
  intros (_ & _ & H & _). destruct (H 4 2) as [_ H']; [reflexivity|discriminate].
Qed.

(** ** C20 *)
Lemma even_column values j : bigx (fun r => entry (map (colf values) (ind values)) r j) (seq 0 (2 * length values - 1)) = false.
Proof.
  set (c := nth j (map (colf values) (ind values)) []).
  assert (HN : NoDup c /\ (forall x, In x c -> In x (seq 0 (2 * length values - 1))) /\ bigx (fun _ => true) c = false).
  { unfold c. destruct (nth_error (ind values) j) as [i|] eqn:E.
    - pose proof (map_nth_error (colf values) _ _ E) as E'. rewrite (nth_error_nth _ _ [] E').
      assert (Hi : i < 2 * length values - 1) by (apply ind_In; eapply nth_error_In; eauto).
      unfold colf. destruct (Nat.ltb_spec i (length values)) as [H|H]; [repeat split; [constructor|easy]|].
      assert (P1 : nth_error (ind values) (pos values (i - length values)) = Some (i - length values)) by (apply pos_spec; lia).
      assert (P2 : nth_error (ind values) (pos values (i - length values + 1)) = Some (i - length values + 1)) by (apply pos_spec; lia).
      assert (Hd : pos values (i - length values) <> pos values (i - length values + 1)).
      { intro Heq. rewrite Heq, P2 in P1. injection P1 as P1. lia. }
      refine (conj _ (conj _ _)).
      + apply SSlt_NoDup, cpp_sort_strict. constructor; [|constructor; [easy|constructor]]. intros [?|[]]; congruence.
      + intros x Hx. apply cpp_sort_In in Hx. apply in_seq. apply nth_error_lt in P1, P2. rewrite ind_length in P1, P2.
        simpl in Hx. destruct Hx as [<-|[<-|[]]]; lia.
      + simpl. destruct (Nat.ltb _ _); reflexivity.
    - rewrite nth_overflow by (rewrite map_length; apply nth_error_None; auto). repeat split; [constructor|easy]. }
  destruct HN as (H1 & H2 & H3). rewrite (bigx_restrict (fun _ => true) c _ H1 H2 (seq_NoDup _ _)) in H3. exact H3.
Qed.

Lemma function_step_throw values p : (exists c, In (c, None) p) ->
  forall D, foldM (function_step values) p D = Throw OutOfRange.
Proof.
  induction p as [|[u [v|]] p IH]; intros [c Hc] D; [easy| |]; simpl; unfold function_step at 1, at_; cbn [fst snd].
  - destruct (nth_error values u); simpl; auto. destruct (nth_error values v); simpl; auto.
    apply IH. exists c. destruct Hc; [discriminate|auto].
  - destruct (nth_error values u); simpl; auto.
Qed.

(** Every function with two or more values makes the calculation fail. *)
Theorem C20_refuted : forall order a values, (forall l, Permutation (order l) l) -> 2 <= length values ->
  exists M vals, loadFunction empty_matrix values = Ok (M, vals) /\
    calculatePersistenceDiagram order a M vals = Throw OutOfRange.
Proof.
  intros order a values Ho Hl. assert (Hne : values <> []) by (intros ->; simpl in Hl; lia).
  set (C := map (colf values) (ind values)). set (d := map (dimf values) (ind values)).
  exists (Matrix C d false), (map (weight_value values) (ind values)).
  split; [apply load_value; auto|].
  pose proof (load_valid values) as HV. fold C d in HV.
  destruct (pairing_correct order a (Matrix C d false) false None Ho HV eq_refl) as (p & E & Hp).
  unfold calculatePersistenceDiagram. rewrite E. simpl.
  apply function_step_throw. exists 0. cbn [cols dims] in Hp. destruct Hp as (_ & _ & Hp). apply Hp. clear Hp E.
  assert (HL : length C = 2 * length values - 1) by (unfold C; rewrite map_length, ind_length; auto).
  assert (H0 : forall r, entry C r 0 = false).
  { intro r. destruct (entry C r 0) eqn:Er; auto. apply load_entry in Er. destruct Er as (k & Hk & Hj & _).
    destruct (edge_after values k Hk) as [P1 _]. rewrite (pos_unique values _ _ Hj) in P1. lia. }
  refine (conj _ (conj _ (conj _ (conj (or_intror _) _)))).
  - lia.
  - exists (fun _ => false). split; [|intro; auto]. exists []. split; [easy|]. intro r. rewrite H0. auto.
  - intros v Hv [(x & (S0 & HS & Hx) & Hx0 & Hlow) _].
    assert (Hsum : bigx x (seq 0 (2 * length values - 1)) = false).
    { rewrite (bigx_ext x (fun r => xorb (entry C r v) (sum_cols C S0 r))) by auto.
      rewrite bigx_linear. unfold C at 1. rewrite even_column.
      change (bigx (fun r => sum_cols C S0 r)) with (bigx (sum_cols C S0)).
      rewrite <- dsum_swap. unfold dsum. rewrite xorb_false_l. apply bigx_zero. intros k _. exact (even_column values k). }
    destruct (2 * length values - 1) as [|N] eqn:EN; [lia|]. cbn [seq] in Hsum. rewrite bigx_cons, Hx0 in Hsum.
    rewrite bigx_zero in Hsum; [discriminate|]. intros r Hr. apply in_seq in Hr. apply Hlow. lia.
  - assert (HD0 : nth 0 d 0 = 0).
    { unfold d. destruct (ind values) as [|i0 l] eqn:Ei; [auto|]. simpl. unfold dimf. destruct (Nat.ltb_spec i0 (length values)); auto.
      exfalso. assert (Hi : nth_error (ind values) 0 = Some i0) by (rewrite Ei; auto).
      assert (Hin : i0 < 2 * length values - 1) by (apply ind_In; eapply nth_error_In; eauto).
      destruct (edge_after values (i0 - length values)) as [P1 _]; [lia|].
      replace (length values + (i0 - length values)) with i0 in P1 by lia. rewrite (pos_unique _ _ _ Hi) in P1. lia. }
    rewrite HD0. assert (HN : length values < 2 * length values - 1) by lia.
    pose proof (pos_spec values _ HN) as Hp. pose proof (max_dim_ge d (pos values (length values))) as Hge.
    unfold d in Hge at 1. rewrite (dim_nth_load values _ _ Hp) in Hge. unfold dimf in Hge. rewrite Nat.ltb_irrefl in Hge. lia.
  - unfold ok_of. lia.
Qed.

(** For a function with one value, the diagram is empty. *)
Theorem C20_single_value : forall order a z, (forall l, Permutation (order l) l) ->
  exists M vals, loadFunction empty_matrix [z] = Ok (M, vals) /\
    calculatePersistenceDiagram order a M vals = Ok empty_diagram.
Proof.
  intros order a z Ho. exists (Matrix [[]] [0] false), [z]. split; [reflexivity|].
  assert (HV : valid_boundary [[]] [0]).
  { refine (conj eq_refl (conj _ (conj _ _))).
    - intros c [<-|[]]. constructor.
    - intros j r H. unfold entry in H. destruct j as [|[|j]]; discriminate.
    - intros [|[|j]] r; reflexivity. }
  destruct (pairing_correct order a (Matrix [[]] [0] false) false None Ho HV eq_refl) as (p & E & Hp).
  unfold calculatePersistenceDiagram. rewrite E. simpl. destruct Hp as (_ & H1 & H2). cbn [cols dims length] in *.
  destruct p as [|[u [v|]] p]; [reflexivity| |]; exfalso.
  - destruct (H1 u v) as [H _]. destruct H as (Hv & [(x & (S0 & HS & Hx) & Hx0 & _) _] & _); [simpl; auto|].
    assert (v = 0) by lia. subst v. rewrite Hx in Hx0.
    destruct S0 as [|k S0]; [discriminate|]. specialize (HS k). simpl in HS. assert (k < 0) by auto. lia.
  - destruct (H2 u) as [H _]. destruct H as (Hu & _ & _ & [H|H] & _); [simpl; auto|discriminate|].
    assert (u = 0) by lia. subst u. apply H. reflexivity.
Qed.

Example C20_example : forall a, calculatePersistenceDiagram (fun l => l) a
  (Matrix [[]; []; []; []; [0; 2]; [0; 3]; [1; 3]] [0; 0; 0; 0; 1; 1; 1] false) [0; 1; 2; 2; 2; 2; 2]%Z = Throw OutOfRange.
Proof. intros []; vm_compute; reflexivity. Qed.

(** ** C56: functions as complexes *)
Definition path_simplices (f : Z -> Z -> Z) (values : list Z) : list simplex :=
  map (fun i => Simplex [i] (nth i values 0%Z)) (seq 0 (length values)) ++
  map (fun k => Simplex [S k; k] (f (nth k values 0%Z) (nth (S k) values 0%Z))) (seq 0 (length values - 1)).

Lemma function_vertices_push v values K :
  function_vertices v values K = push_all K (map (fun i => Simplex [v + i] (nth i values 0%Z)) (seq 0 (length values))).
Proof.
  revert v K. induction values as [|x t IH]; intros v K; [reflexivity|].
  cbn [function_vertices length seq map]. unfold push_all. cbn [fold_left]. rewrite IH. unfold push_all, simplex_vertex.
  rewrite Nat.add_0_r. cbn [nth]. f_equal. rewrite <- seq_shift, map_map. apply map_ext. intro i.
  rewrite Nat.add_succ_r. reflexivity.
Qed.

Lemma function_edges_push f v values K :
  function_edges f v values K = push_all K (map (fun k => Simplex [S (v + k); v + k] (f (nth k values 0%Z) (nth (S k) values 0%Z))) (seq 0 (length values - 1))).
Proof.
  revert v K. induction values as [|a t IH]; intros v K; [reflexivity|]. destruct t as [|b t]; [reflexivity|].
  replace (length (a :: b :: t) - 1) with (S (length (b :: t) - 1)) by (simpl; lia).
  cbn [seq map]. unfold push_all. cbn [fold_left]. 
  change (function_edges f v (a :: b :: t) K) with (function_edges f (S v) (b :: t) (fst (k_push_back K (simplex_of [v; v + 1] (f a b))))).
  rewrite IH. unfold push_all. rewrite Nat.add_0_r.
  replace (simplex_of [v; v + 1] (f a b)) with (Simplex [S v; v] (f a b)).
  2:{ assert (Hw : wf (Simplex [S v; v] (f a b))) by (repeat constructor; unfold gt; lia).
      pose proof (wf_ext (simplex_of [v; v + 1] (f a b)) _ (simplex_of_wf _ _) Hw) as Hv.
      unfold simplex_of in *. cbn [verts] in *. rewrite Hv; auto.
      intro w. pose proof (simplex_of_In [v; v + 1] (f a b) w) as HI. unfold simplex_of in HI. cbn [verts] in HI. rewrite HI.
      simpl. replace (v + 1) with (S v) by lia. tauto. }
  f_equal. rewrite <- (seq_shift (length (b :: t) - 1) 0), map_map. apply map_ext. intro k.
  rewrite Nat.add_succ_r. reflexivity.
Qed.

Lemma path_good f values s : In s (path_simplices f values) -> good s.
Proof.
  intro H. apply in_app_or in H. destruct H as [H|H]; apply in_map_iff in H; destruct H as (i & <- & _); split; try discriminate.
  - repeat constructor.
  - repeat constructor.
Qed.

Lemma path_nodup f values : NoDup (map verts (path_simplices f values)).
Proof.
  unfold path_simplices. rewrite map_app, !map_map. cbn [verts]. apply NoDup_app_intro.
  - apply NoDup_map_inj_in; [|apply seq_NoDup]. congruence.
  - apply NoDup_map_inj_in; [|apply seq_NoDup]. congruence.
  - intros x H1 H2. apply in_map_iff in H1, H2. destruct H1 as (i & <- & _), H2 as (k & E & _). discriminate.
Qed.

Theorem C56_complex : forall f values,
  by_index (functionComplex f values) = path_simplices f values /\
  closed (by_index (functionComplex f values)) /\
  ((forall a b, a <= f a b /\ b <= f a b)%Z -> monotone (by_index (functionComplex f values))) /\
  reachable (functionComplex f values).
Proof.
  intros f values.
  assert (EK : functionComplex f values = push_all k_empty (path_simplices f values)).
  { unfold functionComplex. rewrite function_edges_push, function_vertices_push. unfold path_simplices, push_all.
    rewrite fold_left_app. reflexivity. }
  assert (E : by_index (functionComplex f values) = path_simplices f values).
  { rewrite EK. apply (push_all_new _ k_empty); [apply empty_kwf|apply path_good|apply path_nodup]. }
  split; auto. rewrite E. split; [|split].
  - intros s vs Hs Hvs Hsub. apply in_app_or in Hs. destruct Hs as [Hs|Hs]; apply in_map_iff in Hs; destruct Hs as (i & <- & Hi); cbn [verts] in Hsub; apply in_seq in Hi.
    + exists (Simplex [i] (nth i values 0%Z)). split; [apply in_or_app; left; apply in_map_iff; exists i; split; auto; apply in_seq; lia|].
      intro v. cbn [verts]. split; [|apply Hsub]. intros [<-|[]]. destruct vs as [|w vs]; [easy|].
      destruct (Hsub w) as [->|[]]; simpl; auto.
    + assert (Hv : forall j, j < length values -> In (Simplex [j] (nth j values 0%Z)) (path_simplices f values)).
      { intros j Hj. apply in_or_app; left. apply in_map_iff. exists j. split; auto. apply in_seq. lia. }
      destruct (in_dec Nat.eq_dec i vs) as [H1|H1], (in_dec Nat.eq_dec (S i) vs) as [H2|H2].
      * exists (Simplex [S i; i] (f (nth i values 0%Z) (nth (S i) values 0%Z))). split.
        -- apply in_or_app; right. apply in_map_iff. exists i. split; auto. apply in_seq. lia.
        -- intro v. cbn [verts]. split; [|apply Hsub]. intros [<-|[<-|[]]]; auto.
      * exists (Simplex [i] (nth i values 0%Z)). split; [apply Hv; lia|]. intro v. cbn [verts]. split.
        -- intros [<-|[]]; auto.
        -- intro Hin. destruct (Hsub v Hin) as [<-|[<-|[]]]; simpl; auto; contradiction.
      * exists (Simplex [S i] (nth (S i) values 0%Z)). split; [apply Hv; lia|]. intro v. cbn [verts]. split.
        -- intros [<-|[]]; auto.
        -- intro Hin. destruct (Hsub v Hin) as [<-|[<-|[]]]; simpl; auto; contradiction.
      * exfalso. destruct vs as [|w vs]; [easy|]. destruct (Hsub w) as [<-|[<-|[]]]; simpl in *; auto.
  - intros Hf s t Hs Ht Hsub. apply in_app_or in Hs, Ht.
    destruct Hs as [Hs|Hs], Ht as [Ht|Ht]; apply in_map_iff in Hs, Ht; destruct Hs as (i & <- & Hi), Ht as (j & <- & Hj);
      cbn [verts data] in *; unfold subset in Hsub.
    + destruct (Hsub j) as [->|[]]; simpl; auto. lia.
    + exfalso. destruct (Hsub j) as [E1|[]]; simpl; auto. destruct (Hsub (S j)) as [E2|[]]; simpl; auto. lia.
    + destruct (Hsub j) as [<-|[<-|[]]]; simpl; auto; apply Hf.
    + destruct (Hsub j) as [E1|[E1|[]]]; simpl; auto; destruct (Hsub (S j)) as [E2|[E2|[]]]; simpl; auto; try lia.
      subst j. lia.
  - exists 0%Z, 0%Z, (map (fun s => PushBack (verts s) (data s)) (path_simplices f values)).
    rewrite EK. unfold k_run. 
    assert (G : forall l K, (forall s, In s l -> wf s) -> push_all K l =
      fold_left (fun K o => fst (k_exec 0 0 K o)) (map (fun s => PushBack (verts s) (data s)) l) K).
    { induction l as [|s l IH]; intros K Hl; [reflexivity|]. unfold push_all. cbn [fold_left map]. fold (push_all (fst (k_push_back K s)) l).
      rewrite IH by (intros; apply Hl; simpl; auto). f_equal. cbn [k_exec]. f_equal. f_equal.
      assert (Hw : wf s) by (apply Hl; simpl; auto). pose proof (simplex_of_id s (data s) Hw) as Hv.
      destruct s as [vs d]. unfold simplex_of in *. cbn [verts data] in *. rewrite Hv. auto. }
    apply G. intros s Hs. apply (path_good f values s Hs).
Qed.

Example C56_example : by_index (functionComplex Z.max [3; 1; 2]%Z) =
  [Simplex [0] 3%Z; Simplex [1] 1%Z; Simplex [2] 2%Z; Simplex [1; 0] 3%Z; Simplex [2; 1] 2%Z].
Proof. reflexivity. Qed.

Print Assumptions C41_load.
Print Assumptions C41_no_values.
Print Assumptions C41_reused_matrix_refuted.
Print Assumptions C20_refuted.
Print Assumptions C20_single_value.
Print Assumptions C56_complex.
