(** * Cover trees: insertion, checks, and the harmonic property.

    The specification ([within], [level_invariant], [covering_invariant], [separating_invariant],
    [cover_tree]) is at the beginning of [CoverTreeFacts.v]. *)
From Coq Require Import List Arith Bool ZArith QArith Qround Lia Lqa Permutation Qpower Sorted.
From Verif Require Import Base BaseFacts ReductionFacts CoverTree CoverTreeFacts FloydFacts.
Import ListNotations.
Local Open Scope nat_scope.

Section Layers.
  Context {P : Type}.
  Variable dist : P -> P -> Q.
  Fixpoint n_nodes (n : node P) : list (node P) := let '(Node p l cs) := n in Node p l cs :: flat_map n_nodes cs.
  Lemma nodes_within (n x : node P) : In x (n_nodes n) <-> within n x.
  Proof.
    revert x. induction n as [p l cs IH] using (@node_ind' P). intro x. cbn [n_nodes]. rewrite within_inv. cbn [In]. rewrite in_flat_map. split.
    - intros [<-|(c & H1 & H2)]; [auto|]. right. exists c. split; [exact H1|apply IH; assumption].
    - intros [->|(c & H1 & H2)]; [auto|]. right. exists c. split; [exact H1|apply IH; assumption].
  Qed.
  Lemma nodes_points (n : node P) : map n_point (n_nodes n) = n_points n.
  Proof.
    induction n as [p l cs IH] using (@node_ind' P). cbn [n_nodes n_points map n_point]. f_equal. induction cs as [|c cs IHcs]; [reflexivity|]. cbn [flat_map]. rewrite map_app. f_equal; [apply IH; simpl; auto|apply IHcs; intros; apply IH; simpl; auto].
  Qed.
  Definition sizes (queue : list (node P)) : nat := list_sum (map n_size queue).
  Lemma sizes_app a b : sizes (a ++ b) = sizes a + sizes b.
  Proof. unfold sizes. rewrite map_app. apply list_sum_app. Qed.
  Lemma sizes_children queue : sizes queue = length queue + sizes (flat_map n_children queue).
  Proof.
    induction queue as [|n queue IH]; [reflexivity|]. cbn [flat_map]. rewrite sizes_app. change (sizes (n :: queue)) with (n_size n + sizes queue). rewrite IH. destruct n as [p l cs]. cbn [n_size n_children length]. unfold sizes. lia.
  Qed.
  Lemma nodes_children (queue : list (node P)) : Permutation (flat_map n_nodes queue) (queue ++ flat_map n_nodes (flat_map n_children queue)).
  Proof.
    induction queue as [|n queue IH]; [constructor|]. cbn [flat_map app]. destruct n as [p l cs]. cbn [n_nodes n_children app]. constructor. rewrite flat_map_app, IH, !app_assoc. apply Permutation_app_tail. apply Permutation_app_comm.
  Qed.
  Lemma layers_ok fuel : forall queue, sizes queue <= fuel -> exists ls, layers fuel queue = Ok ls /\ Permutation (concat ls) (flat_map n_nodes queue) /\
    forall level, check_levels level ls = true <-> (forall q, In q queue -> n_level q = (level - 1)%Z /\ level_invariant q).
  Proof.
    induction fuel as [|fuel IH]; intros queue Hf.
    - destruct queue as [|n queue]; [|exfalso; change (sizes (n :: queue)) with (n_size n + sizes queue) in Hf; destruct n; cbn [n_size] in Hf; lia].
      exists []. refine (conj eq_refl (conj (Permutation_refl _) _)). intro level. split; [intros _ q []|reflexivity].
    - destruct queue as [|n queue]; [exists []; refine (conj eq_refl (conj (Permutation_refl _) _)); intro level; split; [intros _ q []|reflexivity]|].
      destruct (IH (flat_map n_children (n :: queue))) as (ls & E & Hp & Hc); [pose proof (sizes_children (n :: queue)) as X; cbn [length] in X; lia|].
      cbn [layers]. rewrite E. cbn [bind]. eexists. refine (conj eq_refl (conj _ _)); [cbn [concat]; rewrite Hp; symmetry; apply nodes_children|].
      intro level. cbn [check_levels]. rewrite andb_true_iff, forallb_forall, (Hc (level - 1)%Z). split.
      + intros [H1 H2] q Hq. specialize (H1 q Hq). apply Z.eqb_eq in H1. split; [exact H1|]. intros m c Hm Hin. inversion Hm as [|? d ? Hd Hdm]; subst.
        * destruct (H2 c) as [H3 _]; [apply in_flat_map; exists m; auto|]. lia.
        * destruct (H2 d) as [_ H3]; [apply in_flat_map; exists q; auto|]. apply (H3 m c Hdm Hin).
      + intro H. split; [intros q Hq; apply Z.eqb_eq; apply (H q Hq)|]. intros c Hc'. apply in_flat_map in Hc'. destruct Hc' as (q & Hq & Hin). destruct (H q Hq) as [H1 H2]. split.
        * rewrite (H2 q c (within_root q) Hin). lia.
        * intros m d Hm. apply H2. apply (within_child _ c); assumption.
  Qed.
  Lemma ct_layers_ok n : exists ls, ct_layers (Some n) = Ok ls /\ Permutation (concat ls) (n_nodes n) /\ (forall x, In x (concat ls) <-> within n x) /\
    forall level, check_levels level ls = true <-> n_level n = (level - 1)%Z /\ level_invariant n.
  Proof.
    cbn [ct_layers]. destruct (layers_ok (n_size n) [n]) as (ls & E & Hp & Hc); [change (sizes [n]) with (n_size n + 0); lia|]. cbn [flat_map] in Hp. rewrite app_nil_r in Hp. exists ls. refine (conj E (conj Hp (conj _ _))).
    - intro x. rewrite <- nodes_within. split; apply Permutation_in; [|symmetry]; exact Hp.
    - intro level. rewrite Hc. split; [intro H; apply H; simpl; auto|]. intros H q [<-|[]]. exact H.
  Qed.
  Lemma separated_iff n cs : separated dist n cs = true <-> forall i j a b, i < j -> nth_error cs i = Some a -> nth_error cs j = Some b -> (2 ^ (n_level n - 1) < dist (n_point a) (n_point b))%Q.
  Proof.
    induction cs as [|c cs IH]; cbn [separated].
    - split; [intros _ i j a b _ Ha; destruct i; discriminate|reflexivity].
    - rewrite andb_true_iff, forallb_forall, IH. split.
      + intros [H1 H2] i j a b Hij Ha Hb. destruct j as [|j]; [lia|]. cbn [nth_error] in Hb. destruct i as [|i]; cbn [nth_error] in Ha; [|apply (H2 i j); auto; lia].
        injection Ha as <-. apply nth_error_In in Hb. specialize (H1 b Hb). rewrite negb_true_iff in H1. apply Qle_false in H1. exact H1.
      + intro H. split; [|intros i j a b Hij Ha Hb; apply (H (S i) (S j)); auto; lia]. intros d Hd. apply In_nth_error in Hd. destruct Hd as [k Hk]. rewrite negb_true_iff. apply Qle_false. apply (H 0 (S k)); auto; lia.
  Qed.

  Lemma multimap_perm q (m : list (Z * P)) : Permutation (multimap_insert q m) (q :: m).
  Proof. induction m as [|r m IH]; cbn [multimap_insert]; [reflexivity|]. destruct (fst q <? fst r)%Z; [reflexivity|]. rewrite IH. apply perm_swap. Qed.
  Lemma multimap_sorted q (m : list (Z * P)) : StronglySorted (fun a b => (fst a <= fst b)%Z) m -> StronglySorted (fun a b => (fst a <= fst b)%Z) (multimap_insert q m).
  Proof.
    induction 1 as [|r m HS IH HF]; cbn [multimap_insert]; [constructor; constructor|]. destruct (Z.ltb_spec (fst q) (fst r)).
    - constructor; [constructor; assumption|]. constructor; [lia|]. eapply Forall_impl; [|exact HF]. intros; cbn in *; lia.
    - constructor; [exact IH|]. apply (Permutation_Forall (Permutation_sym (multimap_perm q m))). constructor; [lia|exact HF].
  Qed.
End Layers.

Lemma insert_range_ok P (dist : P -> P -> Q) :
  (forall x y, dist x y == dist y x)%Q -> (forall x y z, dist x z <= dist x y + dist y z)%Q -> (forall x, dist x x == 0)%Q ->
  forall l n, cover_tree dist n -> exists n', ct_insert_range dist (Some n) l = Ok (Some n') /\ cover_tree dist n' /\ Permutation (n_points n') (l ++ n_points n).
Proof.
  intros Hsym Htri Hself. unfold ct_insert_range. induction l as [|p l IH]; intros n Hc; cbn [foldM]; [exists n; auto|]. cbn [ct_insert]. destruct (node_insert_ok dist Hsym Htri Hself p n) as (n1 & -> & H1 & H2). cbn [bind].
  destruct (IH n1 (H2 Hc)) as (n' & E & A1 & A2). exists n'. refine (conj E (conj A1 _)). rewrite A2, H1. symmetry. apply Permutation_middle.
Qed.
Lemma leaf_cover P (dist : P -> P -> Q) p l : cover_tree dist (Node p l []).
Proof. apply cover_tree_node. split; [split; [intros c []|]|intros c []]. intros i j a b _ Ha. destruct i; discriminate. Qed.

(** ** Insertion *)
Theorem C92_insert : forall P (dist : P -> P -> Q) points,
  (forall x y, dist x y == dist y x)%Q -> (forall x y z, dist x z <= dist x y + dist y z)%Q -> (forall x, dist x x == 0)%Q -> points <> [] ->
  exists n ps, ct_insert_range dist None points = Ok (Some n) /\ ct_points (Some n) = Ok ps /\ Permutation ps points /\
    cover_tree dist n /\ ct_isValid dist (Some n) = Ok true /\
    forall m, within n m -> (dist (n_point n) (n_point m) <= 2 ^ (n_level n + 1))%Q.
Proof.
  intros P dist points Hsym Htri Hself Hne.
  pose proof (insert_range_ok P dist Hsym Htri Hself) as G.
  destruct points as [|p points]; [contradiction|]. unfold ct_insert_range. cbn [foldM ct_insert bind].
  destruct (G points (Node p 0 []) (leaf_cover P dist p 0)) as (n & E & A1 & A2). fold (ct_insert_range dist (Some (Node p 0 [])) points). rewrite E.
  destruct (ct_layers_ok n) as (ls & El & Hp & Hin & Hc). exists n, (map n_point (concat ls)). refine (conj eq_refl (conj _ (conj _ (conj A1 (conj _ _))))).
  - unfold ct_points. rewrite El. reflexivity.
  - rewrite Hp, nodes_points, A2. cbn [n_points flat_map]. symmetry. apply Permutation_cons_append.
  - destruct A1 as (B1 & B2 & B3). unfold ct_isValid, checkLevelInvariant, checkCoveringInvariant, checkSeparatingInvariant. rewrite El. cbn [bind ct_level].
    rewrite (proj2 (Hc (n_level n + 1)%Z)) by (split; [lia|exact B1]).
    assert (X1 : forallb (fun n0 => forallb (fun c => Qle_bool (dist (n_point n0) (n_point c)) (coveringDistance n0)) (n_children n0)) (concat ls) = true).
    { apply forallb_forall. intros m Hm. apply forallb_forall. intros c Hcm. apply Qle_bool_iff. apply B2; [apply Hin; exact Hm|exact Hcm]. }
    rewrite X1. f_equal. apply forallb_forall. intros m Hm. apply separated_iff. intros i j a b. apply B3. apply Hin. exact Hm.
  - apply tree_radius; assumption.
Qed.

(** ** Checks *)
Theorem C92_checks : forall P (dist : P -> P -> Q) (n : node P), exists a b c v,
  checkLevelInvariant (Some n) = Ok a /\ checkCoveringInvariant dist (Some n) = Ok b /\ checkSeparatingInvariant dist (Some n) = Ok c /\ ct_isValid dist (Some n) = Ok v /\
  (a = true <-> level_invariant n) /\ (b = true <-> covering_invariant dist n) /\ (c = true <-> separating_invariant dist n) /\ (v = true <-> cover_tree dist n).
Proof.
  intros P dist n. destruct (ct_layers_ok n) as (ls & El & Hp & Hin & Hc).
  unfold ct_isValid, checkLevelInvariant, checkCoveringInvariant, checkSeparatingInvariant. rewrite El. cbn [bind].
  assert (A : check_levels (ct_level (Some n) + 1) ls = true <-> level_invariant n) by (rewrite Hc; cbn [ct_level]; split; [tauto|]; intro H; split; [lia|exact H]).
  assert (B : forallb (fun n0 => forallb (fun c => Qle_bool (dist (n_point n0) (n_point c)) (coveringDistance n0)) (n_children n0)) (concat ls) = true <-> covering_invariant dist n).
  { rewrite forallb_forall. split.
    - intros H m c Hm Hcm. apply Hin in Hm. specialize (H m Hm). rewrite forallb_forall in H. specialize (H c Hcm). apply Qle_bool_iff in H. exact H.
    - intros H m Hm. apply forallb_forall. intros c Hcm. apply Qle_bool_iff. apply H; [apply Hin; exact Hm|exact Hcm]. }
  assert (C : forallb (fun n0 => separated dist n0 (n_children n0)) (concat ls) = true <-> separating_invariant dist n).
  { rewrite forallb_forall. split.
    - intros H m i j a b Hm. apply Hin in Hm. specialize (H m Hm). exact (proj1 (separated_iff dist m (n_children m)) H i j a b).
    - intros H m Hm. apply separated_iff. intros i j a b. apply H. apply Hin. exact Hm. }
  do 4 eexists. refine (conj eq_refl (conj eq_refl (conj eq_refl (conj _ (conj A (conj B (conj C _))))))).
  - instantiate (1 := check_levels (ct_level (Some n) + 1) ls && (forallb (fun n0 => forallb (fun c => Qle_bool (dist (n_point n0) (n_point c)) (coveringDistance n0)) (n_children n0)) (concat ls) && forallb (fun n0 => separated dist n0 (n_children n0)) (concat ls))).
    destruct (check_levels (ct_level (Some n) + 1) ls); [|reflexivity]. cbn [andb]. destruct (forallb _ (concat ls)); reflexivity.
  - rewrite !andb_true_iff, A, B, C. reflexivity.
Qed.

Theorem C92_levels : forall P (n : node P), exists m ps, getNodesByLevel (Some n) = Ok m /\ ct_points (Some n) = Ok ps /\
  StronglySorted (fun a b => (fst a <= fst b)%Z) m /\ Permutation (map snd m) ps /\
  forall q, In q m <-> exists x, within n x /\ q = (n_level x, n_point x).
Proof.
  intros P n. destruct (ct_layers_ok n) as (ls & El & Hp & Hin & Hc). unfold getNodesByLevel, ct_points. rewrite El. cbn [bind].
  assert (G : forall (l : list (node P)) (m : list (Z * P)), StronglySorted (fun a b => (fst a <= fst b)%Z) m -> let m' := fold_left (fun m n => multimap_insert (n_level n, n_point n) m) l m in
    StronglySorted (fun a b => (fst a <= fst b)%Z) m' /\ Permutation m' (map (fun n => (n_level n, n_point n)) l ++ m)).
  { induction l as [|x l IH]; intros m Hm; cbn [fold_left map app]; [auto|]. destruct (IH _ (multimap_sorted (n_level x, n_point x) m Hm)) as [I1 I2]. split; [exact I1|]. rewrite I2, multimap_perm. symmetry. apply Permutation_middle. }
  destruct (G (concat ls) [] (SSorted_nil _)) as [G1 G2]. rewrite app_nil_r in G2. do 2 eexists. refine (conj eq_refl (conj eq_refl (conj G1 (conj _ _)))).
  - rewrite G2, map_map. reflexivity.
  - intro q. split.
    + intro H. apply (Permutation_in _ G2) in H. apply in_map_iff in H. destruct H as (x & <- & Hx). exists x. split; [apply Hin; exact Hx|reflexivity].
    + intros (x & Hx & ->). apply (Permutation_in _ (Permutation_sym G2)). apply in_map_iff. exists x. split; [reflexivity|apply Hin; exact Hx].
Qed.

(** *** An example: the test of the project *)
Definition zdist (x y : Z) : Q := inject_Z (Z.abs (x - y)).
Lemma zdist_sym x y : (zdist x y == zdist y x)%Q.
Proof. unfold zdist. replace (Z.abs (y - x)) with (Z.abs (x - y)) by lia. reflexivity. Qed.
Lemma zdist_tri x y z : (zdist x z <= zdist x y + zdist y z)%Q.
Proof. unfold zdist. rewrite <- inject_Z_plus, <- Zle_Qle. lia. Qed.
Lemma zdist_self x : (zdist x x == 0)%Q.
Proof. unfold zdist. rewrite Z.sub_diag. reflexivity. Qed.
Example C92_example : exists t, ct_insert_range zdist None [7; 13; 10; 8; 9; 11; 12]%Z = Ok t /\
  getNodesByLevel t = Ok [(-1, 9); (0, 8); (0, 11); (1, 10); (2, 7); (2, 12); (3, 13)]%Z /\ ct_points t = Ok [13; 7; 12; 10; 8; 11; 9]%Z.
Proof. eexists. split; [vm_compute; reflexivity|]. vm_compute. auto. Qed.

(** Without the triangle inequality the covering invariant can be violated *)
Definition crooked (x y : Z) : Q :=
  if (x =? y)%Z then 0%Q else
  match Z.min x y, Z.max x y with
  | 0%Z, 1%Z => 2%Q | 1%Z, 2%Z => 4%Q | 2%Z, 3%Z => 100%Q | 0%Z, 2%Z => 50%Q | 0%Z, 3%Z => 10%Q | _, _ => 1%Q
  end.
Theorem C92_triangle_refuted : exists (dist : Z -> Z -> Q) points t, (forall x y, dist x y == dist y x)%Q /\ (forall x, dist x x == 0)%Q /\
  ct_insert_range dist None points = Ok t /\ ct_isValid dist t = Ok false.
Proof.
  exists crooked, [0; 1; 2; 3]%Z. eexists. refine (conj _ (conj _ (conj _ _))).
  - intros x y. unfold crooked. rewrite (Z.eqb_sym y x), (Z.min_comm y x), (Z.max_comm y x). reflexivity.
  - intro x. unfold crooked. rewrite Z.eqb_refl. reflexivity.
  - vm_compute. reflexivity.
  - vm_compute. reflexivity.
Qed.
(** The empty tree: a null pointer is dereferenced *)
Theorem C92_empty_refuted : forall P (dist : P -> P -> Q),
  @ct_points P None = UB /\ @getNodesByLevel P None = UB /\ ct_isValid dist None = UB.
Proof. intros. repeat split. Qed.

(** ** The harmonic property *)
Section Harmonic.
  Context {P : Type}.
  Variable dist : P -> P -> Q.
  Variable p : P.
  (** Specification: the nodes on the way down, always to the first child that covers the point *)
  Inductive chain : node P -> list (node P) -> Prop :=
  | chain_end n : (forall c, In c (n_children n) -> (2 ^ n_level c < dist p (n_point c))%Q) -> chain n [n]
  | chain_step n i c l : nth_error (n_children n) i = Some c -> (dist p (n_point c) <= 2 ^ n_level c)%Q ->
      (forall k d, k < i -> nth_error (n_children n) k = Some d -> (2 ^ n_level d < dist p (n_point d))%Q) -> chain c l -> chain n (n :: l).
  Definition covers (n : node P) : bool := Qle_bool (dist p (n_point n)) (2 ^ n_level n).

  Lemma chain_within n l : chain n l -> forall x, In x l -> within n x.
  Proof. induction 1 as [n H|n i c l H1 H2 H3 H4 IH]; intros x Hx; destruct Hx as [<-|Hx]; try constructor; [destruct Hx|]. apply (within_child _ c); [eapply nth_error_In; eauto|apply IH; exact Hx]. Qed.
  Lemma harmonic_path_ok n : exists l, chain n l /\ harmonic_path dist p n = (map (fun x => dist p (n_point x)) (filter covers l), last l n) /\ forall d, last l d = last l n.
  Proof.
    induction n as [q lv cs IH] using (@node_ind' P).
    set (go := fix go (cs' : list (node P)) : list Q * node P := match cs' with
      | [] => ([], Node q lv cs)
      | c :: cs' => if Qle_bool (dist p (n_point c)) (coveringDistance c) then harmonic_path dist p c else go cs'
      end).
    assert (E : harmonic_path dist p (Node q lv cs) = let '(ds, last) := go cs in ((if Qle_bool (dist p q) (coveringDistance (Node q lv cs)) then [dist p q] else []) ++ ds, last)) by reflexivity.
    assert (G : forall cs', (forall c, In c cs' -> In c cs) ->
      ((forall c, In c cs' -> (2 ^ n_level c < dist p (n_point c))%Q) /\ go cs' = ([], Node q lv cs)) \/
      (exists i c l, nth_error cs' i = Some c /\ (dist p (n_point c) <= 2 ^ n_level c)%Q /\ (forall k d, k < i -> nth_error cs' k = Some d -> (2 ^ n_level d < dist p (n_point d))%Q) /\
        chain c l /\ go cs' = (map (fun x => dist p (n_point x)) (filter covers l), last l c) /\ (forall d, last l d = last l c))).
    { induction cs' as [|c cs' IHcs]; intro Hin; cbn [go]; [left; split; [intros c []|reflexivity]|]. destruct (Qle_bool (dist p (n_point c)) (coveringDistance c)) eqn:Ec.
      - right. destruct (IH c (Hin c (or_introl eq_refl))) as (l & H1 & H2 & H3). exists 0, c, l. refine (conj eq_refl (conj _ (conj _ (conj H1 (conj H2 H3))))); [apply Qle_bool_iff in Ec; exact Ec|intros; lia].
      - apply Qle_false in Ec. destruct IHcs as [[H1 H2]|(i & d & l & H1 & H2 & H3 & H4 & H5 & H6)]; [intros; apply Hin; simpl; auto| |].
        + left. split; [|exact H2]. intros x [<-|Hx]; [exact Ec|apply H1; exact Hx].
        + right. exists (S i), d, l. refine (conj H1 (conj H2 (conj _ (conj H4 (conj H5 H6))))). intros k x Hk Hx. destruct k as [|k]; [injection Hx as <-; exact Ec|apply (H3 k); [lia|exact Hx]]. }
    rewrite E. destruct (G cs (fun c H => H)) as [[H1 H2]|(i & c & l & H1 & H2 & H3 & H4 & H5 & H6)].
    - rewrite H2. exists [Node q lv cs]. refine (conj (chain_end (Node q lv cs) H1) (conj _ (fun d => eq_refl))). cbn [filter]. unfold covers at 1. cbn [n_point n_level]. unfold coveringDistance, coveringDistance_at. cbn [n_level]. destruct (Qle_bool (dist p q) (2 ^ lv)); reflexivity.
    - rewrite H5. assert (Hl : l <> []) by (intros ->; inversion H4). exists (Node q lv cs :: l). refine (conj (chain_step (Node q lv cs) i c l H1 H2 H3 H4) (conj _ _)).
      + cbn [filter]. unfold covers at 2. cbn [n_point n_level]. unfold coveringDistance, coveringDistance_at. cbn [n_level]. f_equal; [destruct (Qle_bool (dist p q) (2 ^ lv)); reflexivity|]. destruct l as [|x l]; [contradiction|]. change (last (x :: l) c = last (x :: l) (Node q lv cs)). symmetry. apply H6.
      + intro d. destruct l as [|x l]; [contradiction|]. change (last (x :: l) d = last (x :: l) (Node q lv cs)). rewrite (H6 d), (H6 (Node q lv cs)). reflexivity.
  Qed.
End Harmonic.

Lemma SS_snoc {A} (R : A -> A -> Prop) l a : StronglySorted R (l ++ [a]) <-> StronglySorted R l /\ Forall (fun x => R x a) l.
Proof.
  induction l as [|x l IH]; cbn [app].
  - split; [intros _; split; constructor|intros _; constructor; constructor].
  - split.
    + intro H. inversion H as [|? ? H1 H2]; subst. apply IH in H1. destruct H1 as [H1 H3]. apply Forall_app in H2. destruct H2 as [H2 H4]. inversion H4; subst. split; constructor; auto.
    + intros [H1 H2]. inversion H1 as [|? ? H3 H4]; subst. inversion H2; subst. constructor; [apply IH; auto|]. apply Forall_app. auto.
Qed.
Lemma Forall_rev_iff {A} (Q : A -> Prop) l : Forall Q (rev l) <-> Forall Q l.
Proof. rewrite !Forall_forall. split; intros H x Hx; apply H; [rewrite <- in_rev|rewrite in_rev]; exact Hx. Qed.
Lemma is_sorted_iff l : is_sorted_le (rev l) = true <-> StronglySorted (fun a b => b < a)%Q l.
Proof.
  assert (A : forall l, is_sorted_le l = true <-> StronglySorted Qlt l).
  { clear l. induction l as [|a l IH]; [split; [constructor|reflexivity]|]. destruct l as [|b l]; [split; [constructor; constructor|reflexivity]|].
    cbn [is_sorted_le]. rewrite andb_true_iff, negb_true_iff, Qle_false. rewrite IH. split.
    - intros [H1 H2]. constructor; [exact H2|]. inversion H2 as [|? ? H3 H4]; subst. constructor; [exact H1|]. eapply Forall_impl; [|exact H4]. intros x Hx. cbn beta. lra.
    - intro H. inversion H as [|? ? H1 H2]; subst. inversion H2; subst. auto. }
  rewrite A. induction l as [|a l IH]; cbn [rev]; [split; constructor|]. rewrite SS_snoc, IH, (Forall_rev_iff). split.
  - intros [H1 H2]. constructor; assumption.
  - intro H. inversion H; auto.
Qed.

Lemma lower_level_ok d : (0 < d)%Q -> forall l, exists N l', forall fuel, N <= fuel -> lower_level fuel d l = Ok l'.
Proof.
  intros Hd l.
  assert (G : forall k l, (2 ^ (l - Z.of_nat k) < d)%Q -> exists l', forall fuel, k <= fuel -> lower_level fuel d l = Ok l').
  { induction k as [|k IH]; intros l0 Hl.
    - exists l0. intros fuel _. replace (l0 - Z.of_nat 0)%Z with l0 in Hl by lia. destruct fuel; cbn [lower_level]; rewrite (proj2 (Qle_false d _)) by exact Hl; reflexivity.
    - destruct (IH (l0 - 1)%Z) as [l' Hl']; [replace (l0 - 1 - Z.of_nat k)%Z with (l0 - Z.of_nat (S k))%Z by lia; exact Hl|].
      destruct (Qle_bool d (coveringDistance_at l0)) eqn:E.
      + exists l'. intros [|fuel] Hf; [lia|]. cbn [lower_level]. rewrite E. apply Hl'. lia.
      + exists l0. intros fuel _. destruct fuel; cbn [lower_level]; rewrite E; reflexivity. }
  set (k := S (Z.to_nat (Qceiling (2 ^ l / d)))). exists k. apply G.
  assert (H1 : (2 ^ l / d <= inject_Z (Z.of_nat (Z.to_nat (Qceiling (2 ^ l / d)))))%Q) by (apply Qle_trans with (inject_Z (Qceiling (2 ^ l / d))); [apply Qle_ceiling|rewrite <- Zle_Qle; lia]).
  pose proof (pow_ge_nat k) as H2. assert (H3 : (2 ^ l / d < 2 ^ Z.of_nat k)%Q).
  { eapply Qlt_le_trans; [|exact H2]. eapply Qle_lt_trans; [exact H1|]. unfold k. rewrite <- Zlt_Qlt. lia. }
  pose proof (pow_pos l) as Hl. pose proof (pow_pos (Z.of_nat k)) as Hk.
  assert (E : (2 ^ (l - Z.of_nat k) == 2 ^ l * / 2 ^ Z.of_nat k)%Q) by (unfold Z.sub; rewrite Qpower_plus by lra; rewrite Qpower_opp; reflexivity). rewrite E.
  apply (Qmult_lt_r _ _ (2 ^ Z.of_nat k)); [exact Hk|]. setoid_replace (2 ^ l * / 2 ^ Z.of_nat k * 2 ^ Z.of_nat k)%Q with (2 ^ l)%Q by (field; lra).
  apply (Qmult_lt_r _ _ d) in H3; [|exact Hd]. setoid_replace (2 ^ l / d * d)%Q with (2 ^ l)%Q in H3 by (field; lra). lra.
Qed.
Lemma max_element_ge ds d : In d ds -> (d <= max_element ds)%Q.
Proof.
  unfold max_element. destruct ds as [|a ds]; [intros []|]. cbn [hd tl].
  assert (G : forall l a, (a <= fold_left (fun a b => if Qle_bool b a then a else b) l a)%Q /\ forall x, In x l -> (x <= fold_left (fun a b => if Qle_bool b a then a else b) l a)%Q).
  { induction l as [|b l IH]; intro c; cbn [fold_left]; [split; [lra|intros x []]|]. destruct (Qle_bool b c) eqn:E; [apply Qle_bool_iff in E|apply Qle_false in E].
    - destruct (IH c) as [I1 I2]. split; [exact I1|]. intros x [<-|Hx]; [lra|apply I2; exact Hx].
    - destruct (IH b) as [I1 I2]. split; [lra|]. intros x [<-|Hx]; [exact I1|apply I2; exact Hx]. }
  destruct (G ds a) as [G1 G2]. intros [<-|H]; [exact G1|apply G2; exact H].
Qed.


Lemma NoDup_app_parts {A} (l m : list A) : NoDup (l ++ m) -> NoDup l /\ NoDup m.
Proof.
  induction l as [|a l IH]; intro H; [split; [constructor|exact H]|]. cbn [app] in H. inversion H as [|? ? H1 H2]; subst. destruct (IH H2) as [I1 I2]. split; [|exact I2]. constructor; [|exact I1]. intro X. apply H1. apply in_or_app. auto.
Qed.
Lemma flat_map_NoDup_In {A B} (f : A -> list B) l x : NoDup (flat_map f l) -> In x l -> NoDup (f x).
Proof.
  induction l as [|a l IH]; intros H Hx; [destruct Hx|]. cbn [flat_map] in H. apply NoDup_app_parts in H. destruct H as [H2 H1]. destruct Hx as [<-|Hx]; [exact H2|apply IH; assumption].
Qed.
Lemma chain_NoDup P (dist : P -> P -> Q) p n l : chain dist p n l -> NoDup (n_points n) -> NoDup (map n_point l).
Proof.
  induction 1 as [n H|n i c l H1 H2 H3 H4 IH]; intro Hn; [constructor; [intros []|constructor]|]. assert (Hc : In c (n_children n)) by (eapply nth_error_In; eauto). destruct n as [q k cs]. cbn [n_points n_children n_point map] in *.
  inversion Hn as [|? ? N1 N2]; subst. constructor; [|apply IH; apply (flat_map_NoDup_In n_points cs c N2 Hc)]. intro X. apply N1. apply in_map_iff in X. destruct X as (x & Ex & Hx). apply in_flat_map. exists c. split; [exact Hc|]. apply points_within. exists x. split; [apply (chain_within dist p c l H4 x Hx)|exact Ex].
Qed.
Lemma filter_remove_perm {A} (eqb : A -> A -> bool) x l : (forall a b, eqb a b = true <-> a = b) -> NoDup l -> In x l -> Permutation (x :: filter (fun y => negb (eqb y x)) l) l.
Proof.
  intros He. induction 1 as [|a l Ha Hn IH]; intros Hx; [destruct Hx|]. cbn [filter]. destruct (eqb a x) eqn:E.
  - apply He in E. subst a. cbn [negb]. constructor. assert (F : forall l, ~ In x l -> filter (fun y => negb (eqb y x)) l = l); [|rewrite F by exact Ha; reflexivity].
    clear - He. induction l as [|b l IH]; intro H; [reflexivity|]. cbn [filter]. destruct (eqb b x) eqn:E; [apply He in E; subst; exfalso; apply H; simpl; auto|]. cbn [negb]. rewrite IH; [reflexivity|]. intro X. apply H. simpl. auto.
  - cbn [negb]. destruct Hx as [->|Hx]; [rewrite (proj2 (He x x) eq_refl) in E; discriminate|]. rewrite perm_swap. constructor. apply IH. exact Hx.
Qed.

(** The check ends for trees without duplicates; its result is true if and only if the
    distances along the way down decrease.  The tree may be replaced by another cover tree
    of the same points. *)
Theorem C93_harmonic : forall P (dist : P -> P -> Q) (peqb : P -> P -> bool) (sort : P -> list P -> list P) n p ps,
  (forall x y, dist x y == dist y x)%Q -> (forall x y z, dist x z <= dist x y + dist y z)%Q -> (forall x, dist x x == 0)%Q -> (forall x y, dist x y == 0 -> x = y)%Q ->
  (forall x y, peqb x y = true <-> x = y) -> (forall x l, Permutation (sort x l) l) ->
  cover_tree dist n -> ct_points (Some n) = Ok ps -> NoDup ps ->
  exists l b n' ps' N, (forall fuel, N <= fuel -> isHarmonic dist peqb fuel sort (Some n) p = Ok (b, Some n')) /\
    chain dist p n l /\ (b = true <-> StronglySorted (fun x y => y < x)%Q (map (fun x => dist p (n_point x)) (filter (covers dist p) l))) /\
    cover_tree dist n' /\ ct_points (Some n') = Ok ps' /\ Permutation ps' ps.
Proof.
  intros P dist peqb sort n p ps Hsym Htri Hself Hzero Heq Hsort Hc Eps Hnd.
  destruct (harmonic_path_ok dist p n) as (l & Hl & Ep & Elast). cbn [isHarmonic]. rewrite Ep.
  set (ds := map (fun x => dist p (n_point x)) (filter (covers dist p) l)). pose proof (is_sorted_iff ds) as Hsorted.
  destruct (ct_layers_ok n) as (ls & El & Hp & Hin & _). assert (Eq : ps = map n_point (concat ls)) by (unfold ct_points in Eps; rewrite El in Eps; cbn [bind] in Eps; congruence).
  assert (Pps : Permutation ps (n_points n)) by (rewrite Eq, Hp, nodes_points; reflexivity).
  destruct (2 <=? length ds) eqn:E2.
  2:{ exists l, (is_sorted_le (rev ds)), n, ps, 0. refine (conj (fun _ _ => eq_refl) (conj Hl (conj Hsorted (conj Hc (conj Eps (Permutation_refl _)))))). }
  assert (Hpos : forall x y, (0 <= dist x y)%Q) by (intros x y; pose proof (Htri x y x); pose proof (Hself x); pose proof (Hsym x y); lra).
  assert (Hmax : (0 < max_element ds)%Q).
  { apply Nat.leb_le in E2. assert (Hn : NoDup (map n_point l)) by (apply (chain_NoDup P dist p n l Hl); apply (Permutation_NoDup Pps); exact Hnd).
    assert (Hn2 : NoDup (map n_point (filter (covers dist p) l))).
    { clear - Hn. induction l as [|x l IH]; [constructor|]. cbn [map] in Hn. inversion Hn as [|? ? N1 N2]; subst. cbn [filter]. destruct (covers dist p x); [|apply IH; exact N2]. cbn [map]. constructor; [|apply IH; exact N2].
      intro X. apply N1. apply in_map_iff in X. destruct X as (y & <- & Hy). apply filter_In in Hy. apply in_map. apply Hy. }
    unfold ds in *. destruct (filter (covers dist p) l) as [|x [|y r]]; cbn [map length] in *; try lia.
    pose proof (max_element_ge (dist p (n_point x) :: dist p (n_point y) :: map (fun z => dist p (n_point z)) r) (dist p (n_point x)) (or_introl eq_refl)) as M1.
    pose proof (max_element_ge (dist p (n_point x) :: dist p (n_point y) :: map (fun z => dist p (n_point z)) r) (dist p (n_point y)) (or_intror (or_introl eq_refl))) as M2.
    destruct (Qlt_le_dec 0 (max_element (dist p (n_point x) :: dist p (n_point y) :: map (fun z => dist p (n_point z)) r))) as [|H]; [assumption|]. exfalso.
    pose proof (Hpos p (n_point x)). pose proof (Hpos p (n_point y)). assert (X1 : p = n_point x) by (apply Hzero; lra). assert (X2 : p = n_point y) by (apply Hzero; lra).
    inversion Hn2 as [|? ? N1 N2]; subst. apply N1. left. congruence. }
  destruct (lower_level_ok (max_element ds) Hmax (ct_level (Some n))) as (N & l' & HN).
  assert (E : forall fuel, N <= fuel -> (let* l0 := lower_level fuel (max_element ds) (ct_level (Some n)) in
      let l1 := (l0 + 1)%Z in
      if (l1 <? ct_level (Some n))%Z then
        let* all := ct_points (Some n) in
        let rest := filter (fun x => negb (peqb x (n_point (last l n)))) all in
        let* t := ct_insert_range dist (Some (Node (n_point (last l n)) l1 [])) (sort (n_point (last l n)) rest) in
        Ok (is_sorted_le (rev ds), t)
      else Ok (is_sorted_le (rev ds), Some n)) =
     if (l' + 1 <? ct_level (Some n))%Z then
        let* t := ct_insert_range dist (Some (Node (n_point (last l n)) (l' + 1) [])) (sort (n_point (last l n)) (filter (fun x => negb (peqb x (n_point (last l n)))) ps)) in
        Ok (is_sorted_le (rev ds), t)
      else Ok (is_sorted_le (rev ds), Some n)).
  { intros fuel Hf. rewrite (HN fuel Hf). cbn [bind]. cbv zeta. destruct (l' + 1 <? ct_level (Some n))%Z; [rewrite Eps; reflexivity|reflexivity]. }
  destruct (l' + 1 <? ct_level (Some n))%Z.
  - set (cur := n_point (last l n)) in *.
    destruct (insert_range_ok P dist Hsym Htri Hself (sort cur (filter (fun x => negb (peqb x cur)) ps)) (Node cur (l' + 1) []) (leaf_cover P dist cur (l' + 1))) as (n' & E1 & A1 & A2).
    rewrite E1 in E. cbn [bind] in E. destruct (ct_layers_ok n') as (ls' & El' & Hp' & _ & _).
    exists l, (is_sorted_le (rev ds)), n', (map n_point (concat ls')), N. refine (conj E (conj Hl (conj Hsorted (conj A1 (conj _ _))))); [unfold ct_points; rewrite El'; reflexivity|].
    rewrite Hp', nodes_points, A2. cbn [n_points flat_map]. rewrite Hsort, <- Permutation_cons_append. apply filter_remove_perm; [exact Heq|exact Hnd|].
    apply (Permutation_in _ (Permutation_sym Pps)). apply points_within. exists (last l n). split; [|reflexivity]. apply (chain_within dist p n l Hl). assert (Hne : l <> []) by (intros ->; inversion Hl). destruct (exists_last Hne) as (r & x & ->). rewrite last_last. apply in_or_app. simpl. auto.
  - exists l, (is_sorted_le (rev ds)), n, ps, N. refine (conj E (conj Hl (conj Hsorted (conj Hc (conj Eps (Permutation_refl _)))))).
Qed.

(** Two equal points: the loop that lowers the level does not terminate *)
Theorem C93_duplicates_refuted : exists t p, ct_insert_range zdist None [p; p] = Ok t /\
  forall fuel, isHarmonic zdist Z.eqb fuel (fun _ l => l) t p = OutOfFuel.
Proof.
  exists (Some (Node 0 0 [Node 0 (-1) []]))%Z, 0%Z. split; [vm_compute; reflexivity|]. intro fuel. cbn [isHarmonic].
  assert (E : harmonic_path zdist 0%Z (Node 0 0 [Node 0 (-1) []])%Z = ([zdist 0 0; zdist 0 0], Node 0 (-1) [])%Z) by reflexivity. rewrite E. cbn [length Nat.leb].
  assert (G : forall fuel l, lower_level fuel (max_element [zdist 0 0; zdist 0 0]%Z) l = OutOfFuel).
  { induction fuel0 as [|fuel0 IH]; intro l; cbn [lower_level].
    - rewrite (proj2 (Qle_bool_iff _ _)); [reflexivity|]. change (max_element [zdist 0 0; zdist 0 0]%Z) with (zdist 0 0)%Z. unfold coveringDistance_at. pose proof (pow_pos l). pose proof (zdist_self 0%Z). lra.
    - rewrite (proj2 (Qle_bool_iff _ _)); [apply IH|]. change (max_element [zdist 0 0; zdist 0 0]%Z) with (zdist 0 0)%Z. unfold coveringDistance_at. pose proof (pow_pos l). pose proof (zdist_self 0%Z). lra. }
  rewrite G. reflexivity.
Qed.
(** and other duplicates are lost *)
Theorem C93_lost_refuted : exists t p fuel b t', ct_insert_range zdist None [7; 13; 10; 8; 9; 11; 12; 10; 9; 9]%Z = Ok t /\
  isHarmonic zdist Z.eqb fuel (fun _ l => l) t p = Ok (b, t') /\ ct_points t' = Ok [9; 13; 7; 10; 12; 8; 10; 11]%Z.
Proof. eexists. exists 9%Z, 50. do 2 eexists. split; [vm_compute; reflexivity|]. split; vm_compute; reflexivity. Qed.
(** the query replaces the tree even if its result is [true] *)
Theorem C93_query_refuted : exists t t', ct_insert_range zdist None [7; 13; 10; 8; 9; 11; 12]%Z = Ok t /\
  isHarmonic zdist Z.eqb 10 (fun _ l => l) t 12%Z = Ok (true, t') /\ ct_points t = Ok [13; 7; 12; 10; 8; 11; 9]%Z /\ ct_points t' = Ok [7; 12; 13; 10; 11; 8; 9]%Z.
Proof. do 2 eexists. split; [vm_compute; reflexivity|]. split; [vm_compute; reflexivity|]. vm_compute. auto. Qed.
Example C93_example : exists t t', ct_insert_range zdist None [7; 13; 10; 8; 9; 11; 12]%Z = Ok t /\
  isHarmonic zdist Z.eqb 10 (fun _ l => l) t 10%Z = Ok (false, t') /\ ct_level t = 3%Z /\ ct_level t' = 2%Z /\ ct_points t' = Ok [11; 13; 7; 10; 12; 8; 9]%Z.
Proof. do 2 eexists. split; [vm_compute; reflexivity|]. split; [vm_compute; reflexivity|]. vm_compute. auto. Qed.

Print Assumptions C92_insert.
Print Assumptions C92_checks.
Print Assumptions C92_levels.
Print Assumptions C92_triangle_refuted.
Print Assumptions C93_harmonic.
Print Assumptions C93_duplicates_refuted.
Print Assumptions C93_lost_refuted.
