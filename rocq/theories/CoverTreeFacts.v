(** * Facts about cover trees. *)
From Coq Require Import List Arith Bool ZArith QArith Qround Lia Lqa Permutation Qpower.
From Verif Require Import Base BaseFacts ReductionFacts CoverTree FloydFacts.
Import ListNotations.
Local Open Scope nat_scope.

Section Spec.
  Context {P : Type}.
  Variable dist : P -> P -> Q.

  (** nodes of a tree *)
  Inductive within : node P -> node P -> Prop :=
  | within_root n : within n n
  | within_child n c x : In c (n_children n) -> within c x -> within n x.
  (** children are one level below their parent *)
  Definition level_invariant (t : node P) : Prop := forall n c, within t n -> In c (n_children n) -> n_level c = (n_level n - 1)%Z.
  (** and not further away than [2^level] *)
  Definition covering_invariant (t : node P) : Prop := forall n c, within t n -> In c (n_children n) -> (dist (n_point n) (n_point c) <= 2 ^ n_level n)%Q.
  (** two children are further apart than [2^(level-1)] *)
  Definition separating_invariant (t : node P) : Prop := forall n i j a b, within t n -> i < j ->
    nth_error (n_children n) i = Some a -> nth_error (n_children n) j = Some b -> (2 ^ (n_level n - 1) < dist (n_point a) (n_point b))%Q.
  Definition cover_tree (t : node P) : Prop := level_invariant t /\ covering_invariant t /\ separating_invariant t.
End Spec.

Section Facts.
  Context {P : Type}.
  Variable dist : P -> P -> Q.

  Lemma node_ind' (Q : node P -> Prop) : (forall p l cs, (forall c, In c cs -> Q c) -> Q (Node p l cs)) -> forall n, Q n.
  Proof.
    intro H. fix IH 1. intros [p l cs]. apply H. induction cs as [|c cs IHcs]; [intros c []|]. intros x [<-|Hx]; [apply IH|apply IHcs; exact Hx].
  Qed.
  Lemma within_inv p l (cs : list (node P)) x : within (Node p l cs) x <-> x = Node p l cs \/ exists c, In c cs /\ within c x.
  Proof.
    split.
    - intro H. inversion H; subst; [auto|]. right. exists c. auto.
    - intros [->|(c & H1 & H2)]; [constructor|]. apply (within_child _ c); assumption.
  Qed.
  Lemma within_trans (a b c : node P) : within a b -> within b c -> within a c.
  Proof. induction 1 as [|n m x H1 H2 IH]; [auto|]. intro H. apply (within_child _ m); auto. Qed.
  Lemma points_within (n : node P) x : In x (n_points n) <-> exists m, within n m /\ n_point m = x.
  Proof.
    revert x. induction n as [p l cs IH] using node_ind'. intro x. cbn [n_points]. split.
    - intros [<-|H]; [exists (Node p l cs); split; [constructor|reflexivity]|]. apply in_flat_map in H. destruct H as (c & Hc & Hx). apply (IH c Hc) in Hx. destruct Hx as (m & H1 & H2). exists m. split; [apply (within_child _ c); assumption|exact H2].
    - intros (m & H1 & <-). apply within_inv in H1. destruct H1 as [->|(c & H1 & H2)]; [left; reflexivity|]. right. apply in_flat_map. exists c. split; [exact H1|]. apply (IH c H1). exists m. auto.
  Qed.

  (** *** local form of the invariants *)
  Definition separated_list (l : Z) (cs : list (node P)) : Prop := forall i j a b, i < j -> nth_error cs i = Some a -> nth_error cs j = Some b -> (2 ^ (l - 1) < dist (n_point a) (n_point b))%Q.
  Definition good_children (p : P) (l : Z) (cs : list (node P)) : Prop :=
    (forall c, In c cs -> n_level c = (l - 1)%Z /\ (dist p (n_point c) <= 2 ^ l)%Q) /\ separated_list l cs.
  Lemma cover_tree_node p l cs : cover_tree dist (Node p l cs) <-> good_children p l cs /\ forall c, In c cs -> cover_tree dist c.
  Proof.
    split.
    - intros (H1 & H2 & H3). split.
      + split; [intros c Hc; split; [apply (H1 (Node p l cs) c); [constructor|exact Hc]|apply (H2 (Node p l cs) c); [constructor|exact Hc]]|].
        intros i j a b Hij Ha Hb. apply (H3 (Node p l cs) i j a b); auto. constructor.
      + intros c Hc. refine (conj _ (conj _ _)).
        * intros n d Hn. apply H1. apply (within_child _ c); assumption.
        * intros n d Hn. apply H2. apply (within_child _ c); assumption.
        * intros n i j a b Hn. apply H3. apply (within_child _ c); assumption.
    - intros ((H1 & H2) & H3). refine (conj _ (conj _ _)).
      + intros n c Hn Hc. apply within_inv in Hn. destruct Hn as [->|(d & Hd & Hn)]; [apply H1; exact Hc|apply (proj1 (H3 d Hd) n c Hn Hc)].
      + intros n c Hn Hc. apply within_inv in Hn. destruct Hn as [->|(d & Hd & Hn)]; [apply H1; exact Hc|apply (proj1 (proj2 (H3 d Hd)) n c Hn Hc)].
      + intros n i j a b Hn. apply within_inv in Hn. destruct Hn as [->|(d & Hd & Hn)]; [apply H2|apply (proj2 (proj2 (H3 d Hd)) n i j a b Hn)].
  Qed.

  (** *** powers of two *)
  Lemma pow_pos l : (0 < 2 ^ l)%Q.
  Proof. apply Qpower_0_lt. lra. Qed.
  Lemma pow_succ l : (2 ^ (l + 1) == 2 * 2 ^ l)%Q.
  Proof. rewrite Qpower_plus by lra. change (2 ^ 1)%Q with 2%Q. lra. Qed.
  Lemma pow_pred l : (2 * 2 ^ (l - 1) == 2 ^ l)%Q.
  Proof. rewrite <- pow_succ. replace (l - 1 + 1)%Z with l by lia. reflexivity. Qed.
  Lemma Qle_false a b : Qle_bool a b = false <-> (b < a)%Q.
  Proof. rewrite <- not_true_iff_false, Qle_bool_iff. split; [apply Qnot_le_lt|apply Qlt_not_le]. Qed.

  Section Metric.
  Hypothesis Hsym : forall x y, (dist x y == dist y x)%Q.
  Hypothesis Htri : forall x y z, (dist x z <= dist x y + dist y z)%Q.
  Hypothesis Hself : forall x, (dist x x == 0)%Q.

  (** *** all points of a tree are close to its root *)
  Lemma tree_radius n : cover_tree dist n -> forall m, within n m -> (dist (n_point n) (n_point m) <= 2 ^ (n_level n + 1))%Q.
  Proof.
    induction n as [p l cs IH] using node_ind'. intros Hc m Hm. apply within_inv in Hm. cbn [n_point n_level]. pose proof (pow_pos (l + 1)).
    destruct Hm as [->|(c & H1 & H2)]; [cbn [n_point]; rewrite Hself; lra|].
    apply cover_tree_node in Hc. destruct Hc as ((H3 & _) & H4). destruct (H3 c H1) as [H5 H6]. specialize (IH c H1 (H4 c H1) m H2). rewrite H5 in IH. replace (l - 1 + 1)%Z with l in IH by lia.
    pose proof (Htri p (n_point c) (n_point m)). rewrite pow_succ. lra.
  Qed.

  (** *** insertion below a node *)
  Definition insert_children (p : P) (l : Z) : list (node P) -> list (node P) :=
    fix go cs := match cs with
      | [] => [Node p (l - 1) []]
      | c :: cs => if Qle_bool (dist (n_point c) p) (coveringDistance c) then insert_ dist p c :: cs else c :: go cs
      end.
  Lemma insert_eq p q l cs : insert_ dist p (Node q l cs) = Node q l (insert_children p l cs).
  Proof. reflexivity. Qed.
  Lemma insert_root p n : n_point (insert_ dist p n) = n_point n /\ n_level (insert_ dist p n) = n_level n.
  Proof. destruct n. auto. Qed.
  Lemma insert_points p n : Permutation (n_points (insert_ dist p n)) (p :: n_points n).
  Proof.
    induction n as [q l cs IH] using node_ind'. rewrite insert_eq. cbn [n_points].
    assert (G : Permutation (flat_map n_points (insert_children p l cs)) (p :: flat_map n_points cs)).
    { induction cs as [|c cs IHcs]; [reflexivity|]. cbn [insert_children]. destruct (Qle_bool (dist (n_point c) p) (coveringDistance c)); cbn [flat_map].
      - change (p :: n_points c ++ flat_map n_points cs) with ((p :: n_points c) ++ flat_map n_points cs). apply Permutation_app_tail. apply IH. simpl. auto.
      - rewrite IHcs by (intros; apply IH; simpl; auto). symmetry. apply Permutation_middle. }
    rewrite G. apply perm_swap.
  Qed.
  Lemma insert_cover p n : cover_tree dist n -> (dist (n_point n) p <= 2 ^ n_level n)%Q -> cover_tree dist (insert_ dist p n).
  Proof.
    induction n as [q l cs IH] using node_ind'. intros Hc Hd. cbn [n_point n_level] in Hd. rewrite insert_eq. apply cover_tree_node in Hc. destruct Hc as ((H1 & H2) & H3).
    assert (G : forall cs', (forall c, In c cs' -> In c cs) -> separated_list l cs' ->
      (forall c, In c (insert_children p l cs') -> n_level c = (l - 1)%Z /\ (dist q (n_point c) <= 2 ^ l)%Q /\ cover_tree dist c) /\
      separated_list l (insert_children p l cs') /\
      (forall c, In c (insert_children p l cs') -> n_point c = p \/ exists c', In c' cs' /\ n_point c' = n_point c)).
    { induction cs' as [|c cs' IHcs]; intros Hin Hs; cbn [insert_children].
      - refine (conj _ (conj _ _)).
        + intros c [<-|[]]. cbn [n_level n_point]. refine (conj eq_refl (conj Hd _)). apply cover_tree_node. split; [split; [intros c []|]|intros c []]. intros i j a b _ Ha. destruct i; discriminate.
        + intros i j a b Hij Ha Hb. destruct i as [|[|i]], j as [|[|j]]; try discriminate; lia.
        + intros c [<-|[]]. auto.
      - destruct (Qle_bool (dist (n_point c) p) (coveringDistance c)) eqn:E.
        + destruct (insert_root p c) as [E1 E2]. apply Qle_bool_iff in E. refine (conj _ (conj _ _)).
          * intros x [<-|Hx]; [|destruct (H1 x (Hin x (or_intror Hx))); refine (conj _ (conj _ (H3 x (Hin x (or_intror Hx))))); assumption].
            rewrite E1, E2. destruct (H1 c (Hin c (or_introl eq_refl))) as [A1 A2]. refine (conj A1 (conj A2 _)). apply IH; [apply Hin; simpl; auto|apply H3; apply Hin; simpl; auto|exact E].
          * intros i j a b Hij Ha Hb. destruct j as [|j]; [lia|]. destruct i as [|i].
            -- cbn [nth_error] in Ha, Hb. injection Ha as <-. rewrite E1. apply (Hs 0 (S j)); auto.
            -- apply (Hs (S i) (S j)); auto.
          * intros x [<-|Hx]; right; [exists c; split; [simpl; auto|symmetry; exact E1]|exists x; split; [simpl; auto|reflexivity]].
        + apply Qle_false in E. unfold coveringDistance, coveringDistance_at in E. destruct (H1 c (Hin c (or_introl eq_refl))) as [A1 A2]. rewrite A1 in E.
          destruct IHcs as (I1 & I2 & I3); [intros; apply Hin; simpl; auto|intros i j a b Hij Ha Hb; apply (Hs (S i) (S j)); auto; lia|]. refine (conj _ (conj _ _)).
          * intros x [<-|Hx]; [refine (conj A1 (conj A2 _)); apply H3; apply Hin; simpl; auto|apply I1; exact Hx].
          * intros i j a b Hij Ha Hb. destruct j as [|j]; [lia|]. cbn [nth_error] in Hb. destruct i as [|i]; [|apply (I2 i j); auto; lia].
            cbn [nth_error] in Ha. injection Ha as <-. apply nth_error_In in Hb. destruct (I3 b Hb) as [->|(c' & C1 & <-)]; [exact E|]. apply In_nth_error in C1. destruct C1 as [k Hk]. apply (Hs 0 (S k) c c'); [lia|reflexivity|exact Hk].
          * intros x [<-|Hx]; [right; exists c; split; [simpl; auto|reflexivity]|]. destruct (I3 x Hx) as [|(c' & C1 & C2)]; [auto|]. right. exists c'. split; [simpl; auto|exact C2]. }
    destruct (G cs (fun c H => H) H2) as (G1 & G2 & _). apply cover_tree_node. split; [split; [|exact G2]|]; intros c Hc; destruct (G1 c Hc) as (? & ? & ?); auto.
  Qed.

  (** *** search for a leaf *)
  Inductive leaf_path : node P -> list nat -> Prop :=
  | leaf_here n i c : nth_error (n_children n) i = Some c -> n_children c = [] -> leaf_path n [i]
  | leaf_below n i c path : nth_error (n_children n) i = Some c -> leaf_path c path -> leaf_path n (i :: path).
  Inductive node_path : node P -> list nat -> node P -> Prop :=
  | np_nil n : node_path n [] n
  | np_cons n i c path x : nth_error (n_children n) i = Some c -> node_path c path x -> node_path n (i :: path) x.
  Lemma node_path_snoc n path x i c : node_path n path x -> nth_error (n_children x) i = Some c -> node_path n (path ++ [i]) c.
  Proof. induction 1 as [|n k d path x H1 H2 IH]; intro H; cbn [app]; [econstructor; [exact H|constructor]|econstructor; [exact H1|apply IH; exact H]]. Qed.
  Lemma node_path_leaf n path x i c : node_path n path x -> nth_error (n_children x) i = Some c -> n_children c = [] -> leaf_path n (path ++ [i]).
  Proof. induction 1 as [|n k d path x H1 H2 IH]; intros H E; cbn [app]; [apply (leaf_here _ i c); assumption|apply (leaf_below _ k d); [exact H1|apply IH; assumption]]. Qed.
  Lemma isLeaf_nil (n : node P) : isLeaf n = true <-> n_children n = [].
  Proof. unfold isLeaf. destruct (n_children n); split; intro; congruence. Qed.

  Definition stack_ok (t : node P) (stack : list (list nat * node P)) : Prop := Forall (fun q => node_path t (fst q) (snd q) /\ n_children (snd q) <> []) stack.
  Definition found_ok (t : node P) (leaf : option (list nat)) : Prop := match leaf with None => True | Some path => leaf_path t path end.
  Definition stack_size (stack : list (list nat * node P)) : nat := list_sum (map (fun q => n_size (snd q)) stack).
  Lemma scan_ok t path n cs : node_path t path n -> forall i stack leaf, skipn i (n_children n) = cs -> stack_ok t stack -> found_ok t leaf ->
    forall stack' leaf', scan_children path i cs stack leaf = (stack', leaf') ->
      stack_ok t stack' /\ found_ok t leaf' /\ stack_size stack' <= list_sum (map n_size cs) + stack_size stack /\
      (leaf <> None -> leaf' <> None) /\ (cs <> [] \/ stack <> [] -> leaf' <> None \/ stack' <> []).
  Proof.
    intro Hp. induction cs as [|c cs IH]; intros i stack leaf Hi Hs Hl stack' leaf' E; cbn [scan_children] in E.
    - injection E as <- <-. refine (conj Hs (conj Hl (conj _ (conj _ _)))); [simpl; lia|auto|]. intros [H|H]; [contradiction|auto].
    - assert (Hc : nth_error (n_children n) i = Some c). { rewrite <- (firstn_skipn i (n_children n)), Hi. assert (length (firstn i (n_children n)) = i). { rewrite firstn_length. apply (f_equal (@length _)) in Hi. rewrite skipn_length in Hi. cbn [length] in Hi. lia. } rewrite nth_error_app2 by lia. rewrite H, Nat.sub_diag. reflexivity. }
      assert (Hi' : skipn (S i) (n_children n) = cs). { clear - Hi. revert Hi. generalize (n_children n). induction i as [|i IH]; intros [|x l] H; try discriminate; [injection H as _ ->; reflexivity|]. cbn [skipn] in H |- *. apply IH. exact H. }
      destruct (isLeaf c) eqn:El.
      + injection E as <- <-. apply isLeaf_nil in El. refine (conj Hs (conj _ (conj _ (conj _ _)))); [apply (node_path_leaf t path n i c); assumption|simpl; lia|discriminate|left; discriminate].
      + assert (Hne : n_children c <> []) by (intro X; apply isLeaf_nil in X; congruence).
        destruct (IH (S i) ((path ++ [i], c) :: stack) leaf Hi') with (stack' := stack') (leaf' := leaf') as (A1 & A2 & A3 & A4 & A5); [constructor; [split; [apply (node_path_snoc t path n i c); assumption|exact Hne]|exact Hs]|exact Hl|exact E|].
        refine (conj A1 (conj A2 (conj _ (conj A4 _)))); [change (stack_size ((path ++ [i], c) :: stack)) with (n_size c + stack_size stack) in A3; change (list_sum (map n_size (c :: cs))) with (n_size c + list_sum (map n_size cs)); lia|]. intros _. apply A5. right. discriminate.
  Qed.
  Lemma find_leaf_ok t fuel : forall stack leaf, stack_ok t stack -> found_ok t leaf -> stack_size stack <= fuel -> (leaf <> None \/ stack <> []) ->
    exists path, find_leaf fuel stack leaf = Ok (Some path) /\ leaf_path t path.
  Proof.
    induction fuel as [|fuel IH]; intros [|(path, n) stack] leaf Hs Hl Hf Hne; cbn [find_leaf].
    - destruct leaf as [q|]; [exists q; auto|destruct Hne; congruence].
    - change (stack_size ((path, n) :: stack)) with (n_size n + stack_size stack) in Hf. destruct n. cbn [n_size] in Hf. lia.
    - destruct leaf as [q|]; [exists q; auto|destruct Hne; congruence].
    - inversion Hs as [|? ? [H1 H2] H3]; subst. cbn [fst snd] in *. destruct (scan_children path 0 (n_children n) stack leaf) as [stack' leaf'] eqn:E.
      destruct (scan_ok t path n (n_children n) H1 0 stack leaf eq_refl H3 Hl stack' leaf' E) as (A1 & A2 & A3 & A4 & A5). apply IH; [exact A1|exact A2| |apply A5; auto].
      change (stack_size ((path, n) :: stack)) with (n_size n + stack_size stack) in Hf. destruct n as [p l cs]. cbn [n_children n_size] in *. lia.
  Qed.

  (** *** removal of a leaf *)
  Lemma separated_remove l i (cs : list (node P)) : separated_list l cs -> separated_list l (firstn i cs ++ skipn (S i) cs).
  Proof.
    intros H a b x y Hab Hx Hy.
    assert (G : forall k z, nth_error (firstn i cs ++ skipn (S i) cs) k = Some z -> nth_error cs (if k <? i then k else S k) = Some z).
    { clear. revert cs. induction i as [|i IH]; intros [|c cs] k z; cbn [firstn skipn app].
      - destruct k; discriminate.
      - intro H. cbn. exact H.
      - destruct k; discriminate.
      - destruct k as [|k]; [auto|]. cbn [nth_error]. intro H. apply IH in H. change (S k <? S i) with (k <? i). destruct (k <? i); exact H. }
    apply G in Hx. apply G in Hy. eapply H; [|exact Hx|exact Hy]. destruct (Nat.ltb_spec a i), (Nat.ltb_spec b i); lia.
  Qed.
  Lemma remove_In i (cs : list (node P)) x : In x (firstn i cs ++ skipn (S i) cs) -> In x cs.
  Proof.
    revert cs. induction i as [|i IH]; intros [|c cs]; cbn [firstn skipn app]; try tauto; [simpl; auto|]. intros [<-|H]; [simpl; auto|right; apply IH; exact H].
  Qed.
  Lemma remove_perm {A} i (cs : list A) c : nth_error cs i = Some c -> Permutation cs (c :: firstn i cs ++ skipn (S i) cs).
  Proof.
    revert cs. induction i as [|i IH]; intros [|d cs] H; try discriminate; cbn [firstn skipn app]; [injection H as ->; reflexivity|]. cbn [nth_error] in H. rewrite (IH cs H) at 1. apply perm_swap.
  Qed.
  Lemma upd_perm {A} i (cs : list A) c c' : nth_error cs i = Some c -> Permutation (upd cs i c') (c' :: firstn i cs ++ skipn (S i) cs).
  Proof.
    revert cs. induction i as [|i IH]; intros [|d cs] H; try discriminate; cbn [firstn skipn app upd]; [reflexivity|]. cbn [nth_error] in H. rewrite (IH cs H) at 1. apply perm_swap.
  Qed.
  Lemma flat_perm (l l' : list (node P)) : Permutation l l' -> Permutation (flat_map n_points l) (flat_map n_points l').
  Proof. apply Permutation_flat_map. Qed.

  Lemma remove_at_ok n path : leaf_path n path -> exists x n', remove_at path n = Some (x, n') /\ n_point n' = n_point n /\ n_level n' = n_level n /\
    Permutation (n_points n) (x :: n_points n') /\ (exists m, within n m /\ n_point m = x) /\ (cover_tree dist n -> cover_tree dist n').
  Proof.
    induction 1 as [[p l cs] i c H1 H2|[p l cs] i c path H1 H2 IH]; cbn [n_children] in H1.
    - cbn [remove_at]. rewrite H1. do 2 eexists. refine (conj eq_refl (conj eq_refl (conj eq_refl (conj _ (conj _ _))))).
      + cbn [n_points]. rewrite (flat_perm _ _ (remove_perm i cs c H1)). cbn [flat_map]. destruct c as [q k ds]. cbn [n_children n_point] in *. subst ds. cbn [n_points flat_map app]. apply perm_swap.
      + exists c. split; [apply (within_child _ c); [eapply nth_error_In; eauto|constructor]|reflexivity].
      + intro Hc. apply cover_tree_node in Hc. destruct Hc as ((A1 & A2) & A3). apply cover_tree_node. split; [split|]; [|apply separated_remove; exact A2|]; intros d Hd; apply remove_In in Hd; auto.
    - cbn [remove_at]. rewrite H1. destruct path as [|j path]; [inversion H2|]. destruct IH as (x & c' & -> & E1 & E2 & E3 & (m & M1 & M2) & E4). do 2 eexists. refine (conj eq_refl (conj eq_refl (conj eq_refl (conj _ (conj _ _))))).
      + cbn [n_points]. rewrite (flat_perm _ _ (remove_perm i cs c H1)), (flat_perm _ _ (upd_perm i cs c c' H1)). cbn [flat_map]. rewrite E3. cbn [app]. apply perm_swap.
      + exists m. split; [apply (within_child _ c); [eapply nth_error_In; eauto|exact M1]|exact M2].
      + intro Hc. apply cover_tree_node in Hc. destruct Hc as ((A1 & A2) & A3). assert (Hin : In c cs) by (eapply nth_error_In; eauto). apply cover_tree_node. split; [split|].
        * intros d Hd. apply In_upd in Hd. destruct Hd as [->|Hd]; [rewrite E1, E2; apply A1; exact Hin|apply A1; exact Hd].
        * assert (G : forall k z, nth_error (upd cs i c') k = Some z -> exists z', nth_error cs k = Some z' /\ n_point z' = n_point z).
          { intros k z Hz. destruct (Nat.eq_dec k i) as [->|N].
            - exists c. split; [exact H1|]. rewrite nth_error_upd_eq in Hz by (apply nth_error_Some; congruence). injection Hz as <-. symmetry. exact E1.
            - exists z. rewrite nth_error_upd_neq in Hz by congruence. auto. }
          intros a b y z Hab Hy Hz. destruct (G a y Hy) as (y' & Y1 & <-). destruct (G b z Hz) as (z' & Z1 & <-). apply (A2 a b); assumption.
        * intros d Hd. apply In_upd in Hd. destruct Hd as [->|Hd]; [apply E4; apply A3; exact Hin|apply A3; exact Hd].
  Qed.

  Lemma raise_leaf_ok n : n_children n <> [] -> exists n', raise_leaf n = Ok n' /\ n_level n' = (n_level n + 1)%Z /\ Permutation (n_points n') (n_points n) /\ (cover_tree dist n -> cover_tree dist n').
  Proof.
    intro Hn. unfold raise_leaf. destruct (find_leaf_ok n (n_size n) [([], n)] None) as (path & -> & Hp).
    - constructor; [split; [constructor|exact Hn]|constructor].
    - exact I.
    - change (stack_size [([], n)]) with (n_size n + 0). lia.
    - right. discriminate.
    - cbn [bind]. destruct (remove_at_ok n path Hp) as (x & n' & -> & E1 & E2 & E3 & (m & M1 & M2) & E4). eexists. refine (conj eq_refl (conj eq_refl (conj _ _))).
      + cbn [n_points flat_map]. rewrite app_nil_r. symmetry. exact E3.
      + intro Hc. apply cover_tree_node. split; [split|].
        * intros c [<-|[]]. rewrite E1, E2. split; [lia|]. rewrite Hsym. rewrite <- M2. apply tree_radius; assumption.
        * intros i j a b Hij Ha Hb. destruct i as [|[|i]], j as [|[|j]]; try discriminate; lia.
        * intros c [<-|[]]. apply E4. exact Hc.
  Qed.

  (** *** the loop *)
  Lemma pow_ge_nat (k : nat) : (inject_Z (Z.of_nat k) <= 2 ^ Z.of_nat k)%Q.
  Proof.
    induction k as [|k IH]; [unfold Qle; simpl; lia|]. rewrite Nat2Z.inj_succ. unfold Z.succ. rewrite pow_succ, inject_Z_plus. pose proof (pow_pos (Z.of_nat k)).
    destruct k as [|k]; [unfold Qle; simpl; lia|]. assert (1 <= inject_Z (Z.of_nat (S k)))%Q by (unfold Qle; simpl; lia). change (inject_Z 1) with 1%Q. lra.
  Qed.
  Lemma raise_loop_ok p fuel : forall n d, (exists q, In q (n_points n) /\ (d == dist q p)%Q) -> (forall q, In q (n_points n) -> (dist q p <= 2 * 2 ^ (n_level n + Z.of_nat fuel))%Q) ->
    (d == dist (n_point n) p)%Q ->
    exists n', raise_loop dist fuel p n d = Ok n' /\ Permutation (n_points n') (n_points n) /\ (cover_tree dist n -> cover_tree dist n') /\ (n_level n <= n_level n')%Z /\
      (dist (n_point n') p <= 2 * 2 ^ n_level n')%Q.
  Proof.
    induction fuel as [|fuel IH]; intros n d Hd Hq Ed; cbn [raise_loop].
    - destruct Hd as (q & Hin & Eq). specialize (Hq q Hin). rewrite Z.add_0_r in Hq. assert (E : Qle_bool d (2 * coveringDistance n) = true) by (apply Qle_bool_iff; unfold coveringDistance, coveringDistance_at; rewrite Eq; exact Hq).
      rewrite E. exists n. refine (conj eq_refl (conj (Permutation_refl _) (conj (fun H => H) (conj _ _)))); [lia|]. rewrite <- Ed, Eq. exact Hq.
    - destruct (Qle_bool d (2 * coveringDistance n)) eqn:E.
      + apply Qle_bool_iff in E. exists n. refine (conj eq_refl (conj (Permutation_refl _) (conj (fun H => H) (conj _ _)))); [lia|]. rewrite <- Ed. exact E.
      + destruct (isLeaf n) eqn:El.
        * apply isLeaf_nil in El. destruct n as [q l cs]. cbn [n_children n_point n_level] in *. subst cs.
          destruct (IH (Node q (l + 1) []) d) as (n' & -> & A1 & A2 & A3 & A4).
          -- exact Hd.
          -- intros r Hr. cbn [n_level]. replace (l + 1 + Z.of_nat fuel)%Z with (l + Z.of_nat (S fuel))%Z by lia. apply Hq. exact Hr.
          -- exact Ed.
          -- exists n'. refine (conj eq_refl (conj A1 (conj _ (conj _ A4)))); [|cbn [n_level] in A3; lia]. intros _. apply A2. apply cover_tree_node. split; [split; [intros c []|]|intros c []]. intros i j a b _ Ha. destruct i; discriminate.
        * assert (Hne : n_children n <> []) by (intro X; apply isLeaf_nil in X; congruence). destruct (raise_leaf_ok n Hne) as (n1 & -> & B1 & B2 & B3). cbn [bind].
          destruct (IH n1 (dist (n_point n1) p)) as (n' & -> & A1 & A2 & A3 & A4).
          -- exists (n_point n1). split; [destruct n1; simpl; auto|reflexivity].
          -- intros r Hr. rewrite B1. replace (n_level n + 1 + Z.of_nat fuel)%Z with (n_level n + Z.of_nat (S fuel))%Z by lia. apply Hq. apply (Permutation_in _ B2). exact Hr.
          -- reflexivity.
          -- exists n'. refine (conj eq_refl (conj _ (conj (fun H => A2 (B3 H)) (conj _ A4)))); [rewrite A1; exact B2|lia].
  Qed.
  Lemma raise_fuel_ok p n q : In q (n_points n) -> (dist q p <= 2 * 2 ^ (n_level n + Z.of_nat (raise_fuel dist p n)))%Q.
  Proof.
    intro Hq. set (k := raise_fuel dist p n). set (c := (2 * coveringDistance n)%Q). assert (Hc : (0 < c)%Q) by (unfold c, coveringDistance, coveringDistance_at; pose proof (pow_pos (n_level n)); lra).
    assert (Hk : (dist q p / c <= inject_Z (Z.of_nat k))%Q).
    { apply Qle_trans with (inject_Z (Qceiling (dist q p / c))); [apply Qle_ceiling|]. rewrite <- Zle_Qle.
      assert (X : Z.to_nat (Qceiling (dist q p / c)) <= k); [|lia]. unfold k, raise_fuel. assert (Y : In (Z.to_nat (Qceiling (dist q p / c))) (map (fun q => Z.to_nat (Qceiling (dist q p / (2 * coveringDistance n)))) (n_points n))) by (apply (in_map (fun q => Z.to_nat (Qceiling (dist q p / (2 * coveringDistance n))))); exact Hq).
      pose proof (proj1 (list_max_le _ _) (le_n (list_max (map (fun q => Z.to_nat (Qceiling (dist q p / (2 * coveringDistance n)))) (n_points n))))) as F. rewrite Forall_forall in F. apply F. exact Y. }
    pose proof (pow_ge_nat k) as Hp. assert (H1 : (dist q p == dist q p / c * c)%Q) by (field; lra). rewrite H1. rewrite Qpower_plus by lra.
    setoid_replace (2 * (2 ^ n_level n * 2 ^ Z.of_nat k))%Q with (2 ^ Z.of_nat k * c)%Q by (unfold c, coveringDistance, coveringDistance_at; ring).
    apply Qmult_le_compat_r; lra.
  Qed.

  Lemma node_insert_ok p n : exists n', node_insert dist p n = Ok n' /\ Permutation (n_points n') (p :: n_points n) /\ (cover_tree dist n -> cover_tree dist n').
  Proof.
    unfold node_insert. destruct (Qle_bool (dist (n_point n) p) (coveringDistance n)) eqn:E.
    - apply Qle_bool_iff in E. exists (insert_ dist p n). refine (conj eq_refl (conj (insert_points p n) _)). intro Hc. apply insert_cover; assumption.
    - destruct (raise_loop_ok p (raise_fuel dist p n) n (dist (n_point n) p)) as (n' & -> & A1 & A2 & A3 & A4).
      + exists (n_point n). split; [destruct n; simpl; auto|reflexivity].
      + intros q Hq. apply raise_fuel_ok. exact Hq.
      + reflexivity.
      + cbn [bind]. eexists. refine (conj eq_refl (conj _ _)); [cbn [n_points flat_map]; rewrite app_nil_r; constructor; exact A1|].
        intro Hc. apply cover_tree_node. split; [split|].
        * intros c [<-|[]]. split; [lia|]. rewrite Hsym, pow_succ. exact A4.
        * intros i j a b Hij Ha Hb. destruct i as [|[|i]], j as [|[|j]]; try discriminate; lia.
        * intros c [<-|[]]. apply A2. exact Hc.
  Qed.
  End Metric.
End Facts.
