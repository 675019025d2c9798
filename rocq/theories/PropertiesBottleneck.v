(** * C37: the bottleneck distance. *)
From Coq Require Import List Arith Bool ZArith Lia Permutation.
From Verif Require Import Base BaseFacts Diagram Hausdorff Wasserstein PropertiesWasserstein Bottleneck BottleneckFacts.
Import ListNotations.

(** ** specification *)
Section Spec.
  Variables (d : point -> point -> Z) (o : point -> Z).
  (** all matched points are at most [v] apart, all others at most [v] from the diagonal *)
  Definition within (D1 D2 : list point) (m : list (nat * nat)) (v : Z) : Prop :=
    (forall i j, In (i, j) m -> (d (pt D1 i) (pt D2 j) <= v)%Z) /\
    (forall i, i < length D1 -> ~ In i (map fst m) -> (o (pt D1 i) <= v)%Z) /\
    (forall j, j < length D2 -> ~ In j (map snd m) -> (o (pt D2 j) <= v)%Z).
  Definition matchable (D1 D2 : list point) (v : Z) : Prop := exists m, partial_matching D1 D2 m /\ within D1 D2 m v.
  (** the smallest such value *)
  Definition bottleneck_value (D1 D2 : list point) (v : Z) : Prop :=
    (0 <= v)%Z /\ matchable D1 D2 v /\ forall w, (0 <= w)%Z -> matchable D1 D2 w -> (v <= w)%Z.
End Spec.

(** The full statement: [bottleneckDistance] is defined for all diagrams and equal to
    [bottleneck_value]. It is false (below); the first theorems say what remains. *)

(** ** defined *)
(** If the first diagram has a point, and there is another point in any of the two,
    the distance is defined. *)
Theorem C37_defined_partial : forall dist orth D1 D2, points D1 <> [] -> 2 <= length (points D1) + length (points D2) ->
  exists v, bottleneckDistance dist orth D1 D2 = Ok v.
Proof.
  intros dist orth D1 D2 Hne H2. assert (Hn : 1 <= length (points D1)) by (destruct (points D1); [contradiction|cbn; lia]).
  destruct (always_admits dist orth (points D1) (points D2) Hn) as (w & Hw).
  destruct (search_threshold (length (points D1) + length (points D2)) (bottleneck_edges dist orth (points D1) (points D2)) _ (edges_bipartite dist orth (points D1) (points D2)) (edges_unique dist orth (points D1) (points D2))
    ltac:(rewrite edges_length; lia) w ltac:(lia) Hw) as (v & Hv & _). exists v. exact Hv.
Qed.

(** ** equal diagrams *)
Theorem C37_zero_partial : forall dist orth D, points D <> [] ->
  (forall p, In p (points D) -> dist p p = 0%Z) -> (forall p q, In p (points D) -> In q (points D) -> (0 <= dist p q)%Z) -> (forall p, In p (points D) -> (0 <= orth p)%Z) ->
  bottleneckDistance dist orth D D = Ok 0%Z.
Proof.
  intros dist orth [k P] Hne Hz Hd Ho. cbn [points] in *. assert (Hn : 1 <= length P) by (destruct P; [contradiction|cbn; lia]). set (n := length P) in *.
  assert (A0 : admits (n + n) (parallel P P) (bottleneck_edges dist orth P P) 0%Z).
  { exists (map (fun i => n + n + i) (seq 0 (n + n))). refine (conj _ (conj _ (conj _ _))).
    - rewrite map_length, seq_length. reflexivity.
    - apply FinFun.Injective_map_NoDup; [intros x y E; lia|apply seq_NoDup].
    - intros t Ht. apply in_map_iff in Ht as (i & <- & Hi). apply in_seq in Hi. lia.
    - intros i Hi. rewrite (map_nth_seq (fun i => n + n + i)) by auto. destruct (Nat.lt_ge_cases i n) as [L|L].
      + exists (BEdge i (n + n + i) (dist (nth i P (0%Z, 0%Z)) (nth i P (0%Z, 0%Z)))). refine (conj _ (conj eq_refl (conj _ _))).
        * apply edges_In. right. left. exists i, i. split; [exact L|split; [exact L|reflexivity]].
        * cbn. rewrite Hz; [lia|apply nth_In, L].
        * unfold parallel, pair_of. cbn [fst snd b_source b_target]. change (length P) with n. destruct (Nat.eqb_spec i n); [lia|reflexivity].
      + exists (BEdge i (n + n + i) 0%Z). refine (conj _ (conj eq_refl (conj (Z.le_refl 0) _))).
        * apply edges_In. left. exists i, (n + n + i). change (length P) with n. split; [lia|split; [lia|reflexivity]].
        * unfold parallel, pair_of. cbn [fst snd b_source b_target]. change (length P) with n. destruct (Nat.eqb_spec (n + n + i) (n + n)); [lia|apply andb_false_r]. }
  destruct (search_threshold (n + n) (bottleneck_edges dist orth P P) _ (edges_bipartite dist orth P P) (edges_unique dist orth P P) ltac:(rewrite edges_length; change (length P) with n; lia) 0%Z ltac:(lia) A0) as (v & Hv & Av & Hmin).
  change (bottleneckDistance dist orth (Diagram k P) (Diagram k P)) with (search (n + n) (bottleneck_edges dist orth P P)). rewrite Hv. f_equal. specialize (Hmin 0%Z A0).
  destruct Av as (ts & _ & _ & _ & A). destruct (A 0 ltac:(lia)) as (e & He & _ & Hle & _).
  assert (0 <= b_weight e)%Z; [|lia]. apply edges_In in He as [(i & j & Hi & Hj & ->)|[(i & j & Hi & Hj & ->)|[(i & Hi & ->)|(j & Hj & ->)]]]; cbn; [lia|apply Hd; apply nth_In; auto|apply Ho, nth_In, Hi|apply Ho, nth_In, Hj].
Qed.

(** ** no points in the second diagram *)
Lemma matching_second_empty D1 m : partial_matching D1 [] m -> m = [].
Proof. intros (_ & _ & H). destruct m as [|[i j] m]; [reflexivity|]. destruct (H i j (or_introl eq_refl)) as [_ Hj]. cbn in Hj. lia. Qed.

Theorem C37_second_empty_partial : forall dist orth D1 D2, points D2 = [] -> 2 <= length (points D1) -> (forall p, In p (points D1) -> (0 <= orth p)%Z) ->
  exists v, bottleneckDistance dist orth D1 D2 = Ok v /\ bottleneck_value dist orth (points D1) (points D2) v.
Proof.
  intros dist orth [k P] [k2 P2] E2 Hn Ho. cbn [points] in *. subst P2. set (n := length P) in *.
  destruct (always_admits dist orth P [] ltac:(change (length P) with n; lia)) as (w & Hw0).
  assert (Hw : admits (length P + length (@nil point)) (fun _ => false) (bottleneck_edges dist orth P []) w).
  { destruct Hw0 as (ts & A1 & A2 & A3 & A4). exists ts. refine (conj A1 (conj A2 (conj A3 _))). intros i Hi. destruct (A4 i Hi) as (e & X1 & X2 & X3 & _). exists e. auto. }
  destruct (search_threshold _ _ (fun _ => false) (edges_bipartite dist orth P []) (edges_single dist orth P [] ltac:(cbn; lia) ltac:(change (length P) with n; lia)) ltac:(rewrite edges_length; change (length P) with n; cbn; lia) w ltac:(change (length P) with n; lia) Hw) as (v & Hv & Av & Hmin).
  assert (Iff : forall u, admits (length P + length (@nil point)) (fun _ => false) (bottleneck_edges dist orth P []) u <-> forall i, i < n -> (orth (pt P i) <= u)%Z).
  { intro u. change (length P) with n. split.
    - intros (ts & _ & _ & R & A) i Hi. destruct (A i ltac:(lia)) as (e & He & Hp & Hle & _). apply edges_In in He as [(a & b & Ha & Hb & ->)|[(a & b & Ha & Hb & ->)|[(a & Ha & ->)|(a & Ha & ->)]]]; cbn [length] in *; [unfold n in *; lia|lia| |lia].
      unfold pair_of in Hp. cbn in Hp. injection Hp as -> _. exact Hle.
    - intro H. exists (map (fun i => n + 0 + 0 + i) (seq 0 (n + 0))). refine (conj _ (conj _ (conj _ _))).
      + rewrite map_length, seq_length. reflexivity.
      + apply FinFun.Injective_map_NoDup; [intros x y E; lia|apply seq_NoDup].
      + intros t Ht. apply in_map_iff in Ht as (i & <- & Hi). apply in_seq in Hi. cbn [length]. lia.
      + intros i Hi. cbn [length] in Hi. rewrite (map_nth_seq (fun i => n + 0 + 0 + i)) by auto. exists (BEdge i (n + 0 + 0 + i) (orth (nth i P (0%Z, 0%Z)))). refine (conj _ (conj eq_refl (conj (H i ltac:(lia)) eq_refl))).
        apply edges_In. right. right. left. exists i. change (length P) with n. split; [lia|reflexivity]. }
  exists v. split; [exact Hv|]. assert (Av' := proj1 (Iff v) Av). split; [|split].
  - assert (0 <= orth (pt P 0))%Z by (apply Ho, pt_In; change (length P) with n; lia). specialize (Av' 0 ltac:(lia)). lia.
  - exists []. split; [apply empty_matching|]. refine (conj _ (conj _ _)); [intros i j []|intros i Hi _; apply Av', Hi|intros j Hj; cbn in Hj; lia].
  - intros u _ (m & Hm & _ & Hu & _). apply Hmin, Iff. intros i Hi. apply matching_second_empty in Hm. subst m. apply Hu; [exact Hi|easy].
Qed.

(** ** one point in each diagram *)
Theorem C37_one_each_partial : forall dist orth D1 D2 p q, points D1 = [p] -> points D2 = [q] -> (0 <= dist p q)%Z -> (0 <= orth p)%Z -> (0 <= orth q)%Z ->
  exists v, bottleneckDistance dist orth D1 D2 = Ok v /\ bottleneck_value dist orth (points D1) (points D2) v.
Proof.
  intros dist orth [k1 P1] [k2 P2] p q E1 E2 Hd Hp Hq. cbn [points] in *. subst P1 P2.
  assert (Iff : forall u, (0 <= u)%Z -> admits 2 (fun _ => false) (bottleneck_edges dist orth [p] [q]) u <-> (dist p q <= u)%Z \/ (orth p <= u /\ orth q <= u)%Z).
  { intros u Hu. split.
    - intros (ts & L & N & R & A). destruct ts as [|t0 [|t1 [|]]]; try discriminate. assert (R0 := R t0 ltac:(simpl; auto)). assert (R1 := R t1 ltac:(simpl; auto)).
      assert (t0 <> t1) by (intro E; subst; inversion N as [|? ? X _]; apply X; simpl; auto). destruct (A 0 ltac:(lia)) as (e0 & H0 & P0 & W0 & _). destruct (A 1 ltac:(lia)) as (e1 & H1 & Q1 & W1 & _). cbn [nth] in *.
      vm_compute in H0, H1. destruct H0 as [<-|[<-|[<-|[<-|[]]]]]; cbn in P0; try discriminate; injection P0 as <-; destruct H1 as [<-|[<-|[<-|[<-|[]]]]]; cbn in Q1; try discriminate; injection Q1 as <-; cbn in W0, W1; auto; lia.
    - intros [H|[H H']].
      + exists [2; 3]. refine (conj eq_refl (conj _ (conj _ _))); [repeat constructor; simpl; lia|intros t [<-|[<-|[]]]; lia|]. intros [|[|i]] Hi; [| |lia].
        * exists (BEdge 0 2 (dist p q)). refine (conj _ (conj eq_refl (conj H eq_refl))). cbn. auto.
        * exists (BEdge 1 3 0%Z). refine (conj _ (conj eq_refl (conj Hu eq_refl))). cbn. auto.
      + exists [3; 2]. refine (conj eq_refl (conj _ (conj _ _))); [repeat constructor; simpl; lia|intros t [<-|[<-|[]]]; lia|]. intros [|[|i]] Hi; [| |lia].
        * exists (BEdge 0 3 (orth p)). refine (conj _ (conj eq_refl (conj H eq_refl))). cbn. auto.
        * exists (BEdge 1 2 (orth q)). refine (conj _ (conj eq_refl (conj H' eq_refl))). cbn. auto. }
  assert (Iff' : forall u, matchable dist orth [p] [q] u <-> (dist p q <= u)%Z \/ (orth p <= u /\ orth q <= u)%Z).
  { intro u. split.
    - intros (m & (N1 & N2 & Hm) & W1 & W2 & W3). destruct m as [|[i j] m].
      + right. split; [exact (W2 0 ltac:(cbn; lia) ltac:(easy))|exact (W3 0 ltac:(cbn; lia) ltac:(easy))].
      + left. destruct (Hm i j (or_introl eq_refl)) as [Hi Hj]. cbn in Hi, Hj. replace i with 0 in * by lia. replace j with 0 in * by lia. exact (W1 0 0 (or_introl eq_refl)).
    - intros [H|[H H']].
      + exists [(0, 0)]. split; [refine (conj _ (conj _ _)); [repeat constructor; auto|repeat constructor; auto|intros i j [[= <- <-]|[]]; cbn; lia]|].
        refine (conj _ (conj _ _)); [intros i j [[= <- <-]|[]]; exact H|intros i Hi Hn; cbn in Hi, Hn; exfalso; apply Hn; left; lia|intros i Hi Hn; cbn in Hi, Hn; exfalso; apply Hn; left; lia].
      + exists []. split; [apply empty_matching|]. refine (conj _ (conj _ _)); [intros i j []|intros i Hi _; cbn in Hi; replace i with 0 by lia; exact H|intros i Hi _; cbn in Hi; replace i with 0 by lia; exact H']. }
  destruct (search_threshold 2 (bottleneck_edges dist orth [p] [q]) (fun _ => false) (edges_bipartite dist orth [p] [q]) (edges_single dist orth [p] [q] ltac:(cbn; lia) ltac:(cbn; lia)) ltac:(cbn; lia) (dist p q) ltac:(lia) ltac:(apply Iff; auto; left; lia)) as (v & Hv & Av & Hmin).
  assert (V0 : (0 <= v)%Z).
  { destruct Av as (ts & _ & _ & _ & A). destruct (A 0 ltac:(lia)) as (e & He & _ & Hle & _). vm_compute in He. destruct He as [<-|[<-|[<-|[<-|[]]]]]; cbn in Hle; lia. }
  exists v. split; [exact Hv|]. refine (conj V0 (conj _ _)); [apply Iff', Iff; auto|]. intros w Hw Hmw. apply Hmin. apply Iff; [exact Hw|]. apply Iff', Hmw.
Qed.

(** ** the full statement is false *)
Definition half_orth := orthogonalDistance (fun x => Z.quot x 2) infinityDistance.
Definition bd (D1 D2 : list point) : outcome Z := bottleneckDistance infinityDistance half_orth (Diagram 0 D1) (Diagram 0 D2).

(** Without any edges, the first one is accessed; with one edge, the functor leaves the vector. *)
Theorem C37_empty_refuted : bd [] [] = UB.
Proof. reflexivity. Qed.
Theorem C37_one_point_refuted : forall dist orth p, bottleneckDistance dist orth (Diagram 0 [p]) (Diagram 0 []) = UB.
Proof. reflexivity. Qed.

(** Swapping the diagrams changes the result: the points of the second diagram are
    matched with the diagonal for free. *)
Theorem C37_symmetric_refuted : exists D1 D2, bd D1 D2 = Ok 4%Z /\ bd D2 D1 = Ok 0%Z.
Proof. exists [(0, 4)%Z; (0, 8)%Z], []. vm_compute. auto. Qed.

(** Different diagrams have distance zero. *)
Theorem C37_separated_refuted : exists D1 D2, bd D1 D2 = Ok 0%Z /\ bottleneck_value infinityDistance half_orth D1 D2 4%Z.
Proof.
  exists [], [(0, 4)%Z; (0, 8)%Z]. split; [vm_compute; reflexivity|]. refine (conj _ (conj _ _)); [lia| |].
  - exists []. split; [apply empty_matching|]. refine (conj _ (conj _ _)); [intros i j []|intros i Hi; cbn in Hi; lia|]. intros [|[|j]] Hj _; cbn in Hj; [vm_compute; discriminate|vm_compute; discriminate|lia].
  - intros w _ (m & (_ & _ & Hm) & _ & _ & W). destruct m as [|[i j] m]; [|destruct (Hm i j (or_introl eq_refl)) as [Hi _]; cbn in Hi; lia]. exact (W 1 ltac:(cbn; lia) ltac:(easy)).
Qed.

(** The order of the points matters, and the result may be too large. *)
Theorem C37_order_refuted : exists D1 D1' D2, Permutation D1 D1' /\ bd D1 D2 = Ok 5%Z /\ bd D1' D2 = Ok 1%Z.
Proof. exists [(0, 10)%Z; (0, 2)%Z], [(0, 2)%Z; (0, 10)%Z], [(0, 10)%Z]. split; [constructor|vm_compute; auto]. Qed.

Theorem C37_large_refuted : exists D1 D2, bd D1 D2 = Ok 140%Z /\ matchable infinityDistance half_orth D1 D2 50%Z.
Proof.
  exists [(0, 10)%Z; (50, 60)%Z], [(1, 11)%Z; (100, 200)%Z]. split; [vm_compute; reflexivity|]. exists [(0, 0)].
  split; [refine (conj _ (conj _ _)); [repeat constructor; auto|repeat constructor; auto|intros i j [[= <- <-]|[]]; cbn; lia]|]. refine (conj _ (conj _ _)).
  - intros i j [[= <- <-]|[]]. vm_compute. discriminate.
  - intros [|[|i]] Hi Hn; cbn in Hi; [exfalso; apply Hn; simpl; auto|vm_compute; discriminate|lia].
  - intros [|[|i]] Hi Hn; cbn in Hi; [exfalso; apply Hn; simpl; auto|vm_compute; discriminate|lia].
Qed.

(** ** a concrete case *)
Example C37_example : bd [(0, 4)%Z] [(1, 6)%Z] = Ok 2%Z /\ bd [(0, 4)%Z; (1, 9)%Z] [] = Ok 4%Z /\ bd [(0, 4)%Z; (1, 9)%Z; (7, 8)%Z] [(0, 4)%Z; (1, 9)%Z; (7, 8)%Z] = Ok 0%Z.
Proof. vm_compute. auto. Qed.

Print Assumptions C37_defined_partial.
Print Assumptions C37_zero_partial.
Print Assumptions C37_second_empty_partial.
Print Assumptions C37_one_each_partial.
Print Assumptions C37_empty_refuted.
Print Assumptions C37_one_point_refuted.
Print Assumptions C37_symmetric_refuted.
Print Assumptions C37_separated_refuted.
Print Assumptions C37_order_refuted.
Print Assumptions C37_large_refuted.
