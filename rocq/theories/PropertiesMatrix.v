(** * C10-C15, C18: boundary matrices, reduction, pairings, dualization. *)

From Coq Require Import List Arith Lia Bool Permutation Sorted.
From Verif Require Import Base BaseFacts SpecMatrix Matrix ReductionFacts AlgorithmFacts
  PairingFacts DualFacts RepFacts.
Import ListNotations.

Local Arguments min_low : simpl never.

(** ** C10.  Any program that drives a representation (and may look at every
    answer and every error) behaves in the same way for the three
    representations, if the columns it hands over have no repeated index. *)
Theorem C10_representations_interchangeable : forall (A : Type) (p : prog A) (r r' : rep),
  dupfree p -> run r p empty_matrix = run r' p empty_matrix.
Proof.
  intros A p r r' H.
  assert (Hs : sorted_cols (cols empty_matrix)) by (intros c []).
  rewrite (run_same p r), (run_same p r'); auto.
Qed.

(** The restriction is necessary. *)
Theorem C10_duplicates_refuted :
  exists p : prog (outcome answer),
    fst (run RVector p empty_matrix) <> fst (run RSet p empty_matrix).
Proof.
  exists (Do (OSetNumColumns 1) (fun _ => Do (OSetColumn 0 [4;4]) (fun _ =>
            Ask (QColumn 0) (fun a => Ret a)))).
  simpl. discriminate.
Qed.

Example C10_example :
  let p := Do (OSetNumColumns 3) (fun _ => Do (OSetColumn 2 [1;0]) (fun _ =>
           Do (OSetColumn 1 [0]) (fun _ => Do (OAddColumns 1 2) (fun _ =>
           Do (OClearColumn 7) (fun e => Ask (QColumn 2) (fun a => Ret (e, a))))))) in
  dupfree p /\ fst (run RSet p empty_matrix) = (Throw OutOfRange, Ok (AList [1])).
Proof.
  simpl. split; [|reflexivity].
  repeat split; repeat constructor; simpl; lia.
Qed.

(** ** C11 *)
Theorem C11_standard_reduces : forall M,
  sorted_cols (cols M) -> square (cols M) ->
  exists R, standard M = Ok R /\
    length (cols R) = length (cols M) /\ dims R = dims M /\ dualized R = dualized M /\
    (forall j k, j < length (cols R) -> k < length (cols R) -> j <> k ->
       forall i, getMaximumIndex R j = Ok (Some i) -> getMaximumIndex R k <> Ok (Some i)) /\
    (forall j, j < length (cols M) ->
       exists S, (forall k, In k S -> k < j) /\
         forall r, entry (cols R) r j = xorb (entry (cols M) r j) (sum_cols (cols M) S r)).
Proof.
  intros M Hs Hq. destruct (standard_correct M Hs Hq) as (R & E & Hd & Hdu & HsR & HqR & [HL HE] & HR).
  exists R. refine (conj E (conj HL (conj Hd (conj Hdu (conj _ HE))))).
  intros j k Hj Hk Hne i Hi Hi'.
  assert (H : forall j, j < length (cols R) -> getMaximumIndex R j = Ok (Some i) ->
             is_low (fun r => entry (cols R) r j) i).
  { intros l Hl. unfold getMaximumIndex, at_. rewrite (nth_error_nth_some (cols R) l []) by auto.
    simpl. intros [= X]. apply lowof_some; auto. }
  apply (HR j k i); auto.
Qed.

(** A repeated index in a column, which the vector representation keeps, makes
    the reduction run forever: no number of rounds suffices for column 1. *)
Theorem C11_duplicates_diverge_refuted :
  exists M t, square (cols M) /\
    foldM standard_step [0] (M, repeat None (getNumColumns M)) = Ok (M, t) /\
    forall fuel, reduce_column fuel M t 1 = OutOfFuel.
Proof.
  exists (Matrix [[0;0];[0]] [1;0] false), [Some 0; None].
  split; [|split; [reflexivity|]].
  - intros c r [<-|[<-|[]]]; simpl; lia.
  - induction fuel; [reflexivity|]. simpl in *. exact IHfuel.
Qed.

Definition triangle : matrix :=
  Matrix [[];[];[];[0;1];[1;2];[0;2];[3;4;5]] [0;0;0;1;1;1;2] false.

Lemma triangle_valid : valid_boundary (cols triangle) (dims triangle).
Proof.
  refine (conj eq_refl (conj _ (conj _ _))).
  - intros c Hc. simpl in Hc. repeat destruct Hc as [<-|Hc]; try easy;
      repeat (constructor; simpl; try lia).
  - intros j r. unfold entry.
    do 7 (destruct j as [|j]; [simpl; rewrite ?orb_false_r, ?orb_true_iff, ?Nat.eqb_eq;
      intro H; repeat destruct H as [H|H]; subst; try discriminate; simpl; lia|]).
    simpl. destruct j; discriminate.
  - intros j r.
    do 7 (destruct j as [|j]; [try reflexivity; simpl;
      do 3 (destruct r as [|r]; [reflexivity|]); reflexivity|]).
    simpl. destruct j; reflexivity.
Qed.

Example C11_example :
  sorted_cols (cols triangle) /\ square (cols triangle) /\
  omap cols (standard triangle) = Ok [[];[];[];[0;1];[1;2];[];[3;4;5]].
Proof.
  split; [apply triangle_valid|]. split; [apply valid_square, triangle_valid|]. reflexivity.
Qed.

(** ** C12.  [order] stands for the iteration order of the hash set. *)
Lemma reduce_correct a M :
  valid_boundary (cols M) (dims M) -> exists R, reduce a M = Ok R /\ reduction_of M R.
Proof.
  intro HV. pose proof (valid_square M HV) as Hq. pose proof HV as (_ & Hs & _).
  destruct a; simpl.
  - apply standard_correct; auto.
  - apply twist_correct; auto.
  - apply rectangular_correct; auto.
Qed.

Lemma pairing_correct order a M all mx :
  (forall l, Permutation (order l) l) ->
  valid_boundary (cols M) (dims M) -> dualized M = false ->
  exists p, calculatePersistencePairing order a M all mx = Ok p /\
    is_pairing (cols M) (dims M) all (ok_of mx (length (cols M))) p.
Proof.
  intros Ho HV Hd. destruct (reduce_correct a M HV) as (R & E & HR).
  unfold calculatePersistencePairing. rewrite E. simpl. apply pairing_primal; auto.
Qed.

Theorem C12_same_pairing : forall order order' a a' M all mx,
  (forall l, Permutation (order l) l) -> (forall l, Permutation (order' l) l) ->
  valid_boundary (cols M) (dims M) -> dualized M = false ->
  exists p, calculatePersistencePairing order a M all mx = Ok p /\
            calculatePersistencePairing order' a' M all mx = Ok p.
Proof.
  intros order order' a a' M all mx Ho Ho' HV Hd.
  destruct (pairing_correct order a M all mx Ho HV Hd) as (p & E & Hp).
  destruct (pairing_correct order' a' M all mx Ho' HV Hd) as (q & E' & Hq).
  exists p. split; auto. rewrite E'. f_equal. eapply is_pairing_unique; eauto.
Qed.

(** The pairing is the one defined by smallest possible lowest entries. *)
Theorem C12_pairing_characterised : forall order a M all mx,
  (forall l, Permutation (order l) l) ->
  valid_boundary (cols M) (dims M) -> dualized M = false ->
  exists p, calculatePersistencePairing order a M all mx = Ok p /\
    is_pairing (cols M) (dims M) all
      (fun u => match mx with None => True | Some m => length (cols M) < m \/ u < m end) p.
Proof. exact pairing_correct. Qed.

Example C12_example :
  valid_boundary (cols triangle) (dims triangle) /\
  calculatePersistencePairing (fun l => l) ATwist triangle true None
  = Ok [(0, None); (1, Some 3); (2, Some 4); (5, Some 6)] /\
  calculatePersistencePairing (@rev nat) AStandard triangle false (Some 3)
  = Ok [(0, None); (1, Some 3); (2, Some 4)].
Proof. split; [apply triangle_valid|]. split; reflexivity. Qed.

(** ** C13 *)
Theorem C13_every_index_once : forall order a M,
  (forall l, Permutation (order l) l) ->
  valid_boundary (cols M) (dims M) -> dualized M = false ->
  exists p, calculatePersistencePairing order a M true None = Ok p /\
    Permutation (pair_indices p) (seq 0 (length (cols M))) /\
    (forall u v, In (u, Some v) p -> u < v /\ nth v (dims M) 0 = S (nth u (dims M) 0)) /\
    StronglySorted pair_lt p.
Proof.
  intros order a M Ho HV Hd. destruct (pairing_correct order a M true None Ho HV Hd) as (p & E & Hp).
  exists p. split; auto. destruct (pairing_structure M p HV Hp) as [H1 H2].
  refine (conj H1 (conj H2 _)). apply Hp.
Qed.

Theorem C13_without_top_creators : forall order a M mx,
  (forall l, Permutation (order l) l) ->
  valid_boundary (cols M) (dims M) -> dualized M = false ->
  exists p q, calculatePersistencePairing order a M true mx = Ok p /\
    calculatePersistencePairing order a M false mx = Ok q /\
    q = filter (fun x => match snd x with
                         | Some _ => true
                         | None => negb (nth (fst x) (dims M) 0 =? list_max (dims M))
                         end) p.
Proof.
  intros order a M mx Ho HV Hd.
  destruct (pairing_correct order a M true mx Ho HV Hd) as (p & E & Hp).
  destruct (pairing_correct order a M false mx Ho HV Hd) as (q & E' & Hq).
  exists p, q. refine (conj E (conj E' _)). eapply pairing_without_top; eauto.
Qed.

(** The maximum index keeps exactly the pairs with a creator below it (if it
    does not exceed the number of columns). *)
Theorem C13_maximum_index : forall order a M all m,
  (forall l, Permutation (order l) l) ->
  valid_boundary (cols M) (dims M) -> dualized M = false -> m <= length (cols M) ->
  exists p q, calculatePersistencePairing order a M all None = Ok p /\
    calculatePersistencePairing order a M all (Some m) = Ok q /\
    q = filter (fun x => fst x <? m) p.
Proof.
  intros order a M all m Ho HV Hd Hm.
  destruct (pairing_correct order a M all None Ho HV Hd) as (p & E & Sp & Hp & Up).
  destruct (pairing_correct order a M all (Some m) Ho HV Hd) as (q & E' & Sq & Hq & Uq).
  exists p, q. refine (conj E (conj E' _)). apply sorted_pairs_ext; auto.
  - clear - Sp. induction Sp as [|x l Hl IH Ha]; simpl; [constructor|].
    destruct (fst x <? m); auto. constructor; auto.
    rewrite Forall_forall in *. intros y Hy. apply filter_In in Hy. apply Ha; tauto.
  - intros [u [v|]]; rewrite filter_In; simpl; rewrite Nat.ltb_lt.
    + rewrite Hp, Hq. unfold ok_of. intuition lia.
    + rewrite Up, Uq. unfold ok_of. intuition lia.
Qed.

Example C13_example :
  calculatePersistencePairing (fun l => l) AStandard (Matrix [[];[];[0;1];[0;1]] [0;0;1;1] false) true None
  = Ok [(0, None); (1, Some 2); (3, None)] /\
  calculatePersistencePairing (fun l => l) AStandard (Matrix [[];[];[0;1];[0;1]] [0;0;1;1] false) false None
  = Ok [(0, None); (1, Some 2)].
Proof. split; reflexivity. Qed.

(** ** C14 *)
Theorem C14_dualize_is_anti_transpose : forall M,
  sorted_cols (cols M) -> square (cols M) -> length (dims M) = length (cols M) ->
  let n := length (cols M) in
  exists D, dualize M = Ok D /\ dualized D = negb (dualized M) /\
    length (cols D) = n /\ length (dims D) = n /\
    (forall c, In c (cols D) -> StronglySorted lt c) /\
    (forall r c, r < n -> c < n -> entry (cols D) r c = entry (cols M) (n - 1 - c) (n - 1 - r)) /\
    (forall r c, n <= r -> entry (cols D) r c = false) /\
    (forall j, j < n -> nth j (dims D) 0 = list_max (dims M) - nth (n - 1 - j) (dims M) 0).
Proof.
  intros M Hs Hq Hd n. destruct (dualize_correct M Hs Hq Hd) as (D & E & Hdu & (HL & HsD & HqD & HE) & HLd & HdD).
  exists D. refine (conj E (conj Hdu (conj HL (conj HLd (conj HsD (conj HE (conj _ _))))))).
  - intros r c Hr. destruct (entry (cols D) r c) eqn:X; auto. apply entry_square in X; auto.
    fold n in HL. lia.
  - intros j Hj. specialize (HdD (n - 1 - j)). unfold dimof in HdD. fold n in HdD.
    replace (n - 1 - (n - 1 - j)) with j in HdD by lia. apply HdD. lia.
Qed.

Lemma list_max_attained l : l <> [] -> In (list_max l) l.
Proof.
  induction l as [|a l IH]; [easy|]. intros _. simpl.
  destruct (Nat.max_spec a (list_max l)) as [[H ->]|[H ->]]; auto.
  right. apply IH. intros ->. simpl in H. lia.
Qed.

Theorem C14_dualize_twice : forall M,
  sorted_cols (cols M) -> square (cols M) -> length (dims M) = length (cols M) ->
  exists D D', dualize M = Ok D /\ dualize D = Ok D' /\
    cols D' = cols M /\ dualized D' = dualized M /\ length (dims D') = length (dims M) /\
    exists offset, (forall j, j < length (dims M) -> nth j (dims M) 0 = nth j (dims D') 0 + offset) /\
                   (cols M = [] \/ In offset (dims M)) /\
                   (In 0 (dims M) -> D' = M).
Proof.
  intros M Hs Hq Hd.
  destruct (dualize_correct M Hs Hq Hd) as (D & E & Hdu & HA & HLd & HdD).
  pose proof HA as (HL & HsD & HqD & HE).
  destruct (dualize_correct D HsD HqD) as (D' & E' & Hdu' & HA' & HLd' & HdD'); [congruence|].
  pose proof HA' as (HL' & HsD' & HqD' & HE').
  set (n := length (cols M)) in *. cbv zeta in HL'. rewrite HL in HL', HLd', HdD', HE'.
  exists D, D'. refine (conj E (conj E' _)).
  assert (HC : cols D' = cols M).
  { apply nth_ext with (d := []) (d' := []); [exact HL'|]. intros j Hj. rewrite HL' in Hj.
    apply SSlt_ext; [apply nth_sorted; auto..|]. intro r.
    rewrite <- !mem_In. change (entry (cols D') r j = true <-> entry (cols M) r j = true).
    destruct (lt_dec r n).
    - rewrite HE', HE by lia. replace (n - 1 - (n - 1 - r)) with r by lia.
      replace (n - 1 - (n - 1 - j)) with j by lia. tauto.
    - split; intro X; apply entry_square in X; auto; fold n in X; lia. }
  assert (HF : dualized D' = dualized M) by (rewrite Hdu', Hdu; apply negb_involutive).
  assert (HLL : length (dims D') = length (dims M)) by (rewrite HLd', Hd; auto).
  refine (conj HC (conj HF (conj HLL _))).
  assert (HM : forall j, j < n -> dimof D' j = max_dim (dims D) - (max_dim (dims M) - dimof M j)).
  { intros j Hj. pose proof (HdD j Hj) as H1. pose proof (HdD' (n - 1 - j)) as H2.
    replace (n - 1 - (n - 1 - j)) with j in H2 by lia. rewrite H2, H1 by lia. auto. }
  assert (Hle : forall j, j < n -> max_dim (dims M) - dimof M j <= max_dim (dims D)).
  { intros j Hj. rewrite <- HdD by auto. apply max_dim_ge. }
  exists (max_dim (dims M) - max_dim (dims D)).
  assert (Hoff : forall j, j < n -> dimof M j = dimof D' j + (max_dim (dims M) - max_dim (dims D)) /\
                                    max_dim (dims D) <= max_dim (dims M)).
  { intros j Hj. specialize (HM j Hj). specialize (Hle j Hj).
    pose proof (max_dim_ge (dims M) j) as H1. fold (dimof M j) in H1.
    assert (max_dim (dims D) <= max_dim (dims M)).
    { unfold max_dim at 1. apply list_max_le. apply Forall_forall. intros x Hx.
      destruct (In_nth _ _ 0 Hx) as (i & Hi & <-). rewrite HLd in Hi.
      pose proof (HdD (n - 1 - i)) as H2. replace (n - 1 - (n - 1 - i)) with i in H2 by lia.
      unfold dimof in H2. rewrite H2 by lia. lia. }
    lia. }
  refine (conj _ (conj _ _)).
  - intros j Hj. rewrite Hd in Hj. apply Hoff; auto.
  - destruct (cols M) as [|c C] eqn:EC; auto. right.
    assert (Hne : dims D <> []) by (intro X; rewrite X in HLd; discriminate).
    destruct (In_nth _ _ 0 (list_max_attained _ Hne)) as (i & Hi & Ei). rewrite HLd in Hi.
    change (list_max (dims D)) with (max_dim (dims D)) in Ei.
    pose proof (HdD (n - 1 - i)) as H2. replace (n - 1 - (n - 1 - i)) with i in H2 by lia.
    unfold dimof in H2. rewrite Ei in H2. specialize (H2 ltac:(lia)).
    pose proof (max_dim_ge (dims M) (n - 1 - i)).
    replace (max_dim (dims M) - max_dim (dims D)) with (nth (n - 1 - i) (dims M) 0) by lia.
    apply nth_In. lia.
  - intro H0. destruct (In_nth _ _ 0 H0) as (i & Hi & Ei).
    assert (Hoff0 : max_dim (dims M) - max_dim (dims D) = 0).
    { destruct (Hoff i) as [H1 _]; [lia|]. unfold dimof in H1. lia. }
    destruct M as [mc md mf], D' as [c' d' f']; simpl in *. subst. f_equal.
    apply nth_ext with (d := 0) (d' := 0); auto. intros j Hj.
    destruct (Hoff j) as [H1 _]; [lia|]. unfold dimof in H1; simpl in H1. lia.
Qed.

Example C14_example :
  sorted_cols (cols triangle) /\ square (cols triangle) /\
  dualize triangle = Ok (Matrix [[];[0];[0];[0];[1;2];[2;3];[1;3]] [0;1;1;1;2;2;2] true) /\
  (let* D := dualize triangle in dualize D) = Ok triangle.
Proof.
  split; [apply triangle_valid|]. split; [apply valid_square, triangle_valid|]. split; reflexivity.
Qed.

(** ** C15 *)
Theorem C15_dual_pairing : forall order order' a a' M all mx,
  (forall l, Permutation (order l) l) -> (forall l, Permutation (order' l) l) ->
  valid_boundary (cols M) (dims M) -> dualized M = false ->
  exists D p, dualize M = Ok D /\
    calculatePersistencePairing order a M all mx = Ok p /\
    calculatePersistencePairing order' a' D all mx = Ok p.
Proof.
  intros order order' a a' M all mx Ho Ho' HV Hd.
  pose proof (valid_square M HV) as Hq. pose proof HV as (HLd & Hs & _).
  destruct (dualize_correct M Hs Hq HLd) as (D & E & _).
  pose proof (dual_valid M D HV E) as HVD.
  destruct (pairing_correct order a M all mx Ho HV Hd) as (p & Ep & Hp).
  destruct (reduce_correct a' D HVD) as (R & ER & HR).
  destruct (pairing_dual order' M D R all mx Ho' HV Hd E HR) as (q & Eq & Hq').
  exists D, p. refine (conj E (conj Ep _)).
  unfold calculatePersistencePairing. rewrite ER. simpl. rewrite Eq. f_equal.
  eapply is_pairing_unique; eauto.
Qed.

Example C15_example :
  valid_boundary (cols triangle) (dims triangle) /\
  (let* D := dualize triangle in calculatePersistencePairing (@rev nat) ATwist D false None)
  = Ok [(0, None); (1, Some 3); (2, Some 4); (5, Some 6)].
Proof. split; [apply triangle_valid|reflexivity]. Qed.

(** ** C18 *)
Theorem C18_schedule_independent : forall C X Y,
  schedule (length C) (entry C) X -> fully_reduced (length C) X ->
  schedule (length C) (entry C) Y -> fully_reduced (length C) Y ->
  forall j, j < length C ->
    (forall i, is_low (fun r => X r j) i <-> is_low (fun r => Y r j) i) /\
    ((forall r, X r j = false) <-> (forall r, Y r j = false)).
Proof.
  intros C X Y SX RX SY RY j Hj.
  destruct (schedule_low C X SX RX j Hj) as [HX ZX]. destruct (schedule_low C Y SY RY j Hj) as [HY ZY].
  split.
  - intro i. rewrite HX, HY. tauto.
  - unfold is_zero in *. rewrite ZX, ZY. tauto.
Qed.

(** and agrees with the result of the algorithms (Twist: on valid matrices) *)
Theorem C18_agrees_with_standard : forall M R X,
  sorted_cols (cols M) -> square (cols M) -> standard M = Ok R ->
  schedule (length (cols M)) (entry (cols M)) X -> fully_reduced (length (cols M)) X ->
  forall j i, j < length (cols M) ->
    (is_low (fun r => X r j) i <-> getMaximumIndex R j = Ok (Some i)).
Proof.
  intros M R X Hs Hq E SX RX j i Hj. destruct (schedule_low _ X SX RX j Hj) as [HX _].
  rewrite HX. pose proof (standard_low M R Hs Hq E j Hj) as Hm.
  destruct (standard_correct M Hs Hq) as (R' & E' & _ & _ & _ & _ & [HL _] & _).
  rewrite E in E'. injection E' as <-.
  assert (G : getMaximumIndex R j = Ok (lowof (cols R) j)).
  { unfold getMaximumIndex, at_, lowof. rewrite (nth_error_nth_some (cols R) j []) by lia. reflexivity. }
  rewrite G. split.
  - intro H. f_equal. eapply min_low_unique; eauto.
  - intros [= H]. rewrite H in Hm. exact Hm.
Qed.

Example C18_example :
  let C := [[];[];[];[0;1];[1;2];[0;2]] in
  let X r c := if c =? 5 then false else if c =? 4 then xorb (entry C r 4) (entry C r 3) else entry C r c in
  (exists X', schedule (length C) (entry C) X' /\ forall r c, X' r c = X r c) /\
  fully_reduced (length C) X.
Proof.
  simpl. split.
  - eexists. split.
    + eapply schedule_step. eapply schedule_step. eapply schedule_step. apply schedule_refl.
      * exists 3, 5. split; [lia|]. split; [lia|]. intros r c. reflexivity.
      * exists 4, 5. split; [lia|]. split; [lia|]. intros r c. reflexivity.
      * exists 3, 4. split; [lia|]. split; [lia|]. intros r c. reflexivity.
    + intros r c. simpl. destruct c as [|[|[|[|[|[|c]]]]]]; simpl; try reflexivity;
        destruct r as [|[|[|r]]]; try reflexivity.
  - intros j k i Hj Hk Hne [L1 L1'] [L2 L2'].
    destruct j as [|[|[|[|[|[|j]]]]]]; try lia; try discriminate;
    destruct k as [|[|[|[|[|[|k]]]]]]; try lia; try discriminate.
    + specialize (L1' 1). specialize (L2' 2). destruct i as [|[|[|i]]]; try discriminate;
      try (specialize (L2' ltac:(lia)); discriminate).
    + specialize (L2' 1). specialize (L1' 2). destruct i as [|[|[|i]]]; try discriminate;
      try (specialize (L1' ltac:(lia)); discriminate).
Qed.

(** ** C53 *)
Lemma position_spec {A} (f : A -> bool) l i :
  position f l = Some i <->
  (exists x, nth_error l i = Some x /\ f x = true) /\ (forall k x, k < i -> nth_error l k = Some x -> f x = false).
Proof.
  revert i. induction l as [|a l IH]; intro i; simpl.
  - split; [discriminate|]. intros [(x & H & _) _]. destruct i; discriminate.
  - destruct (f a) eqn:Ea.
    + split.
      * intros [= <-]. split; [exists a; auto|]. intros; lia.
      * intros [(x & H & Hx) Hk]. destruct i as [|i]; auto.
        rewrite (Hk 0 a) in Ea by (simpl; auto; lia). discriminate.
    + split.
      * destruct (position f l) as [n|] eqn:E; [|discriminate]. intros [= <-].
        destruct (proj1 (IH n) eq_refl) as [H1 H2]. split; [exact H1|].
        intros [|k] x Hk Hx; simpl in Hx; [congruence|]. apply (H2 k); auto; lia.
      * intros [(x & H & Hx) Hk]. destruct i as [|i]; simpl in H; [congruence|].
        assert (E : position f l = Some i).
        { apply IH. split; [exists x; auto|]. intros k y Hk' Hy. apply (Hk (S k)); [lia|exact Hy]. }
        rewrite E. auto.
Qed.

Lemma position_none {A} (f : A -> bool) l : position f l = None <-> forall x, In x l -> f x = false.
Proof.
  induction l as [|a l IH]; simpl; [split; [intros _ x []|auto]|].
  destruct (f a) eqn:Ea.
  - split; [discriminate|]. intro H. rewrite H in Ea by auto. discriminate.
  - destruct (position f l); simpl.
    + split; [discriminate|]. intro H. assert (X : Some n = None) by (apply IH; auto). discriminate.
    + split; auto. intros _ x [<-|Hx]; auto. apply IH; auto.
Qed.

Lemma pair_eqb_eq p q : pair_eqb p q = true <-> p = q.
Proof.
  destruct p as [a [b|]], q as [c [d|]]; unfold pair_eqb; simpl;
    rewrite andb_true_iff, ?Nat.eqb_eq; split; intros X; try (destruct X; congruence);
    try (split; congruence); discriminate X.
Qed.

(** A pair is found iff it is in the pairing.  In a pairing calculated from a
    matrix the search for a creator finds the only pair with that creator. *)
Theorem C53_find_pair : forall p c d i,
  (pairing_find p c d = Some i <->
     nth_error p i = Some (c, d) /\ forall k, k < i -> nth_error p k <> Some (c, d)) /\
  (pairing_contains p c d = true <-> In (c, d) p) /\
  (pairing_contains_creator p c = true <-> exists d', In (c, d') p).
Proof.
  intros p c d i. refine (conj _ (conj _ _)).
  - unfold pairing_find. rewrite position_spec. split.
    + intros [(x & H & Hx) Hk]. apply pair_eqb_eq in Hx. subst x. split; auto.
      intros k Hki E. specialize (Hk k _ Hki E). assert (X : pair_eqb (c, d) (c, d) = true) by (apply pair_eqb_eq; auto).
      congruence.
    + intros [H Hk]. split; [exists (c, d); split; auto; apply pair_eqb_eq; auto|].
      intros k x Hki E. destruct (pair_eqb (c, d) x) eqn:X; auto. apply pair_eqb_eq in X. subst x.
      elim (Hk k Hki E).
  - unfold pairing_contains, pairing_find. destruct (position (pair_eqb (c, d)) p) as [n|] eqn:E.
    + split; auto. intros _. apply position_spec in E. destruct E as [(x & H & Hx) _].
      apply pair_eqb_eq in Hx. subst x. eapply nth_error_In; eauto.
    + split; [discriminate|]. intro H. rewrite position_none in E. apply E in H.
      assert (X : pair_eqb (c, d) (c, d) = true) by (apply pair_eqb_eq; auto). congruence.
  - unfold pairing_contains_creator, pairing_find_creator.
    destruct (position (fun q => fst q =? c) p) as [n|] eqn:E.
    + split; auto. intros _. apply position_spec in E. destruct E as [([x y] & H & Hx) _].
      apply Nat.eqb_eq in Hx. simpl in Hx. subst x. exists y. eapply nth_error_In; eauto.
    + split; [discriminate|]. intros (d' & H). rewrite position_none in E. apply E in H. simpl in H.
      rewrite Nat.eqb_refl in H. discriminate.
Qed.

Theorem C53_find_creator : forall order a M all mx p c d,
  (forall l, Permutation (order l) l) ->
  valid_boundary (cols M) (dims M) -> dualized M = false ->
  calculatePersistencePairing order a M all mx = Ok p -> In (c, d) p ->
  exists i, pairing_find_creator p c = Some i /\ nth_error p i = Some (c, d).
Proof.
  intros order a M all mx p c d Ho HV Hd E Hin.
  destruct (pairing_correct order a M all mx Ho HV Hd) as (p' & E' & Hs & Hp & Hu).
  rewrite E in E'. injection E' as <-.
  destruct (pairing_find_creator p c) as [i|] eqn:F.
  - exists i. split; [reflexivity|]. apply position_spec in F. destruct F as [([x y] & H & Hx) _].
    apply Nat.eqb_eq in Hx. simpl in Hx. subst x. transitivity (Some (c, y)); [exact H|]. f_equal. f_equal.
    assert (Hin' : In (c, y) p) by (eapply nth_error_In; eauto).
    destruct d as [v|], y as [v'|]; auto.
    + apply Hp in Hin, Hin'. f_equal. destruct Hin as (A1 & A2 & _), Hin' as (B1 & B2 & _).
      destruct (valid_low_facts M HV c v A1 A2) as (_ & _ & _ & X). auto.
    + apply Hp in Hin. apply Hu in Hin'. elim (proj1 (proj2 (proj2 Hin')) v); tauto.
    + apply Hp in Hin'. apply Hu in Hin. elim (proj1 (proj2 (proj2 Hin)) v'); tauto.
  - exfalso. unfold pairing_find_creator in F. rewrite position_none in F. apply F in Hin. simpl in Hin.
    rewrite Nat.eqb_refl in Hin. discriminate.
Qed.

Definition triangle_pairing : list pair_t := [(0, None); (1, Some 3); (2, Some 4); (5, Some 6)].

Example C53_example :
  let p := triangle_pairing in
  calculatePersistencePairing (fun l => l) ATwist triangle true None = Ok p /\ pairing_find p 2 (Some 4) = Some 2 /\ pairing_find p 2 (Some 6) = None /\ pairing_find_creator p 5 = Some 3 /\ pairing_contains p 0 None = true.
Proof. repeat split; reflexivity. Qed.

Print Assumptions C53_find_pair.
Print Assumptions C53_find_creator.
Print Assumptions C10_representations_interchangeable.
Print Assumptions C10_duplicates_refuted.
Print Assumptions C11_standard_reduces.
Print Assumptions C11_duplicates_diverge_refuted.
Print Assumptions C12_same_pairing.
Print Assumptions C12_pairing_characterised.
Print Assumptions C13_every_index_once.
Print Assumptions C13_without_top_creators.
Print Assumptions C13_maximum_index.
Print Assumptions C14_dualize_is_anti_transpose.
Print Assumptions C14_dualize_twice.
Print Assumptions C15_dual_pairing.
Print Assumptions C18_schedule_independent.
Print Assumptions C18_agrees_with_standard.
