(** * C83: entropies of persistence diagrams. *)
From Coq Require Import List Arith Bool ZArith QArith Qround Lia Lqa Permutation.
From Verif Require Import Base BaseFacts Diagram Norms Curvature SpecCurvature PropertiesCurvature VietorisRips PropertiesVietorisRips BarycentricFacts Entropy.
Import ListNotations.
Local Open Scope nat_scope.

Definition respects (log : Q -> Q) : Prop := forall x y, (x == y)%Q -> (log x == log y)%Q.

Lemma inject_zero a : (inject_Z a == 0)%Q -> a = 0%Z.
Proof. intro H. apply inject_Z_injective. exact H. Qed.

Lemma all_finite_map {A} (f : A -> option Q) (g : A -> Q) l : (forall x, In x l -> f x = Some (g x)) -> all_finite (map f l) = Some (map g l).
Proof.
  induction l as [|a l IH]; intro H; cbn [map all_finite]; [reflexivity|]. rewrite (H a), IH by (simpl; auto; intros; apply H; simpl; auto). reflexivity.
Qed.
Lemma sum_finite_map {A} (f : A -> option Q) (g : A -> Q) l : (forall x, In x l -> f x = Some (g x)) ->
  exists s, sum_finite (map f l) = Some s /\ (s == sumQ g l)%Q.
Proof.
  intro H. unfold sum_finite. rewrite (all_finite_map f g l H). eexists. split; [reflexivity|]. rewrite kahanQ_sum, sumQ_map. reflexivity.
Qed.
Lemma all_finite_none l : In None l -> all_finite l = None.
Proof. induction l as [|a l IH]; intro H; [easy|]. cbn [all_finite]. destruct H as [->|H]; [reflexivity|]. rewrite (IH H). destruct a; reflexivity. Qed.

Lemma sumQ_inject {A} (f : A -> Z) l : (sumQ (fun x => inject_Z (f x)) l == inject_Z (fold_right (fun x acc => f x + acc)%Z 0%Z l))%Q.
Proof. induction l as [|a l IH]; [rewrite sumQ_nil; reflexivity|]. rewrite sumQ_cons, IH. cbn [fold_right]. rewrite inject_Z_plus. reflexivity. Qed.

Lemma sumQ_nonpos {A} (f : A -> Q) l : (forall x, In x l -> f x <= 0)%Q -> (sumQ f l <= 0)%Q.
Proof.
  induction l as [|a l IH]; intro H; [rewrite sumQ_nil; apply Qle_refl|]. rewrite sumQ_cons.
  assert (f a <= 0)%Q by (apply H; simpl; auto). assert (sumQ f l <= 0)%Q by (apply IH; intros; apply H; simpl; auto). lra.
Qed.

(** ** persistent entropy *)
Definition total_persistence (D : diagram) : Z := fold_right (fun p acc => point_persistence p + acc)%Z 0%Z (points D).
Definition share (D : diagram) (p : point) : Q := (inject_Z (point_persistence p) / inject_Z (total_persistence D))%Q.

Lemma Qltb_spec x y : Qltb x y = true <-> (x < y)%Q.
Proof.
  unfold Qltb. rewrite negb_true_iff, <- not_true_iff_false, Qle_bool_iff. split; [apply Qnot_le_lt|apply Qlt_not_le].
Qed.

Lemma share_positive a b : (0 < a * b)%Z -> (0 < inject_Z a / inject_Z b)%Q.
Proof.
  intro H. assert (Hb : (b <> 0)%Z) by nia. assert (E : (inject_Z a / inject_Z b == inject_Z (a * b) * / (inject_Z b * inject_Z b))%Q).
  { rewrite inject_Z_mult. field. intro F. apply Hb. apply inject_zero. exact F. }
  rewrite E. apply Qmult_lt_0_compat.
  - replace 0%Q with (inject_Z 0) by reflexivity. rewrite <- Zlt_Qlt. exact H.
  - apply Qinv_lt_0_compat. rewrite <- inject_Z_mult. replace 0%Q with (inject_Z 0) by reflexivity. rewrite <- Zlt_Qlt. nia.
Qed.

(** The entropy of the shares of the points in the total persistence, for points on
    the same side of the diagonal. *)
Theorem C83_persistent : forall log inf D, respects log ->
  (forall p, In p (points D) -> snd p <> inf /\ (0 < point_persistence p * total_persistence D)%Z) ->
  exists r, persistentEntropy log inf D = Some r /\ (r == - sumQ (fun p => share D p * log (share D p)) (points D))%Q.
Proof.
  intros log inf D Hlog H. unfold persistentEntropy.
  destruct (sum_finite_map (fun p => if isUnpaired inf p then None else Some (inject_Z (point_persistence p))) (fun p => inject_Z (point_persistence p)) (points D)) as (t & Et & Ht).
  { intros p Hp. destruct (H p Hp) as [H1 _]. unfold isUnpaired. destruct (Z.eqb_spec (snd p) inf); [contradiction|reflexivity]. }
  rewrite Et. rewrite sumQ_inject in Ht. fold (total_persistence D) in Ht. rewrite map_map.
  destruct (sum_finite_map (fun p => probability_term log (Some t) (if isUnpaired inf p then None else Some (inject_Z (point_persistence p))))
    (fun p => (inject_Z (point_persistence p) / t * log (inject_Z (point_persistence p) / t))%Q) (points D)) as (s & Es & Hs).
  { intros p Hp. destruct (H p Hp) as [H1 H2]. unfold isUnpaired. destruct (Z.eqb_spec (snd p) inf); [contradiction|]. cbn [probability_term].
    destruct (Qeq_bool t 0) eqn:E0.
    - exfalso. apply Qeq_bool_iff in E0. rewrite Ht in E0. apply inject_zero in E0. rewrite E0 in H2. lia.
    - cbv zeta. assert (L : Qltb 0 (inject_Z (point_persistence p) / t) = true); [|rewrite L; reflexivity].
      apply Qltb_spec. rewrite Ht. apply share_positive. exact H2. }
  rewrite Es. cbn [negated]. eexists. split; [reflexivity|]. rewrite Hs. apply Qopp_comp. apply sumQ_ext. intros p Hp.
  assert (E : (inject_Z (point_persistence p) / t == share D p)%Q) by (unfold share; rewrite Ht; reflexivity).
  cbv beta. rewrite (Hlog _ _ E), E. reflexivity.
Qed.

(** It is not negative, since the logarithms of the shares are not positive. *)
Lemma share_le_one D p : (forall q, In q (points D) -> (0 < point_persistence q * total_persistence D)%Z) -> In p (points D) -> (0 < share D p <= 1)%Q.
Proof.
  intros H Hp. split; [apply share_positive; auto|]. unfold share.
  assert (G : (point_persistence p * total_persistence D <= total_persistence D * total_persistence D)%Z).
  { set (t := total_persistence D) in *. assert (Q : forall l, (forall q, In q l -> (0 < point_persistence q * t)%Z) ->
      (0 <= fold_right (fun q acc => point_persistence q + acc) 0 l * t)%Z /\
      forall q, In q l -> (point_persistence q * t <= fold_right (fun q acc => point_persistence q + acc) 0 l * t)%Z).
    { induction l as [|a l IH]; intro Hl; cbn [fold_right]; [split; [lia|easy]|]. destruct IH as [I1 I2]; [intros; apply Hl; simpl; auto|].
      pose proof (Hl a (or_introl eq_refl)). split; [lia|]. intros q [<-|Hq]; [lia|]. specialize (I2 q Hq). lia. }
    unfold t at 2. apply Q; auto. }
  pose proof (H p Hp) as Hpos. set (a := point_persistence p) in *. set (t := total_persistence D) in *. assert (Ht : (t <> 0)%Z) by nia.
  assert (E : (inject_Z a / inject_Z t == inject_Z (a * t) / inject_Z (t * t))%Q).
  { rewrite !inject_Z_mult. field. intro F. apply Ht. apply inject_zero. exact F. }
  rewrite E. apply Qle_shift_div_r.
  - replace 0%Q with (inject_Z 0) by reflexivity. rewrite <- Zlt_Qlt. nia.
  - rewrite Qmult_1_l, <- Zle_Qle. exact G.
Qed.

Theorem C83_nonnegative : forall log inf D, respects log -> (forall x, (0 < x <= 1)%Q -> (log x <= 0)%Q) ->
  (forall p, In p (points D) -> snd p <> inf /\ (0 < point_persistence p * total_persistence D)%Z) ->
  exists r, persistentEntropy log inf D = Some r /\ (0 <= r)%Q.
Proof.
  intros log inf D Hlog Hneg H. destruct (C83_persistent log inf D Hlog H) as (r & E & Hr). exists r. split; [exact E|]. rewrite Hr.
  assert (sumQ (fun p => share D p * log (share D p)) (points D) <= 0)%Q; [|lra].
  apply sumQ_nonpos. intros p Hp. pose proof (share_le_one D p (fun q Hq => proj2 (H q Hq)) Hp) as [S1 S2].
  specialize (Hneg (share D p) (conj S1 S2)). set (x := share D p) in *. set (y := log x) in *. nra.
Qed.

(** Neither the order of the points nor the unit of the filtration matters. *)
Definition scaled (c : Z) (D : diagram) : diagram := Diagram (dgm_dim D) (map (fun p => (c * fst p, c * snd p)%Z) (points D)).
Theorem C83_invariant : forall log inf inf' c D D', respects log -> (0 < c)%Z -> Permutation (points D') (points (scaled c D)) ->
  (forall p, In p (points D) -> snd p <> inf /\ (0 < point_persistence p * total_persistence D)%Z) ->
  (forall p, In p (points D') -> snd p <> inf') ->
  exists r r', persistentEntropy log inf D = Some r /\ persistentEntropy log inf' D' = Some r' /\ (r == r')%Q.
Proof.
  intros log inf inf' c D D' Hlog Hc P H H'.
  assert (Hp : forall p, point_persistence (c * fst p, c * snd p)%Z = (c * point_persistence p)%Z) by (intro p; unfold point_persistence; cbn [fst snd]; lia).
  assert (T : total_persistence D' = (c * total_persistence D)%Z).
  { assert (T1 : total_persistence D' = total_persistence (scaled c D)).
    { unfold total_persistence. revert P. generalize (points D') (points (scaled c D)). induction 1; cbn [fold_right]; lia. }
    rewrite T1. unfold total_persistence, scaled. cbn [points]. clear -Hp. induction (points D) as [|p l IH]; cbn [map fold_right]; [lia|]. rewrite IH, Hp. lia. }
  destruct (C83_persistent log inf D Hlog H) as (r & E & Hr).
  destruct (C83_persistent log inf' D' Hlog) as (r' & E' & Hr').
  { intros p Hin. split; [apply H'; exact Hin|]. apply (Permutation_in _ P) in Hin. unfold scaled in Hin. cbn [points] in Hin.
    apply in_map_iff in Hin. destruct Hin as (q & <- & Hq). rewrite Hp, T. pose proof (proj2 (H q Hq)). nia. }
  exists r, r'. refine (conj E (conj E' _)). rewrite Hr, Hr'. apply Qopp_comp. rewrite (sumQ_perm _ _ _ P). unfold scaled. cbn [points]. rewrite sumQ_map.
  apply sumQ_ext. intros p Hin.
  assert (Ht : (total_persistence D <> 0)%Z) by (pose proof (proj2 (H p Hin)); nia).
  assert (Q : (share D' (c * fst p, c * snd p)%Z == share D p)%Q).
  { unfold share. rewrite Hp, T, !inject_Z_mult. field. split; intro F; [apply Ht, inject_zero, F|].
    assert (c = 0)%Z; [apply inject_zero, F|lia]. }
  cbv beta. rewrite (Hlog _ _ Q), Q. reflexivity.
Qed.

(** FINDING: a single point on the diagonal or without partner makes the result NaN. *)
Theorem C83_diagonal_refuted : forall log inf D p, In p (points D) -> snd p = inf \/ point_persistence p = 0%Z ->
  persistentEntropy log inf D = None.
Proof.
  intros log inf D p Hp H. unfold persistentEntropy. set (l := map _ (points D)).
  assert (G : In None (map (probability_term log (sum_finite l)) l)).
  { destruct H as [H|H].
    - assert (Hn : In None l).
      { unfold l. apply in_map_iff. exists p. unfold isUnpaired. rewrite H, Z.eqb_refl. auto. }
      apply in_map_iff. exists None. split; [destruct (sum_finite l); reflexivity|exact Hn].
    - destruct (isUnpaired inf p) eqn:U.
      + apply in_map_iff. exists None. split; [destruct (sum_finite l); reflexivity|]. unfold l. apply in_map_iff. exists p. rewrite U. auto.
      + apply in_map_iff. exists (Some (inject_Z (point_persistence p))). split; [|unfold l; apply in_map_iff; exists p; rewrite U; auto].
        unfold probability_term. destruct (sum_finite l) as [t|]; [|reflexivity]. destruct (Qeq_bool t 0) eqn:E0; [reflexivity|]. cbv zeta. rewrite H.
        assert (Q : (inject_Z 0 / t == 0)%Q) by (unfold Qdiv; ring). destruct (Qltb 0 (inject_Z 0 / t)) eqn:L; [|reflexivity].
        apply Qltb_spec in L. rewrite Q in L. exfalso. apply (Qlt_irrefl 0 L). }
  unfold sum_finite at 1. rewrite (all_finite_none _ G). reflexivity.
Qed.

(** ** nearest neighbours *)
Definition entropy_term (log : Q -> Q) (x : Q) : Q := if Qeq_bool x 0 then 0%Q else (x * log x)%Q.
(** the distance of [i] to the nearest other point *)
Definition nearest_other (n : nat) (dist : nat -> nat -> Z) (i : nat) (r : Z) : Prop :=
  (exists j, j < n /\ j <> i /\ dist i j = r) /\ forall j, j < n -> j <> i -> (r <= dist i j)%Z.

Lemma rows_at n (rows : list (list Z)) (r : nat -> Z) : length rows = n -> (forall i, i < n -> exists row, nth_error rows i = Some row /\ nth_error row 1 = Some (r i)) ->
  foldM (fun acc row => let* x := at_ row 1 in Ok (acc ++ [x])) rows [] = Ok (map r (seq 0 n)).
Proof.
  intros L H. assert (G : forall k, k <= n -> foldM (fun acc row => let* x := at_ row 1 in Ok (acc ++ [x])) (firstn k rows) [] = Ok (map r (seq 0 k))).
  { induction k as [|k IH]; intro Hk; [reflexivity|]. destruct (H k ltac:(lia)) as (row & E & F).
    assert (S : firstn (S k) rows = firstn k rows ++ [row]).
    { clear -E. revert rows E. induction k as [|k IH]; intros [|a t] E; try discriminate; cbn in *; [injection E as ->; reflexivity|]. f_equal. apply IH. exact E. }
    rewrite S. rewrite foldM_app, IH by lia. cbn [bind foldM]. unfold at_. rewrite F. cbn [bind]. rewrite seq_S, map_app. reflexivity. }
  specialize (G n (le_n n)). rewrite <- L in G at 1. rewrite firstn_all in G. exact G.
Qed.

Theorem C83_area : forall log pi2 n dist, respects log -> (0 < pi2)%Q -> 2 <= n ->
  (forall i, i < n -> dist i i = 0%Z) -> (forall i j, i < n -> j < n -> (0 <= dist i j)%Z) ->
  exists r : nat -> Z, (forall i, i < n -> nearest_other n dist i (r i)) /\
    let total := fold_right (fun i acc => r i * r i + acc)%Z 0%Z (seq 0 n) in
    ((0 < total)%Z -> exists e, nearestNeighbourAreaEntropy log pi2 n dist = Ok (Some e) /\
       (e == - sumQ (fun i => entropy_term log (inject_Z (r i * r i) / inject_Z total)) (seq 0 n))%Q) /\
    (total = 0%Z -> nearestNeighbourAreaEntropy log pi2 n dist = Ok None).
Proof.
  intros log pi2 n dist Hlog Hpi Hn H0 Hpos.
  destruct (C72_nearest n dist 2 Hn) as (ind & dis & E & L1 & L2 & H).
  set (r := fun i => match nth_error ind i with Some row => dist i (nth 1 row 0) | None => 0%Z end).
  assert (R : forall i, i < n -> nearest_other n dist i (r i) /\ exists row, nth_error dis i = Some row /\ nth_error row 1 = Some (r i)).
  { intros i Hi. destruct (H i Hi) as (row & R1 & R2 & R3 & R4 & R5 & R6 & R7). unfold r. rewrite R1.
    destruct row as [|a [|b [|]]]; try discriminate. cbn [nth]. split; [|eexists; split; [exact R2|reflexivity]].
    assert (Hab : a <> b). { inversion R4 as [|? ? F _]; subst. intros ->. apply F. simpl. auto. }
    assert (Sab : (dist i a <= dist i b)%Z). { inversion R6 as [|? ? _ F]; subst. rewrite Forall_forall in F. apply F. simpl. auto. }
    assert (Ha : a < n) by (apply R5; simpl; auto). assert (Hb : b < n) by (apply R5; simpl; auto).
    pose proof (Hpos i a Hi Ha). pose proof (Hpos i b Hi Hb).
    destruct (Nat.eq_dec i b) as [->|Hib].
    - (* the point itself is second: all values are zero *)
      rewrite (H0 b Hi) in *. split; [exists a; repeat split; auto; lia|]. intros j Hj _. apply Hpos; auto.
    - split; [exists b; auto|]. intros j Hj Hji. destruct (Nat.eq_dec j a) as [->|Hja].
      + (* the first one is not the point itself, which has no smaller distance *)
        assert (Hi' : ~ In i [a; b]) by (intros [F|[F|[]]]; congruence). specialize (R7 b i ltac:(simpl; auto) Hi Hi'). rewrite (H0 i Hi) in R7. lia.
      + destruct (Nat.eq_dec j b) as [->|Hjb]; [lia|]. apply R7; [simpl; auto|exact Hj|]. intros [F|[F|[]]]; congruence. }
  exists r. split; [intros i Hi; apply (R i Hi)|]. cbv zeta. set (total := fold_right _ 0%Z (seq 0 n)).
  unfold nearestNeighbourAreaEntropy. rewrite E. cbn [bind snd].
  rewrite (rows_at n dis r L2) by (intros i Hi; apply (R i Hi)). cbn [bind]. cbv zeta.
  rewrite (map_map r (fun r0 : Z => (inject_Z r0 * inject_Z r0 * pi2)%Q)).
  set (areas := map (fun x => (inject_Z (r x) * inject_Z (r x) * pi2)%Q) (seq 0 n)). set (t := kahanQ_sorted areas).
  assert (Ht : (t == inject_Z total * pi2)%Q).
  { unfold t. rewrite kahanQ_sum. unfold areas. rewrite sumQ_map. unfold total. generalize (seq 0 n). induction l as [|a l IH]; [rewrite sumQ_nil; cbn [fold_right]; ring|].
    rewrite sumQ_cons, IH. cbn [fold_right]. rewrite inject_Z_plus, inject_Z_mult. ring. }
  split; intro Htot.
  - assert (Hz : ~ (inject_Z total == 0)%Q) by (intro F; apply inject_zero in F; lia).
    assert (Hpi0 : ~ (pi2 == 0)%Q) by lra.
    assert (Et : Qeq_bool t 0 = false).
    { apply not_true_iff_false. intro F. apply Qeq_bool_iff in F. rewrite Ht in F. apply Qmult_integral in F. tauto. }
    rewrite Et. unfold areas. rewrite map_map.
    destruct (sum_finite_map (fun x => Some (inject_Z (r x) * inject_Z (r x) * pi2 / t * log_or_zero log (inject_Z (r x) * inject_Z (r x) * pi2 / t))%Q)
      (fun x => (inject_Z (r x) * inject_Z (r x) * pi2 / t * log_or_zero log (inject_Z (r x) * inject_Z (r x) * pi2 / t))%Q) (seq 0 n)) as (s & Es & Hs); [reflexivity|].
    cbv zeta. rewrite Es. cbn [negated]. eexists. split; [reflexivity|]. rewrite Hs. apply Qopp_comp, sumQ_ext. intros i _.
    assert (Ei : (inject_Z (r i) * inject_Z (r i) * pi2 / t == inject_Z (r i * r i) / inject_Z total)%Q).
    { rewrite Ht, inject_Z_mult. field. auto. }
    unfold log_or_zero, entropy_term. set (u := (inject_Z (r i) * inject_Z (r i) * pi2 / t)%Q) in *. set (v := (inject_Z (r i * r i) / inject_Z total)%Q) in *.
    destruct (Qeq_bool u 0) eqn:Eu.
    + apply Qeq_bool_iff in Eu. assert (Ev : Qeq_bool v 0 = true) by (apply Qeq_bool_iff; rewrite <- Ei; exact Eu). rewrite Ev. ring.
    + assert (Ev : Qeq_bool v 0 = false). { apply not_true_iff_false. intro F. apply Qeq_bool_iff in F. rewrite <- Ei in F. apply Qeq_bool_iff in F. congruence. }
      rewrite Ev, (Hlog _ _ Ei), Ei. reflexivity.
  - assert (Et : Qeq_bool t 0 = true) by (apply Qeq_bool_iff; rewrite Ht, Htot; ring). rewrite Et.
    unfold sum_finite. rewrite all_finite_none; [reflexivity|]. unfold areas. rewrite map_map. apply in_map_iff. exists 0. split; [reflexivity|]. apply in_seq. lia.
Qed.

(** FINDING: a diagram with a single point is not handled. *)
Theorem C83_single : forall log pi2 dist, nearestNeighbourAreaEntropy log pi2 1 dist = UB.
Proof. intros. unfold nearestNeighbourAreaEntropy. rewrite C72_too_many by lia. reflexivity. Qed.

(** ** grids *)
Definition smallest (l : list Z) (x : Z) : Prop := In x l /\ forall y, In y l -> (x <= y)%Z.
Definition largest (l : list Z) (x : Z) : Prop := In x l /\ forall y, In y l -> (y <= x)%Z.

Lemma Qltb_false x y : Qltb x y = false <-> (y <= x)%Q.
Proof. rewrite <- not_true_iff_false, Qltb_spec. split; [apply Qnot_lt_le|apply Qle_not_lt]. Qed.

Lemma minQ_spec l : forall x, In (minQ x l) (x :: l) /\ forall y, In y (x :: l) -> (minQ x l <= y)%Q.
Proof.
  induction l as [|a l IH]; intro x; unfold minQ; cbn [fold_left].
  - split; [simpl; auto|]. intros y [<-|[]]. apply Qle_refl.
  - destruct (IH (if Qltb a x then a else x)) as [I1 I2]. unfold minQ in I1, I2. set (m := fold_left _ l _) in *. split.
    + destruct I1 as [I1|I1]; [|simpl; auto]. rewrite <- I1. destruct (Qltb a x); simpl; auto.
    + intros y Hy. assert (Hm : (m <= (if Qltb a x then a else x))%Q) by (apply I2; simpl; auto).
      destruct Hy as [<-|[<-|Hy]]; [| |apply I2; simpl; auto].
      * destruct (Qltb a x) eqn:E; [apply Qltb_spec in E; lra|exact Hm].
      * destruct (Qltb a x) eqn:E; [exact Hm|apply Qltb_false in E; lra].
Qed.
Lemma maxQ_spec l : forall x, In (maxQ x l) (x :: l) /\ forall y, In y (x :: l) -> (y <= maxQ x l)%Q.
Proof.
  induction l as [|a l IH]; intro x; unfold maxQ; cbn [fold_left].
  - split; [simpl; auto|]. intros y [<-|[]]. apply Qle_refl.
  - destruct (IH (if Qltb x a then a else x)) as [I1 I2]. unfold maxQ in I1, I2. set (m := fold_left _ l _) in *. split.
    + destruct I1 as [I1|I1]; [|simpl; auto]. rewrite <- I1. destruct (Qltb x a); simpl; auto.
    + intros y Hy. assert (Hm : ((if Qltb x a then a else x) <= m)%Q) by (apply I2; simpl; auto).
      destruct Hy as [<-|[<-|Hy]]; [| |apply I2; simpl; auto].
      * destruct (Qltb x a) eqn:E; [apply Qltb_spec in E; lra|exact Hm].
      * destruct (Qltb x a) eqn:E; [exact Hm|apply Qltb_false in E; lra].
Qed.

(** a list of multiples *)
Section Multiples.
  Variables (A : Type) (k : Q) (v : A -> Z) (f : A -> Q).
  Hypothesis Hk : (0 < k)%Q.
  Hypothesis Hf : forall a, (f a == k * inject_Z (v a))%Q.

  Lemma multiple_le a b : (f a <= f b)%Q <-> (v a <= v b)%Z.
  Proof. rewrite !Hf. rewrite Qmult_le_l by exact Hk. rewrite <- Zle_Qle. reflexivity. Qed.
  Lemma multiple_min x l lo : smallest (map v (x :: l)) lo -> (minQ (f x) (map f l) == k * inject_Z lo)%Q.
  Proof.
    intros [S1 S2]. destruct (minQ_spec (map f l) (f x)) as [M1 M2]. change (f x :: map f l) with (map f (x :: l)) in *.
    apply in_map_iff in M1. destruct M1 as (a & Ea & Ha). apply in_map_iff in S1. destruct S1 as (b & <- & Hb). rewrite <- Ea.
    assert (v a = v b).
    { assert (v a <= v b)%Z by (apply multiple_le; rewrite Ea; apply M2, in_map; exact Hb). assert (v b <= v a)%Z by (apply S2, in_map; exact Ha). lia. }
    rewrite Hf, H. reflexivity.
  Qed.
  Lemma multiple_max x l hi : largest (map v (x :: l)) hi -> (maxQ (f x) (map f l) == k * inject_Z hi)%Q.
  Proof.
    intros [S1 S2]. destruct (maxQ_spec (map f l) (f x)) as [M1 M2]. change (f x :: map f l) with (map f (x :: l)) in *.
    apply in_map_iff in M1. destruct M1 as (a & Ea & Ha). apply in_map_iff in S1. destruct S1 as (b & <- & Hb). rewrite <- Ea.
    assert (v a = v b).
    { assert (v b <= v a)%Z by (apply multiple_le; rewrite Ea; apply M2, in_map; exact Hb). assert (v a <= v b)%Z by (apply S2, in_map; exact Ha). lia. }
    rewrite Hf, H. reflexivity.
  Qed.
End Multiples.

Definition strip (n : nat) (lo hi v : Z) : nat := Z.to_nat ((v - lo) * (Z.of_nat n - 1) / (hi - lo)).

Lemma grid_index_spec n k lo hi v x0 x1 x : (0 < k)%Q -> 2 <= n -> (lo < hi)%Z ->
  (x0 == k * inject_Z lo)%Q -> (x1 == k * inject_Z hi)%Q -> (x == k * inject_Z v)%Q -> grid_index n x0 x1 x = Ok (strip n lo hi v).
Proof.
  intros Hk Hn Hlt E0 E1 E. unfold grid_index.
  assert (Hd : ~ (inject_Z (hi - lo) == 0)%Q) by (intro F; apply inject_zero in F; lia).
  assert (Hk0 : ~ (k == 0)%Q) by lra.
  assert (Q0 : Qeq_bool x0 x1 = false).
  { apply not_true_iff_false. intro F. apply Qeq_bool_iff in F. rewrite E0, E1 in F. apply Hd. unfold Z.sub. rewrite inject_Z_plus, inject_Z_opp.
    apply Qmult_inj_l in F; [|exact Hk0]. rewrite F. ring. }
  rewrite Q0. destruct (Nat.eqb_spec n 1); [lia|]. destruct (Nat.eqb_spec n 0); [lia|]. cbv zeta. f_equal. unfold strip. f_equal.
  assert (Hn1 : ~ (inject_Z (Z.of_nat n - 1) == 0)%Q) by (intro F; apply inject_zero in F; lia).
  assert (G : ((x - x0) / ((x1 - x0) / inject_Z (Z.of_nat n - 1)) == inject_Z ((v - lo) * (Z.of_nat n - 1)) / inject_Z (hi - lo))%Q).
  { rewrite E0, E1, E. rewrite inject_Z_mult. unfold Z.sub at 2. unfold Z.sub at 3. rewrite !inject_Z_plus, !inject_Z_opp. field.
    assert (Hd' : ~ (inject_Z hi + - inject_Z lo == 0)%Q) by (intro F; apply Hd; unfold Z.sub; rewrite inject_Z_plus, inject_Z_opp; exact F).
    refine (conj _ (conj Hn1 _)); intro F; apply Hd'; [rewrite <- F; ring|].
    assert (F' : (k * (inject_Z hi + - inject_Z lo) == 0)%Q) by (rewrite <- F; ring). apply Qmult_integral in F'. destruct F'; [contradiction|assumption]. }
  rewrite (Qfloor_comp _ _ G). symmetry. apply Zdiv_Qdiv.
Qed.

Lemma strip_bound n lo hi v : 2 <= n -> (lo < hi)%Z -> (lo <= v <= hi)%Z -> strip n lo hi v < n.
Proof.
  intros Hn Hlt Hv. unfold strip. assert ((v - lo) * (Z.of_nat n - 1) / (hi - lo) <= Z.of_nat n - 1)%Z; [|lia].
  replace (Z.of_nat n - 1)%Z with ((Z.of_nat n - 1) * (hi - lo) / (hi - lo))%Z at 2 by (apply Z.div_mul; lia).
  apply Z.div_le_mono; [lia|]. nia.
Qed.

(** counting *)
Lemma count_cells {A} (g : A -> outcome nat) (idx : A -> nat) m l : forall cells, length cells = m ->
  (forall p, In p l -> g p = Ok (idx p) /\ idx p < m) ->
  exists cells', foldM (fun cells p => let* i := g p in let* v := get_ cells i in Ok (upd cells i (S v))) l cells = Ok cells' /\
    length cells' = m /\ forall c, c < m -> nth c cells' 0 = nth c cells 0 + length (filter (fun p => idx p =? c) l).
Proof.
  induction l as [|p l IH]; intros cells L H; cbn [foldM].
  - exists cells. refine (conj eq_refl (conj L _)). intros c _. simpl. lia.
  - destruct (H p (or_introl eq_refl)) as [E1 E2]. rewrite E1. cbn [bind]. unfold get_.
    rewrite (nth_error_nth' cells 0) by lia. cbn [bind].
    destruct (IH (upd cells (idx p) (S (nth (idx p) cells 0)))) as (cells' & F & L' & Hc); [rewrite upd_length; exact L|intros; apply H; simpl; auto|].
    exists cells'. refine (conj F (conj L' _)). intros c Hcm. rewrite Hc by exact Hcm. cbn [filter].
    assert (U : nth c (upd cells (idx p) (S (nth (idx p) cells 0))) 0 = if idx p =? c then S (nth c cells 0) else nth c cells 0).
    { destruct (Nat.eqb_spec (idx p) c) as [<-|Hne].
      - apply nth_error_nth. rewrite nth_error_upd_eq by lia. reflexivity.
      - apply nth_error_nth. rewrite nth_error_upd_neq by congruence. apply nth_error_nth'. lia. }
    rewrite U. destruct (idx p =? c); cbn [length]; lia.
Qed.

Lemma seq_square n : forall k, seq 0 (k * n) = flat_map (fun j => map (fun i => j * n + i) (seq 0 n)) (seq 0 k).
Proof.
  induction k as [|k IH]; [reflexivity|]. rewrite seq_S, flat_map_app. cbn [flat_map]. rewrite app_nil_r, <- IH.
  replace (S k * n) with (k * n + n) by lia. rewrite seq_app. f_equal. cbn [plus].
  assert (G : forall a m, seq a m = map (fun i => a + i) (seq 0 m)).
  { clear. intros a m. revert a. induction m as [|m IH]; intro a; [reflexivity|]. cbn [seq map]. f_equal; [lia|]. rewrite IH, <- seq_shift, map_map. rewrite (map_ext (fun x => a + S x) (fun x => S a + x)) by (intro; lia). reflexivity. }
  apply G.
Qed.

Definition column_of (n : nat) (dmin dmax : Z) (p : point) : nat := strip n dmin dmax (snd p).
Definition row_of (n : nat) (bmin bmax : Z) (p : point) : nat := strip n 0 (bmax - bmin) (bmax - fst p).

(** The number of points in each cell of a grid on the bounding box of births and
    deaths; cells do not contain their upper boundaries. *)
Theorem C83_grid : forall log c D n bmin bmax dmin dmax, (0 < c)%Q -> 2 <= n ->
  smallest (map fst (points D)) bmin -> largest (map fst (points D)) bmax -> (bmin < bmax)%Z ->
  smallest (map snd (points D)) dmin -> largest (map snd (points D)) dmax -> (dmin < dmax)%Z ->
  (forall p, In p (points D) -> column_of n dmin dmax p < n /\ row_of n bmin bmax p < n) /\
  exists e, gridEntropy log c D n = Ok (Some e) /\
    (e == - sumQ (fun j => sumQ (fun i => entropy_term log
       (inject_Z (Z.of_nat (length (filter (fun p => (column_of n dmin dmax p =? i) && (row_of n bmin bmax p =? j)) (points D)))) /
        inject_Z (Z.of_nat (length (points D))))) (seq 0 n)) (seq 0 n))%Q.
Proof.
  intros log c D n bmin bmax dmin dmax Hc Hn B0 B1 Hb D0 D1 Hd.
  assert (Bd : forall p, In p (points D) -> column_of n dmin dmax p < n /\ row_of n bmin bmax p < n).
  { intros p Hp. split; apply strip_bound; try lia.
    - split; [apply (proj2 D0)|apply (proj2 D1)]; apply in_map; exact Hp.
    - pose proof (proj2 B0 _ (in_map fst _ _ Hp)). pose proof (proj2 B1 _ (in_map fst _ _ Hp)). lia. }
  split; [exact Bd|]. unfold gridEntropy, transformed.
  set (k := (2 * c)%Q). assert (Hk : (0 < k)%Q) by (unfold k; lra).
  rewrite !map_map. cbn [fst snd].
  set (fx := fun p : Z * Z => (c * inject_Z (fst p + snd p) + c * inject_Z (snd p - fst p))%Q).
  set (fy := fun p : Z * Z => (- c * inject_Z (fst p + snd p) + c * inject_Z (snd p - fst p))%Q).
  assert (Ex : forall p, (fx p == k * inject_Z (snd p))%Q) by (intro p; unfold fx, k, Z.sub; rewrite !inject_Z_plus, inject_Z_opp; ring).
  assert (Ey : forall p, (fy p == k * inject_Z (- fst p))%Q) by (intro p; unfold fy, k, Z.sub; rewrite !inject_Z_plus, !inject_Z_opp; ring).
  assert (EP : exists p0 ps, points D = p0 :: ps) by (destruct (points D) as [|p0 ps]; [destruct B0 as [[] _]|eauto]). destruct EP as (p0 & ps & EP).
  rewrite EP in B0, B1, D0, D1.
  assert (EX : map fx (points D) = fx p0 :: map fx ps) by (rewrite EP; reflexivity).
  assert (EY : map fy (points D) = fy p0 :: map fy ps) by (rewrite EP; reflexivity).
  rewrite EX, EY. cbv iota.
  assert (X0 : (minQ (fx p0) (map fx ps) == k * inject_Z dmin)%Q) by (apply (multiple_min _ k snd fx Hk Ex p0 ps dmin D0)).
  assert (X1 : (maxQ (fx p0) (map fx ps) == k * inject_Z dmax)%Q) by (apply (multiple_max _ k snd fx Hk Ex p0 ps dmax D1)).
  assert (Y0 : (minQ (fy p0) (map fy ps) == k * inject_Z (- bmax))%Q).
  { apply (multiple_min _ k (fun p => (- fst p)%Z) fy Hk Ey p0 ps). destruct B1 as [B1 B1']. split.
    - apply in_map_iff in B1. destruct B1 as (p & <- & Hp). apply in_map_iff. exists p. auto.
    - intros y Hy. apply in_map_iff in Hy. destruct Hy as (p & <- & Hp). specialize (B1' _ (in_map fst _ _ Hp)). lia. }
  assert (Y1 : (maxQ (fy p0) (map fy ps) == k * inject_Z (- bmin))%Q).
  { apply (multiple_max _ k (fun p => (- fst p)%Z) fy Hk Ey p0 ps). destruct B0 as [B0 B0']. split.
    - apply in_map_iff in B0. destruct B0 as (p & <- & Hp). apply in_map_iff. exists p. auto.
    - intros y Hy. apply in_map_iff in Hy. destruct Hy as (p & <- & Hp). specialize (B0' _ (in_map fst _ _ Hp)). lia. }
  cbv zeta.
  set (x0 := minQ (fx p0) (map fx ps)) in *. set (x1 := maxQ (fx p0) (map fx ps)) in *.
  set (y0 := minQ (fy p0) (map fy ps)) in *. set (y1 := maxQ (fy p0) (map fy ps)) in *.
  rewrite <- EX, <- EY.
  assert (C : forall l, combine (map fx l) (map fy l) = map (fun p => (fx p, fy p)) l) by (induction l as [|a l IH]; cbn [map combine]; congruence).
  rewrite C.
  assert (FM : forall l cells, foldM (fun cells p => let* i := grid_index n x0 x1 (fst p) in let* j := grid_index n y0 y1 (snd p) in
      let* v := get_ cells (j * n + i) in Ok (upd cells (j * n + i) (S v))) (map (fun p => (fx p, fy p)) l) cells =
    foldM (fun cells p => let* i := (let* i := grid_index n x0 x1 (fx p) in let* j := grid_index n y0 y1 (fy p) in Ok (j * n + i)) in
      let* v := get_ cells i in Ok (upd cells i (S v))) l cells).
  { induction l as [|a l IH]; intro cells; cbn [map foldM fst snd]; [reflexivity|].
    destruct (grid_index n x0 x1 (fx a)); cbn [bind]; try reflexivity. destruct (grid_index n y0 y1 (fy a)); cbn [bind]; try reflexivity.
    destruct (get_ cells _); cbn [bind]; try reflexivity. apply IH. }
  rewrite FM.
  set (idx := fun p => row_of n bmin bmax p * n + column_of n dmin dmax p).
  destruct (count_cells (fun p => let* i := grid_index n x0 x1 (fx p) in let* j := grid_index n y0 y1 (fy p) in Ok (j * n + i)) idx (n * n) (points D) (repeat 0 (n * n))) as (cells & E & L & HC).
  { apply repeat_length. }
  { intros p Hp. destruct (Bd p Hp) as [P1 P2]. split; [|unfold idx; nia].
    rewrite (grid_index_spec n k dmin dmax (snd p) x0 x1 (fx p) Hk Hn Hd X0 X1 (Ex p)). cbn [bind].
    rewrite (grid_index_spec n k (- bmax) (- bmin) (- fst p) y0 y1 (fy p) Hk Hn ltac:(lia) Y0 Y1 (Ey p)). cbn [bind].
    assert (R : strip n (- bmax) (- bmin) (- fst p) = row_of n bmin bmax p).
    { unfold row_of, strip. replace (- fst p - - bmax)%Z with (bmax - fst p - 0)%Z by lia. replace (- bmin - - bmax)%Z with (bmax - bmin - 0)%Z by lia. reflexivity. }
    rewrite R. reflexivity. }
  rewrite E. cbn [bind].
  destruct (sum_finite_map (fun k0 : nat => if k0 =? 0 then Some 0%Q else Some (inject_Z (Z.of_nat k0) / inject_Z (Z.of_nat (length (map (fun p => (inject_Z (fst p + snd p), inject_Z (snd p - fst p))) (points D)))) *
       log_or_zero log (inject_Z (Z.of_nat k0) / inject_Z (Z.of_nat (length (map (fun p => (inject_Z (fst p + snd p), inject_Z (snd p - fst p))) (points D))))))%Q)
     (fun k0 => entropy_term log (inject_Z (Z.of_nat k0) / inject_Z (Z.of_nat (length (points D))))) cells) as (s & Es & Hs).
  { intros x Hx. rewrite map_length. unfold entropy_term, log_or_zero. destruct (Nat.eqb_spec x 0) as [->|Hx0].
    - cbn. reflexivity.
    - destruct (Qeq_bool _ 0) eqn:Q; [|reflexivity]. exfalso. apply Qeq_bool_iff in Q. unfold Qdiv in Q. apply Qmult_integral in Q.
      destruct Q as [Q|Q]; [apply inject_zero in Q; lia|]. assert (P : (0 < / inject_Z (Z.of_nat (length (points D))))%Q); [|rewrite Q in P; exact (Qlt_irrefl 0 P)].
      apply Qinv_lt_0_compat. replace 0%Q with (inject_Z 0) by reflexivity. rewrite <- Zlt_Qlt. rewrite EP. cbn [length]. lia. }
  rewrite Es. cbn [negated]. eexists. split; [reflexivity|]. rewrite Hs. apply Qopp_comp.
  assert (EC : cells = map (fun m => length (filter (fun p => idx p =? m) (points D))) (seq 0 (n * n))).
  { apply (nth_ext _ _ 0 0); [rewrite map_length, seq_length; exact L|]. intros m Hm. rewrite L in Hm. rewrite HC by exact Hm.
    rewrite nth_repeat. cbn [plus]. symmetry. rewrite (nth_indep _ _ (length (filter (fun p => idx p =? 0) (points D)))) by (rewrite map_length, seq_length; exact Hm).
    rewrite (map_nth (fun m => length (filter (fun p => idx p =? m) (points D)))). rewrite seq_nth by exact Hm. reflexivity. }
  rewrite EC, sumQ_map, seq_square, sumQ_flat. apply sumQ_ext. intros j Hj. rewrite sumQ_map. apply sumQ_ext. intros i Hi. cbv beta.
  apply in_seq in Hi, Hj.
  assert (EF : filter (fun p => idx p =? j * n + i) (points D) = filter (fun p => (column_of n dmin dmax p =? i) && (row_of n bmin bmax p =? j)) (points D)).
  { apply filter_ext_in. intros p Hp. destruct (Bd p Hp) as [P1 P2]. unfold idx. apply eq_iff_eq_true. rewrite andb_true_iff, !Nat.eqb_eq. split; [|intros [-> ->]; reflexivity].
    intro F. assert (row_of n bmin bmax p = j) by nia. split; [nia|exact H]. }
  rewrite EF. reflexivity.
Qed.

(** FINDING: the grid is undefined if all points have the same birth value (as in
    dimension zero of a Vietoris--Rips filtration), or the same death value; the
    same holds for [n = 0]. *)
Theorem C83_grid_constant_refuted : forall log c D n, (0 < c)%Q -> points D <> [] ->
  (exists x, forall p, In p (points D) -> fst p = x) \/ (exists x, forall p, In p (points D) -> snd p = x) ->
  gridEntropy log c D n = UB.
Proof.
  intros log c D n Hc Hne H. unfold gridEntropy, transformed.
  set (k := (2 * c)%Q). assert (Hk : (0 < k)%Q) by (unfold k; lra). rewrite !map_map. cbn [fst snd].
  set (fx := fun p : Z * Z => (c * inject_Z (fst p + snd p) + c * inject_Z (snd p - fst p))%Q).
  set (fy := fun p : Z * Z => (- c * inject_Z (fst p + snd p) + c * inject_Z (snd p - fst p))%Q).
  assert (Ex : forall p, (fx p == k * inject_Z (snd p))%Q) by (intro p; unfold fx, k, Z.sub; rewrite !inject_Z_plus, inject_Z_opp; ring).
  assert (Ey : forall p, (fy p == k * inject_Z (- fst p))%Q) by (intro p; unfold fy, k, Z.sub; rewrite !inject_Z_plus, !inject_Z_opp; ring).
  destruct (points D) as [|p0 ps]; [easy|]. cbn [map combine foldM]. cbv zeta. cbn [fst snd].
  destruct H as [(x & H)|(x & H)].
  - assert (Q : Qeq_bool (minQ (fy p0) (map fy ps)) (maxQ (fy p0) (map fy ps)) = true).
    { apply Qeq_bool_iff. rewrite (multiple_min _ k (fun p => (- fst p)%Z) fy Hk Ey p0 ps (- x)), (multiple_max _ k (fun p => (- fst p)%Z) fy Hk Ey p0 ps (- x)); [reflexivity| |].
      - split; [left; f_equal; apply H; simpl; auto|]. intros y Hy. apply in_map_iff in Hy. destruct Hy as (p & <- & Hp). rewrite (H p Hp). lia.
      - split; [left; f_equal; apply H; simpl; auto|]. intros y Hy. apply in_map_iff in Hy. destruct Hy as (p & <- & Hp). rewrite (H p Hp). lia. }
    unfold grid_index. rewrite Q. destruct (Qeq_bool (minQ (fx p0) (map fx ps)) (maxQ (fx p0) (map fx ps))); [reflexivity|]. destruct (n =? 1); reflexivity.
  - assert (Q : Qeq_bool (minQ (fx p0) (map fx ps)) (maxQ (fx p0) (map fx ps)) = true).
    { apply Qeq_bool_iff. rewrite (multiple_min _ k snd fx Hk Ex p0 ps x), (multiple_max _ k snd fx Hk Ex p0 ps x); [reflexivity| |].
      - split; [left; apply H; simpl; auto|]. intros y Hy. apply in_map_iff in Hy. destruct Hy as (p & <- & Hp). rewrite (H p Hp). lia.
      - split; [left; apply H; simpl; auto|]. intros y Hy. apply in_map_iff in Hy. destruct Hy as (p & <- & Hp). rewrite (H p Hp). lia. }
    unfold grid_index at 1. rewrite Q. reflexivity.
Qed.

Theorem C83_grid_empty : forall log c D n,
  (points D = [] -> gridEntropy log c D n = Ok (Some 0%Q)) /\ (points D <> [] -> gridEntropy log c D 0 = UB).
Proof.
  intros log c D n. split; intro H; unfold gridEntropy, transformed.
  - rewrite H. reflexivity.
  - destruct (points D) as [|p ps]; [easy|]. cbn [map combine foldM]. cbv zeta. unfold grid_index.
    destruct (Qeq_bool _ _); [reflexivity|]. cbn [Nat.eqb bind]. destruct (Qeq_bool _ _); [reflexivity|]. cbn [Nat.eqb bind mult plus repeat].
    assert (G : forall A m, @nth_error A [] m = None) by (intros A [|m]; reflexivity). unfold get_. rewrite G. reflexivity.
Qed.

(** a diagram with two points of each share 1/4 and one of 1/2; a logarithm that is
    exact for powers of two *)
Definition log_example (x : Q) : Q := (if Qeq_bool x (1 # 2) then -1 else if Qeq_bool x (1 # 4) then -2 else 0)%Q.
Example C83_example :
  (exists r, persistentEntropy log_example 1000 (Diagram 0 [(0, 2); (1, 5); (3, 5)]%Z) = Some r /\ (r == 3 # 2)%Q) /\
  persistentEntropy log_example 1000 (Diagram 0 [(0, 2); (1, 5); (3, 3)]%Z) = None /\
  (exists r, gridEntropy log_example (5 # 7) (Diagram 0 [(0, 2); (1, 5); (4, 6); (4, 10)]%Z) 2 = Ok (Some r) /\ (r == 3 # 2)%Q) /\
  (exists r, nearestNeighbourAreaEntropy log_example (44 # 7) 4 (fun a b => Z.abs (nth a [0; 1; 2; 3]%Z 0%Z - nth b [0; 1; 2; 3]%Z 0%Z)) = Ok (Some r) /\ (r == 2)%Q).
Proof.
  split; [eexists; split; [vm_compute; reflexivity|vm_compute; reflexivity]|]. split; [vm_compute; reflexivity|].
  split; eexists; split; vm_compute; reflexivity.
Qed.

Print Assumptions C83_persistent.
Print Assumptions C83_nonnegative.
Print Assumptions C83_invariant.
Print Assumptions C83_diagonal_refuted.
Print Assumptions C83_area.
Print Assumptions C83_single.
Print Assumptions C83_grid.
Print Assumptions C83_grid_constant_refuted.
Print Assumptions C83_grid_empty.
