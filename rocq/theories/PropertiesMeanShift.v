(** * Mean-shift smoothing. *)
From Coq Require Import List Arith Bool ZArith QArith Lia Lqa.
From Verif Require Import Base BaseFacts DualFacts FloydFacts BarycentricFacts SpecCurvature Curvature PropertiesCurvature Statistics PropertiesStatistics Descriptors.
Import ListNotations.
Local Open Scope nat_scope.

(** the weight of a neighbour with distance [d] *)
Definition shift_weight (d : Q) : Q := if Qlt_le_dec 0 d then (1 / (d * d))%Q else 1%Q.
Lemma shift_weight_pos d : (0 < shift_weight d)%Q.
Proof.
  unfold shift_weight. destruct (Qlt_le_dec 0 d) as [H|_]; [|reflexivity]. apply Qlt_shift_div_l; [nra|]. rewrite Qmult_0_l. reflexivity.
Qed.
Lemma shift_weight_eq d : (if Qltb 0 d then 1 / (d * d) else 1)%Q = shift_weight d.
Proof.
  unfold shift_weight, Qltb. destruct (Qlt_le_dec 0 d) as [H|H].
  - destruct (Qle_bool d 0) eqn:E; [apply Qle_bool_iff in E; lra|reflexivity].
  - apply Qle_bool_iff in H. rewrite H. reflexivity.
Qed.

(** every point has as many distances as neighbours, and a neighbour *)
Definition row_ok (N : nat) (ns : list nat) (ds : list Q) : Prop := ns <> [] /\ length ds = length ns /\ forall j, In j ns -> j < N.
Definition rows_ok (N : nat) (indices : list (list nat)) (distances : list (list Q)) : Prop :=
  length indices = N /\ length distances = N /\ forall i, i < N -> row_ok N (nth i indices []) (nth i distances []).

Definition weights (ns : list nat) (ds : list Q) : Q := sumQ (fun j => shift_weight (nth j ds 0%Q)) (seq 0 (length ns)).
Definition weighted (data : list Q) (ns : list nat) (ds : list Q) : Q := sumQ (fun j => nth (nth j ns 0%nat) data 0 * shift_weight (nth j ds 0))%Q (seq 0 (length ns)).

Lemma sumQ_pos {A} (f : A -> Q) l : l <> [] -> (forall x, In x l -> 0 < f x)%Q -> (0 < sumQ f l)%Q.
Proof.
  induction l as [|a l IH]; intros Hne H; [contradiction|]. rewrite sumQ_cons. pose proof (H a (or_introl eq_refl)). destruct l as [|b l]; [rewrite sumQ_nil; lra|]. assert (0 < sumQ f (b :: l))%Q by (apply IH; [discriminate|intros; apply H; simpl; auto]). lra.
Qed.
Lemma sumQ_le {A} (f g : A -> Q) l : (forall x, In x l -> f x <= g x)%Q -> (sumQ f l <= sumQ g l)%Q.
Proof. induction l as [|a l IH]; intro H; [apply Qle_refl|]. rewrite !sumQ_cons. pose proof (H a (or_introl eq_refl)). assert (sumQ f l <= sumQ g l)%Q by (apply IH; intros; apply H; simpl; auto). lra. Qed.
Lemma sumQ_scale {A} (c : Q) (f : A -> Q) l : (sumQ (fun x => c * f x) l == c * sumQ f l)%Q.
Proof. induction l as [|a l IH]; [rewrite !sumQ_nil; ring|]. rewrite !sumQ_cons, IH. ring. Qed.
Lemma sumQ_add {A} (f g : A -> Q) l : (sumQ (fun x => f x + g x) l == sumQ f l + sumQ g l)%Q.
Proof. induction l as [|a l IH]; [rewrite !sumQ_nil; ring|]. rewrite !sumQ_cons, IH. ring. Qed.

Lemma weights_pos ns ds : ns <> [] -> (0 < weights ns ds)%Q.
Proof. intro H. apply sumQ_pos; [destruct ns; [contradiction|discriminate]|]. intros j _. apply shift_weight_pos. Qed.

Lemma shift_row_ok N data ns ds : row_ok N ns ds -> N <= length data -> exists v, shift_row data ns ds = Ok (Some v) /\ (v == weighted data ns ds / weights ns ds)%Q.
Proof.
  intros (Hne & Hl & Hn) Hd. unfold shift_row.
  match goal with |- context [foldM ?f _ _] => set (step := f) end.
  destruct (foldM_ind step
    (fun m st => (fst (fst st) == sumQ (fun j => nth (nth j ns 0%nat) data 0 * shift_weight (nth j ds 0)) (seq 0 m) /\ snd (fst st) == 0 /\
                  fst (snd st) == sumQ (fun j => shift_weight (nth j ds 0)) (seq 0 m) /\ snd (snd st) == 0)%Q) (seq 0 (length ns)) ((0%Q, 0%Q), (0%Q, 0%Q))) as ([[a b] [c d]] & E & Ha & Hb & Hc & Hd').
  - cbn. refine (conj _ (conj _ (conj _ _))); reflexivity.
  - intros m j st Hj (Ha & Hb & Hc & Hd'). assert (Lm : m < length ns) by (rewrite <- (seq_length (length ns) 0); apply nth_error_Some; congruence).
    rewrite (nth_error_nth' _ 0) in Hj by (rewrite seq_length; exact Lm). rewrite seq_nth in Hj by exact Lm. injection Hj as <-. cbn [Nat.add]. unfold step.
    rewrite (proj2 (get_ok ns m _) (nth_error_nth' ns 0 Lm)). cbn [bind]. rewrite (proj2 (get_ok ds m _) (@nth_error_nth' _ ds m 0%Q ltac:(lia))). cbn [bind].
    assert (Ln : nth m ns 0 < length data) by (assert (nth m ns 0 < N) by (apply Hn; apply nth_In; exact Lm); lia). rewrite (proj2 (get_ok data _ _) (nth_error_nth' data 0%Q Ln)). cbn [bind].
    rewrite shift_weight_eq. eexists. split; [reflexivity|]. unfold kahanQ_add. cbn [fst snd]. rewrite seq_S. cbn [Nat.add]. rewrite !sumQ_app, !sumQ_cons, !sumQ_nil.
    destruct st as [[x y] [z w]]. cbn [fst snd] in *. cbv zeta. set (S1 := sumQ _ _) in *. set (S2 := sumQ _ _) in *. set (X := nth (nth m ns 0%nat) data 0%Q). set (W := shift_weight _). refine (conj _ (conj _ (conj _ _))); try lra; nra.
  - rewrite E. cbn [bind fst snd]. cbn [fst snd] in *. rewrite seq_length in *. fold (weighted data ns ds) in Ha. fold (weights ns ds) in Hc. pose proof (weights_pos ns ds Hne) as P. unfold divide. destruct (Qeq_bool c 0) eqn:Z; [apply Qeq_bool_iff in Z; lra|].
    eexists. split; [reflexivity|]. rewrite Ha, Hc. reflexivity.
Qed.

(** one step replaces the value at a point by a weighted mean *)
Definition smoothed (N : nat) (indices : list (list nat)) (distances : list (list Q)) (data out : list Q) : Prop :=
  length out = length data /\
  (forall i, i < N -> (nth i out 0 * weights (nth i indices []) (nth i distances []) == weighted data (nth i indices []) (nth i distances []))%Q) /\
  (forall i, N <= i < length data -> nth i out 0%Q = 0%Q).

Lemma shift_step_ok N indices distances data : rows_ok N indices distances -> N <= length data -> exists out, shift_step N indices distances data = Ok (Some out) /\ smoothed N indices distances data out.
Proof.
  intros (L1 & L2 & Hrow) Hd. unfold shift_step.
  match goal with |- context [foldM ?f _ _] => set (step := f) end.
  destruct (foldM_ind step
    (fun m o => exists l, o = Some l /\ length l = length data /\
      (forall i, i < m -> (nth i l 0 * weights (nth i indices []) (nth i distances []) == weighted data (nth i indices []) (nth i distances []))%Q) /\
      (forall i, m <= i < length data -> nth i l 0%Q = 0%Q)) (seq 0 N) (Some (repeat 0%Q (length data)))) as (o & E & out & -> & H1 & H2 & H3).
  - exists (repeat 0%Q (length data)). refine (conj eq_refl (conj (repeat_length _ _) (conj _ _))); [lia|]. intros i Hi. apply nth_repeat.
  - intros m j o Hj (l & -> & Hl & HA & HB). assert (Lm : m < N) by (rewrite <- (seq_length N 0); apply nth_error_Some; congruence).
    rewrite (nth_error_nth' _ 0) in Hj by (rewrite seq_length; exact Lm). rewrite seq_nth in Hj by exact Lm. injection Hj as <-. cbn [Nat.add]. unfold step.
    rewrite (proj2 (get_ok indices m _) (@nth_error_nth' _ indices m [] ltac:(lia))). cbn [bind]. rewrite (proj2 (get_ok distances m _) (@nth_error_nth' _ distances m [] ltac:(lia))). cbn [bind].
    destruct (shift_row_ok N data _ _ (Hrow m Lm) Hd) as (v & -> & Hv). cbn [bind]. destruct (Nat.ltb_spec m (length l)); [|lia]. eexists. split; [reflexivity|]. exists (upd l m v). refine (conj eq_refl (conj _ (conj _ _))); [rewrite upd_length; exact Hl| |].
    + intros i Hi. rewrite DualFacts.nth_upd. destruct (Nat.eqb_spec i m) as [->|Hne].
      * destruct (Nat.ltb_spec m (length l)); [|lia]. cbn [andb]. rewrite Hv. destruct (Hrow m Lm) as (Hne & _). pose proof (weights_pos _ (nth m distances []) Hne). field. lra.
      * cbn [andb]. apply HA. lia.
    + intros i Hi. rewrite DualFacts.nth_upd. destruct (Nat.eqb_spec i m); [lia|]. cbn [andb]. apply HB. lia.
  - rewrite seq_length in *. exists out. split; [exact E|]. refine (conj H1 (conj H2 H3)).
Qed.

(** Without iterations, the values are returned. *)
Theorem C113_none : forall N indices distances data, meanShiftSmoothing N indices distances data 0 = Ok (Some data).
Proof. reflexivity. Qed.

(** Every further iteration replaces the value of a point by the weighted mean of the values
    of its neighbours after the iterations before. *)
Theorem C113_step : forall N indices distances data n, rows_ok N indices distances -> length data = N ->
  exists before after, meanShiftSmoothing N indices distances data n = Ok (Some before) /\ meanShiftSmoothing N indices distances data (S n) = Ok (Some after) /\
    length before = N /\ length after = N /\
    forall i, i < N -> let w := fun j => shift_weight (nth j (nth i distances []) 0%Q) in let ns := nth i indices [] in
      (0 < sumQ w (seq 0 (length ns)))%Q /\ (nth i after 0 * sumQ w (seq 0 (length ns)) == sumQ (fun j => nth (nth j ns 0%nat) before 0 * w j) (seq 0 (length ns)))%Q.
Proof.
  intros N indices distances data n HR Hd. assert (G : exists before, meanShiftSmoothing N indices distances data n = Ok (Some before) /\ length before = N).
  { unfold meanShiftSmoothing. destruct (foldM_ind (fun (data : option (list Q)) (_ : nat) => match data with None => Ok None | Some data => shift_step N indices distances data end)
      (fun _ o => exists l, o = Some l /\ length l = N) (seq 0 n) (Some data)) as (o & E & l & -> & Hl).
    - exists data. auto.
    - intros m j o _ (l & -> & Hl). destruct (shift_step_ok N indices distances l HR ltac:(lia)) as (out & -> & Ho & _). eexists. split; [reflexivity|]. exists out. split; [reflexivity|lia].
    - exists l. auto. }
  destruct G as (before & E & Hb). destruct (shift_step_ok N indices distances before HR ltac:(lia)) as (after & E' & Hl & Hv & _). exists before, after. refine (conj E (conj _ (conj Hb (conj _ _)))).
  - unfold meanShiftSmoothing in *. rewrite seq_S, BarycentricFacts.foldM_app, E. cbn [bind foldM]. rewrite E'. reflexivity.
  - lia.
  - intros i Hi. split; [apply weights_pos; apply (proj2 (proj2 HR) i Hi)|apply Hv; exact Hi].
Qed.

(** The values stay within the bounds of the values. *)
Theorem C113_bounds : forall N indices distances data n lo hi, rows_ok N indices distances -> length data = N -> (forall x, In x data -> lo <= x <= hi)%Q ->
  exists out, meanShiftSmoothing N indices distances data n = Ok (Some out) /\ length out = N /\ forall x, In x out -> (lo <= x <= hi)%Q.
Proof.
  intros N indices distances data n lo hi HR Hd HB. induction n as [|n IH]; [exists data; auto|]. destruct IH as (b & Eb & Lb & Bb). destruct (C113_step N indices distances data n HR Hd) as (before & after & E1 & E2 & _ & L2 & V).
  assert (before = b) by congruence. subst b. exists after. refine (conj E2 (conj L2 _)). intros x Hx. apply (In_nth _ _ 0%Q) in Hx. destruct Hx as (i & Hi & <-). rewrite L2 in Hi. destruct (V i Hi) as [P W]. cbn zeta in P, W.
  set (ns := nth i indices []) in *. set (w := fun j => shift_weight (nth j (nth i distances []) 0%Q)) in *.
  change (nth i after 0 * sumQ w (seq 0 (length ns)) == sumQ (fun j => nth (nth j ns 0%nat) before 0 * w j) (seq 0 (length ns)))%Q in W.
  assert (Bn : forall j, In j (seq 0 (length ns)) -> (lo <= nth (nth j ns 0%nat) before 0 <= hi)%Q).
  { intros j Hj. apply Bb. apply nth_In. destruct (proj2 (proj2 HR) i Hi) as (_ & _ & Hn). fold ns in Hn. apply in_seq in Hj. rewrite Lb. apply Hn. apply nth_In. lia. }
  assert (Lw : (lo * sumQ w (seq 0 (length ns)) <= sumQ (fun j => nth (nth j ns 0%nat) before 0 * w j) (seq 0 (length ns)))%Q).
  { rewrite <- sumQ_scale. apply sumQ_le. intros j Hj. pose proof (Bn j Hj). pose proof (shift_weight_pos (nth j (nth i distances []) 0%Q)) as Pw. change (0 < w j)%Q in Pw. nra. }
  assert (Hw : (sumQ (fun j => nth (nth j ns 0%nat) before 0 * w j) (seq 0 (length ns)) <= hi * sumQ w (seq 0 (length ns)))%Q).
  { rewrite <- sumQ_scale. apply sumQ_le. intros j Hj. pose proof (Bn j Hj). pose proof (shift_weight_pos (nth j (nth i distances []) 0%Q)) as Pw. change (0 < w j)%Q in Pw. nra. }
  split; nra.
Qed.

(** Smoothing commutes with affine transformations of the values. *)
Theorem C113_affine : forall N indices distances data data' n a b, rows_ok N indices distances -> length data = N -> length data' = N ->
  (forall i, i < N -> (nth i data' 0 == a * nth i data 0 + b)%Q) ->
  exists out out', meanShiftSmoothing N indices distances data n = Ok (Some out) /\ meanShiftSmoothing N indices distances data' n = Ok (Some out') /\
    forall i, i < N -> (nth i out' 0 == a * nth i out 0 + b)%Q.
Proof.
  intros N indices distances data data' n a b HR Hd Hd' HA. induction n as [|n IH]; [exists data, data'; auto|]. destruct IH as (o & o' & Eo & Eo' & HO).
  destruct (C113_step N indices distances data n HR Hd) as (before & after & E1 & E2 & Lb & L2 & V). destruct (C113_step N indices distances data' n HR Hd') as (before' & after' & E1' & E2' & Lb' & L2' & V').
  assert (o = before) by congruence. assert (o' = before') by congruence. subst o o'. exists after, after'. refine (conj E2 (conj E2' _)). intros i Hi. destruct (V i Hi) as [P W]. destruct (V' i Hi) as [_ W']. cbn zeta in P, W, W'.
  set (ns := nth i indices []) in *. set (w := fun j => shift_weight (nth j (nth i distances []) 0%Q)) in *.
  change (nth i after 0 * sumQ w (seq 0 (length ns)) == sumQ (fun j => nth (nth j ns 0%nat) before 0 * w j) (seq 0 (length ns)))%Q in W.
  change (nth i after' 0 * sumQ w (seq 0 (length ns)) == sumQ (fun j => nth (nth j ns 0%nat) before' 0 * w j) (seq 0 (length ns)))%Q in W'.
  assert (X : (sumQ (fun j => nth (nth j ns 0%nat) before' 0 * w j) (seq 0 (length ns)) == a * sumQ (fun j => nth (nth j ns 0%nat) before 0 * w j) (seq 0 (length ns)) + b * sumQ w (seq 0 (length ns)))%Q).
  { rewrite <- !sumQ_scale, <- sumQ_add. apply sumQ_ext. intros j Hj. rewrite HO; [ring|]. destruct (proj2 (proj2 HR) i Hi) as (_ & _ & Hn). apply Hn. apply nth_In. apply in_seq in Hj. fold ns. lia. }
  rewrite X, <- W in W'. assert (Y : ((nth i after' 0 - (a * nth i after 0 + b)) * sumQ w (seq 0 (length ns)) == 0)%Q) by lra.
  apply Qmult_integral in Y. destruct Y as [Y|Y]; lra.
Qed.

(** FINDING: values beyond the number of points are lost in the first iteration. *)
Theorem C113_longer_refuted : forall N indices distances data n, rows_ok N indices distances -> N < length data ->
  exists out, meanShiftSmoothing N indices distances data (S n) = Ok (Some out) /\ length out = length data /\ forall i, N <= i < length data -> nth i out 0%Q = 0%Q.
Proof.
  intros N indices distances data n HR Hd. unfold meanShiftSmoothing. rewrite seq_S, BarycentricFacts.foldM_app.
  destruct (foldM_ind (fun (data : option (list Q)) (_ : nat) => match data with None => Ok None | Some data => shift_step N indices distances data end)
      (fun _ o => exists l, o = Some l /\ length l = length data) (seq 0 n) (Some data)) as (o & E & l & -> & Hl).
  - exists data. auto.
  - intros m j o _ (l & -> & Hl). destruct (shift_step_ok N indices distances l HR ltac:(lia)) as (out & -> & Ho & _). eexists. split; [reflexivity|]. exists out. split; [reflexivity|lia].
  - rewrite E. cbn [bind foldM]. destruct (shift_step_ok N indices distances l HR ltac:(lia)) as (out & -> & Ho & _ & Hz). cbn [bind]. exists out. rewrite <- Hl. auto.
Qed.

(** FINDING: the weight of coinciding points is 1, which is less than that of points with a
    distance below 1: two points that are each other's neighbours exchange their order. *)
Theorem C113_weight_refuted : exists out, meanShiftSmoothing 2 [[0; 1]; [1; 0]] [[0; 1 # 2]; [0; 1 # 2]]%Q [0; 1]%Q 1 = Ok (Some out) /\
  (nth 0 out 0 == 4 # 5)%Q /\ (nth 1 out 0 == 1 # 5)%Q.
Proof. eexists. refine (conj eq_refl (conj _ _)); reflexivity. Qed.

Example C113_example : rows_ok 3 [[0; 1]; [1; 0]; [2; 1]] [[0; 1]; [0; 1]; [0; 2]]%Q /\
  exists out, meanShiftSmoothing 3 [[0; 1]; [1; 0]; [2; 1]] [[0; 1]; [0; 1]; [0; 2]]%Q [0; 2; 7]%Q 1 = Ok (Some out) /\ (nth 0 out 0 == 1)%Q /\ (nth 1 out 0 == 1)%Q /\ (nth 2 out 0 == 6)%Q.
Proof.
  split.
  - refine (conj eq_refl (conj eq_refl _)). intros i Hi. do 3 (destruct i as [|i]; [refine (conj _ (conj eq_refl _)); [discriminate|]; cbn; intros j Hj; intuition lia|]). lia.
  - eexists. refine (conj eq_refl (conj _ (conj _ _))); reflexivity.
Qed.

Print Assumptions C113_none.
Print Assumptions C113_step.
Print Assumptions C113_bounds.
Print Assumptions C113_affine.
Print Assumptions C113_longer_refuted.
Print Assumptions C113_weight_refuted.
