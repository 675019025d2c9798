(** * Eccentricities, truncated Gaussian densities and correlation dimensions. *)
From Coq Require Import Reals List Arith Bool Lia Lra.
From Verif Require Import Base BaseFacts HeatKernel PropertiesHeat RealDescriptors.
Import ListNotations.
Local Open Scope R_scope.

(** ** sums and powers *)
Lemma kahanR_all_sum l : kahanR_all l = fold_right Rplus 0 l.
Proof. unfold kahanR_all. destruct (kahanR_list l 0) as [A _]. rewrite A. lra. Qed.

Lemma powR_pow x k : 0 <= x -> (0 < k)%nat -> powR x (INR k) = x ^ k.
Proof.
  intros Hx Hk. unfold powR. destruct (Req_EM_T x 0) as [->|Hne]; [rewrite pow_i by exact Hk; reflexivity|]. apply Rpower_pow. lra.
Qed.
Lemma powR_root x k : 0 <= x -> (0 < k)%nat -> 0 <= powR x (1 / INR k) /\ powR x (1 / INR k) ^ k = x.
Proof.
  intros Hx Hk. assert (Pk : 0 < INR k) by (apply lt_0_INR; exact Hk). unfold powR. destruct (Req_EM_T x 0) as [->|Hne]; [split; [lra|apply pow_i; exact Hk]|]. split; [left; apply exp_pos|].
  rewrite <- Rpower_pow by apply exp_pos. rewrite Rpower_mult. replace (1 / INR k * INR k) with 1 by (field; lra). apply Rpower_1. lra.
Qed.
Lemma pow_le_inv x y k : 0 <= x -> 0 <= y -> (0 < k)%nat -> x ^ k <= y ^ k -> x <= y.
Proof.
  intros Hx Hy Hk H. destruct (Rle_lt_dec x y) as [L|L]; [exact L|]. exfalso. destruct k as [|k]; [lia|]. assert (G : y ^ S k < x ^ S k); [|lra]. clear H Hk. induction k as [|k IH]; [lra|]. change (y * y ^ S k < x * x ^ S k). pose proof (pow_le y (S k) Hy). nra.
Qed.

(** the sum over all points, without the point itself, which has distance 0 *)
Lemma sum_filter i f : forall n, f i = 0 -> fold_right Rplus 0 (map f (filter (fun j => negb (Nat.eqb i j)) (seq 0 n))) = sumR n f.
Proof.
  intros n Hf. unfold sumR. induction (seq 0 n) as [|j l IH]; [reflexivity|]. cbn [filter map fold_right]. destruct (Nat.eqb_spec i j) as [<-|Hne]; cbn [negb]; [rewrite IH, Hf; lra|]. cbn [map fold_right]. rewrite IH. reflexivity.
Qed.

Definition nonneg_dist (n : nat) (dist : nat -> nat -> R) : Prop := (forall i j, (i < n)%nat -> (j < n)%nat -> 0 <= dist i j) /\ forall i, (i < n)%nat -> dist i i = 0.


Lemma eccentricities_collect n dist order (g : nat -> R) :
  (forall i, (i < n)%nat -> forall acc : list R, (let distances := map (fun j => if (0 <? order)%nat then (powR (dist i j) (INR order) / INR n)%R else dist i j) (filter (fun j => negb (i =? j)%nat) (seq 0 n)) in
    if (0 <? order)%nat then Ok (acc ++ [powR (kahanR_all distances) (1 / INR order)])
    else match max_elementR distances with Some m => Ok (acc ++ [m]) | None => UB end) = Ok (acc ++ [g i])) ->
  eccentricities n dist order = Ok (map g (seq 0 n)).
Proof.
  intro H. unfold eccentricities. match goal with |- foldM ?f _ _ = _ => set (step := f) end.
  assert (F : forall l, (forall i, In i l -> (i < n)%nat) -> forall acc, foldM step l acc = Ok (acc ++ map g l)).
  { induction l as [|i l IH]; intros Hl acc; cbn [foldM map]; [rewrite app_nil_r; reflexivity|]. unfold step at 1. rewrite H by (apply Hl; simpl; auto). cbn [bind]. rewrite IH by (intros; apply Hl; simpl; auto). rewrite <- app_assoc. reflexivity. }
  rewrite F by (intros i Hi; apply in_seq in Hi; lia). reflexivity.
Qed.

(** ** C108 *)
(** The eccentricity of positive order [p] is the power mean of the distances to all points
    (including the point itself). *)
Theorem C108_order : forall n dist order, nonneg_dist n dist -> (0 < order)%nat ->
  exists e, eccentricities n dist order = Ok e /\ length e = n /\
    forall i, (i < n)%nat -> 0 <= nth i e 0 /\ INR n * nth i e 0 ^ order = sumR n (fun j => dist i j ^ order).
Proof.
  intros n dist order [Hp Hz] Ho. exists (map (fun i => powR (sumR n (fun j => dist i j ^ order / INR n)) (1 / INR order)) (seq 0 n)).
  assert (S0 : forall i, (i < n)%nat -> 0 <= sumR n (fun j => dist i j ^ order / INR n)).
  { intros i Hi. apply sumR_nonneg. intros j Hj. apply Rmult_le_pos; [apply pow_le; apply Hp; assumption|]. left. apply Rinv_0_lt_compat. apply lt_0_INR. lia. }
  refine (conj _ (conj _ _)).
  - apply eccentricities_collect. intros i Hi acc. cbn zeta. destruct (Nat.ltb_spec 0 order); [|lia]. do 3 f_equal. rewrite kahanR_all_sum. f_equal.
    assert (E : map (fun j => powR (dist i j) (INR order) / INR n) (filter (fun j => negb (i =? j)%nat) (seq 0 n)) = map (fun j => dist i j ^ order / INR n) (filter (fun j => negb (i =? j)%nat) (seq 0 n))).
    { apply map_ext_in. intros j Hj. apply filter_In in Hj. destruct Hj as [Hj _]. apply in_seq in Hj. rewrite powR_pow by (try apply Hp; lia). reflexivity. }
    rewrite E. apply sum_filter. rewrite Hz by exact Hi. rewrite pow_i by exact Ho. unfold Rdiv. ring.
  - rewrite map_length, seq_length. reflexivity.
  - intros i Hi. set (g := fun i => powR (sumR n (fun j => dist i j ^ order / INR n)) (1 / INR order)). assert (E : nth i (map g (seq 0 n)) 0 = g i) by (rewrite (nth_indep _ 0 (g 0%nat)) by (rewrite map_length, seq_length; exact Hi); rewrite (map_nth g), seq_nth by exact Hi; reflexivity).
    rewrite E. unfold g. destruct (powR_root _ order (S0 i Hi) Ho) as [R1 R2]. split; [exact R1|]. rewrite R2. assert (Pn : 0 < INR n) by (apply lt_0_INR; lia).
    rewrite (sumR_ext n (fun j => dist i j ^ order / INR n) (fun j => / INR n * dist i j ^ order)) by (intros; unfold Rdiv; ring). rewrite sumR_scale. field. lra.
Qed.

Lemma max_fold l : forall x, (forall y, In y (x :: l) -> y <= fold_left (fun m y => if Rlt_dec m y then y else m) l x) /\ In (fold_left (fun m y => if Rlt_dec m y then y else m) l x) (x :: l).
Proof.
  induction l as [|a l IH]; intro x; cbn [fold_left].
  - split; [intros y [<-|[]]; lra|simpl; auto].
  - destruct (IH (if Rlt_dec x a then a else x)) as [B I]. split.
    + intros y Hy. assert (M : (if Rlt_dec x a then a else x) <= fold_left (fun m y => if Rlt_dec m y then y else m) l (if Rlt_dec x a then a else x)) by (apply B; simpl; auto). destruct (Rlt_dec x a); destruct Hy as [<-|[<-|Hy]]; try lra; apply B; simpl; auto.
    + destruct I as [I|I]; [|simpl; auto]. destruct (Rlt_dec x a); rewrite <- I; simpl; auto.
Qed.

(** The eccentricity of order 0 is the largest distance to another point. *)
Theorem C108_max : forall n dist, (2 <= n)%nat -> exists e, eccentricities n dist 0 = Ok e /\ length e = n /\
  forall i, (i < n)%nat -> (exists j, (j < n)%nat /\ i <> j /\ nth i e 0 = dist i j) /\ forall j, (j < n)%nat -> i <> j -> dist i j <= nth i e 0.
Proof.
  intros n dist Hn. set (others := fun i => filter (fun j => negb (i =? j)%nat) (seq 0 n)). set (g := fun i => match max_elementR (map (dist i) (others i)) with Some m => m | None => 0 end).
  assert (Io : forall i j, In j (others i) <-> (j < n)%nat /\ i <> j).
  { intros i j. unfold others. rewrite filter_In, in_seq, negb_true_iff, Nat.eqb_neq. intuition lia. }
  assert (M : forall i, (i < n)%nat -> exists m, max_elementR (map (dist i) (others i)) = Some m /\ (exists j, (j < n)%nat /\ i <> j /\ m = dist i j) /\ forall j, (j < n)%nat -> i <> j -> dist i j <= m).
  { intros i Hi. destruct (others i) as [|a l] eqn:E.
    - exfalso. assert (F : In (if (i =? 0)%nat then 1%nat else 0%nat) (others i)) by (apply Io; destruct (Nat.eqb_spec i 0); lia). rewrite E in F. destruct F.
    - cbn [map max_elementR]. eexists. split; [reflexivity|]. destruct (max_fold (map (dist i) l) (dist i a)) as [B I]. split.
      + change (dist i a :: map (dist i) l) with (map (dist i) (a :: l)) in I. apply in_map_iff in I. destruct I as (j & Ej & Hj). rewrite <- E in Hj. apply Io in Hj. exists j. intuition.
      + intros j Hj Hne. apply B. change (dist i a :: map (dist i) l) with (map (dist i) (a :: l)). apply in_map. rewrite <- E. apply Io. auto. }
  exists (map g (seq 0 n)). refine (conj _ (conj _ _)).
  - apply eccentricities_collect. intros i Hi acc. cbn zeta. destruct (Nat.ltb_spec 0 0); [lia|]. fold (others i). unfold g. change (map (fun j => dist i j) (others i)) with (map (dist i) (others i)). destruct (M i Hi) as (m & -> & _). reflexivity.
  - rewrite map_length, seq_length. reflexivity.
  - intros i Hi. assert (E : nth i (map g (seq 0 n)) 0 = g i) by (rewrite (nth_indep _ 0 (g 0%nat)) by (rewrite map_length, seq_length; exact Hi); rewrite (map_nth g), seq_nth by exact Hi; reflexivity). rewrite E. unfold g.
    destruct (M i Hi) as (m & -> & HM). exact HM.
Qed.

(** FINDING: the largest of no distances is read for a single point. *)
Theorem C108_single_refuted : forall dist, eccentricities 1 dist 0 = UB.
Proof. reflexivity. Qed.

(** *** power means satisfy the triangle inequality *)
Lemma pow_diff x y k : 0 <= x -> 0 <= y -> 0 <= (x - y) * (x ^ k - y ^ k).
Proof.
  intros Hx Hy. destruct (Rle_lt_dec x y) as [L|L].
  - assert (x ^ k <= y ^ k) by (apply pow_incr; lra). nra.
  - assert (y ^ k <= x ^ k) by (apply pow_incr; lra). nra.
Qed.
Lemma pow_convex a b x y k : 0 <= a -> 0 <= b -> a + b = 1 -> 0 <= x -> 0 <= y -> (a * x + b * y) ^ S k <= a * x ^ S k + b * y ^ S k.
Proof.
  intros Ha Hb Hs Hx Hy. induction k as [|k IH]; [simpl; lra|]. change ((a * x + b * y) * (a * x + b * y) ^ S k <= a * (x * x ^ S k) + b * (y * y ^ S k)).
  apply Rle_trans with ((a * x + b * y) * (a * x ^ S k + b * y ^ S k)).
  - apply Rmult_le_compat_l; [nra|exact IH].
  - pose proof (pow_diff x y (S k) Hx Hy) as D. set (X := x ^ S k) in *. set (Y := y ^ S k) in *. assert (E : a * (x * X) + b * (y * Y) - (a * x + b * y) * (a * X + b * Y) = a * b * ((x - y) * (X - Y))) by (replace b with (1 - a) by lra; ring). assert (0 <= a * b) by nra. nra.
Qed.
Lemma sumR_pow_zero n f k : (forall j, (j < n)%nat -> 0 <= f j) -> sumR n (fun j => f j ^ S k) = 0 -> forall j, (j < n)%nat -> f j = 0.
Proof.
  intros Hp Hs j Hj. destruct (Rtotal_order (f j) 0) as [L|[E|G]]; [specialize (Hp j Hj); lra|exact E|]. exfalso. assert (0 < sumR n (fun j => f j ^ S k)); [|lra]. apply (sumR_pos n _ j); [intros i Hi; apply pow_le; auto|exact Hj|apply pow_lt; exact G].
Qed.
Lemma minkowski n f g k A B : (forall j, (j < n)%nat -> 0 <= f j) -> (forall j, (j < n)%nat -> 0 <= g j) -> 0 <= A -> 0 <= B ->
  sumR n (fun j => f j ^ S k) = INR n * A ^ S k -> sumR n (fun j => g j ^ S k) = INR n * B ^ S k -> sumR n (fun j => (f j + g j) ^ S k) <= INR n * (A + B) ^ S k.
Proof.
  intros Hf Hg HA HB EA EB. destruct (Req_EM_T A 0) as [ZA|NA].
  - subst A. rewrite pow_i, Rmult_0_r in EA by lia. pose proof (sumR_pow_zero n f k Hf EA) as Z. rewrite (sumR_ext n _ (fun j => g j ^ S k)) by (intros j Hj; rewrite Z by exact Hj; f_equal; ring). rewrite Rplus_0_l. lra.
  - destruct (Req_EM_T B 0) as [ZB|NB].
    + subst B. rewrite pow_i, Rmult_0_r in EB by lia. pose proof (sumR_pow_zero n g k Hg EB) as Z. rewrite (sumR_ext n _ (fun j => f j ^ S k)) by (intros j Hj; rewrite Z by exact Hj; f_equal; ring). rewrite Rplus_0_r. lra.
    + assert (PA : 0 < A) by lra. assert (PB : 0 < B) by lra. set (a := A / (A + B)). set (b := B / (A + B)). assert (Pa : 0 <= a) by (apply Rmult_le_pos; [lra|left; apply Rinv_0_lt_compat; lra]). assert (Pb : 0 <= b) by (apply Rmult_le_pos; [lra|left; apply Rinv_0_lt_compat; lra]). assert (Sab : a + b = 1) by (unfold a, b; field; lra).
      apply Rle_trans with (sumR n (fun j => (A + B) ^ S k * (a * (f j / A) ^ S k + b * (g j / B) ^ S k))).
      * apply sumR_le. intros j Hj. replace (f j + g j) with ((A + B) * (a * (f j / A) + b * (g j / B))) by (unfold a, b; field; lra). rewrite Rpow_mult_distr. apply Rmult_le_compat_l; [apply pow_le; lra|]. apply pow_convex; try assumption; apply Rmult_le_pos; auto; left; apply Rinv_0_lt_compat; assumption.
      * rewrite sumR_scale, sumR_plus. rewrite (sumR_ext n (fun i => a * (f i / A) ^ S k) (fun i => (a * (/ A) ^ S k) * f i ^ S k)) by (intros; unfold Rdiv; rewrite Rpow_mult_distr; ring). rewrite (sumR_ext n (fun i => b * (g i / B) ^ S k) (fun i => (b * (/ B) ^ S k) * g i ^ S k)) by (intros; unfold Rdiv; rewrite Rpow_mult_distr; ring).
        rewrite !sumR_scale, EA, EB. assert (IA : (/ A) ^ S k * A ^ S k = 1) by (rewrite <- Rpow_mult_distr, Rinv_l by lra; apply pow1). assert (IB : (/ B) ^ S k * B ^ S k = 1) by (rewrite <- Rpow_mult_distr, Rinv_l by lra; apply pow1).
        replace (a * (/ A) ^ S k * (INR n * A ^ S k)) with (a * INR n * ((/ A) ^ S k * A ^ S k)) by ring. replace (b * (/ B) ^ S k * (INR n * B ^ S k)) with (b * INR n * ((/ B) ^ S k * B ^ S k)) by ring. rewrite IA, IB.
        replace ((A + B) ^ S k * (a * INR n * 1 + b * INR n * 1)) with (INR n * (A + B) ^ S k * (a + b)) by ring. rewrite Sab. lra.
Qed.

(** Eccentricities differ at most by the distance of the points, and are at most the largest
    distance. *)
Theorem C108_lipschitz : forall n dist order e, nonneg_dist n dist -> (forall i j, dist i j = dist j i) -> (forall i j k, dist i k <= dist i j + dist j k) -> (order = 0 -> 2 <= n)%nat ->
  eccentricities n dist order = Ok e -> forall i j, (i < n)%nat -> (j < n)%nat -> Rabs (nth i e 0 - nth j e 0) <= dist i j.
Proof.
  intros n dist order e HD Hs Ht Ho E. destruct HD as [Hp Hz].
  assert (G : forall i j, (i < n)%nat -> (j < n)%nat -> nth i e 0 <= dist i j + nth j e 0).
  { intros i j Hi Hj. destruct order as [|k].
    - destruct (C108_max n dist (Ho eq_refl)) as (e' & E' & _ & H). assert (e' = e) by congruence. subst e'. destruct (H i Hi) as [(a & Ha & Hne & ->) _]. pose proof (Ht i j a). destruct (Nat.eq_dec j a) as [->|Hja].
      + destruct (H a Hj) as [(b & Hb & _ & ->) _]. pose proof (Hp a b Hj Hb). lra.
      + destruct (H j Hj) as [_ B]. specialize (B a Ha Hja). lra.
    - destruct (C108_order n dist (S k) (conj Hp Hz) ltac:(lia)) as (e' & E' & _ & H). assert (e' = e) by congruence. subst e'. destruct (H i Hi) as [Pi Ei]. destruct (H j Hj) as [Pj Ej]. pose proof (Hp i j Hi Hj) as Pij.
      apply (pow_le_inv _ _ (S k)); [exact Pi|lra|lia|]. assert (Pn : 0 < INR n) by (apply lt_0_INR; lia). apply (Rmult_le_reg_l (INR n)); [exact Pn|]. rewrite Ei.
      apply Rle_trans with (sumR n (fun l => (dist i j + dist j l) ^ S k)).
      + apply sumR_le. intros l Hl. apply pow_incr. split; [apply Hp; assumption|apply Ht].
      + apply (minkowski n (fun _ => dist i j) (fun l => dist j l)); auto; try (intros; apply Hp; assumption); apply sumR_const. }
  intros i j Hi Hj. pose proof (G i j Hi Hj). pose proof (G j i Hj Hi) as H'. rewrite (Hs j i) in H'. apply Rabs_le. lra.
Qed.
Theorem C108_bound : forall n dist order e M, nonneg_dist n dist -> (order = 0 -> 2 <= n)%nat -> (forall i j, (i < n)%nat -> (j < n)%nat -> dist i j <= M) ->
  eccentricities n dist order = Ok e -> forall i, (i < n)%nat -> 0 <= nth i e 0 <= M.
Proof.
  intros n dist order e M HD Ho HM E i Hi. destruct order as [|k].
  - destruct (C108_max n dist (Ho eq_refl)) as (e' & E' & _ & H). assert (e' = e) by congruence. subst e'. destruct (H i Hi) as [(a & Ha & _ & ->) _]. split; [apply HD; assumption|apply HM; assumption].
  - destruct (C108_order n dist (S k) HD ltac:(lia)) as (e' & E' & _ & H). assert (e' = e) by congruence. subst e'. destruct (H i Hi) as [Pi Ei]. split; [exact Pi|]. assert (P0 : 0 <= M) by (rewrite <- (proj2 HD i Hi); apply HM; assumption).
    apply (pow_le_inv _ _ (S k)); [exact Pi|exact P0|lia|]. apply (Rmult_le_reg_l (INR n)); [apply lt_0_INR; lia|]. rewrite Ei, <- sumR_const. apply sumR_le. intros j Hj. apply pow_incr. split; [apply HD; assumption|apply HM; assumption].
Qed.

(** Three points on a line: the middle one has the smallest eccentricity. *)
Example C108_example : exists e, eccentricities 3 (fun i j => Rabs (INR i - INR j)) 1 = Ok e /\ nth 0 e 0 = 1 /\ nth 1 e 0 = 2 / 3 /\ nth 2 e 0 = 1.
Proof.
  destruct (C108_order 3 (fun i j => Rabs (INR i - INR j)) 1) as (e & E & _ & H); [split; [intros; apply Rabs_pos|intros; rewrite Rminus_diag_eq by reflexivity; apply Rabs_R0]|lia|].
  exists e. split; [exact E|]. pose proof (proj2 (H 0%nat ltac:(lia))) as H0. pose proof (proj2 (H 1%nat ltac:(lia))) as H1. pose proof (proj2 (H 2%nat ltac:(lia))) as H2. unfold sumR in H0, H1, H2. cbn [seq map fold_right INR pow] in H0, H1, H2.
  rewrite !Rmult_1_r in H0, H1, H2. unfold Rabs in H0, H1, H2. repeat (destruct (Rcase_abs _) in H0; try lra). repeat (destruct (Rcase_abs _) in H1; try lra). repeat (destruct (Rcase_abs _) in H2; try lra).
Qed.

(** ** C109: truncated Gaussian densities *)
Definition kernel (h d : R) : R := if Rle_dec d (h * h) then exp (- d / (2 * h)) else 0.

Lemma gaussian_fold (sq : nat -> nat -> R) h i : 0 < h -> forall l s, fold_left (fun (st : option (R * R)) j =>
      if Rle_dec (sq i j) (h * h) then
        match st, divR (- (1) * sq i j) (2 * h) with
        | Some st, Some q => Some (kahanR_add st (exp q))
        | _, _ => None
        end
      else st) l (Some (s, 0)) = Some (s + fold_right Rplus 0 (map (fun j => kernel h (sq i j)) l), 0).
Proof.
  intros Hh. induction l as [|j l IH]; intro s; cbn [fold_left map fold_right]; [f_equal; f_equal; lra|]. unfold kernel at 1. destruct (Rle_dec (sq i j) (h * h)).
  - unfold divR at 2. destruct (Req_EM_T (2 * h) 0); [lra|]. assert (E : kahanR_add (s, 0) (exp (- (1) * sq i j / (2 * h))) = (s + exp (- sq i j / (2 * h)), 0)).
    { unfold kahanR_add. cbn [fst snd]. replace (- (1) * sq i j / (2 * h)) with (- sq i j / (2 * h)) by (field; lra). f_equal; lra. }
    rewrite E, IH. f_equal. f_equal. lra.
  - rewrite IH. f_equal. f_equal. lra.
Qed.

Lemma gaussian_value n sq h i : 0 < h -> (i < n)%nat -> nth_error (truncatedGaussian n sq h) i = Some (Some (sumR n (fun j => kernel h (sq i j)) / INR n)).
Proof.
  intros Hh Hi. unfold truncatedGaussian. rewrite nth_error_map, (nth_error_nth' _ 0%nat) by (rewrite seq_length; exact Hi). rewrite seq_nth by exact Hi. cbn [option_map Nat.add]. rewrite gaussian_fold by exact Hh. cbn [fst].
  unfold divR. assert (Pn : 0 < INR n) by (apply lt_0_INR; lia). destruct (Req_EM_T (INR n) 0); [lra|]. rewrite Rplus_0_l. reflexivity.
Qed.

Lemma kernel_bounds h d : 0 < h -> 0 <= d -> 0 <= kernel h d <= 1.
Proof.
  intros Hh Hd. unfold kernel. destruct (Rle_dec d (h * h)); [|lra]. split; [left; apply exp_pos|]. rewrite <- exp_0. assert (- d / (2 * h) <= 0). { unfold Rdiv. assert (0 < / (2 * h)) by (apply Rinv_0_lt_compat; lra). nra. }
  destruct (Rle_lt_or_eq_dec _ _ H) as [L|E]; [left; apply exp_increasing; exact L|rewrite E; lra].
Qed.
Lemma kernel_mono h h' d : 0 < h -> h <= h' -> 0 <= d -> kernel h d <= kernel h' d.
Proof.
  intros Hh Hle Hd. pose proof (kernel_bounds h' d ltac:(lra) Hd) as B. unfold kernel in *. destruct (Rle_dec d (h * h)) as [L|L]; [|apply B]. destruct (Rle_dec d (h' * h')) as [L'|L']; [|nra].
  assert (D : - d / (2 * h) <= - d / (2 * h')). { unfold Rdiv. assert (/ (2 * h') <= / (2 * h)) by (apply Rinv_le_contravar; lra). nra. }
  destruct (Rle_lt_or_eq_dec _ _ D) as [D'|E]; [left; apply exp_increasing; exact D'|rewrite E; lra].
Qed.

(** The density is the mean of the weights of all points, where points beyond the bandwidth
    have weight 0; it is at least [1 / n] and at most 1, and does not decrease with the
    bandwidth. *)
Theorem C109_gaussian : forall n sq h i, nonneg_dist n sq -> 0 < h -> (i < n)%nat ->
  exists d, nth_error (truncatedGaussian n sq h) i = Some (Some d) /\
    INR n * d = sumR n (fun j => if Rle_dec (sq i j) (h * h) then exp (- sq i j / (2 * h)) else 0) /\
    / INR n <= d <= 1 /\
    forall h', h <= h' -> exists d', nth_error (truncatedGaussian n sq h') i = Some (Some d') /\ d <= d'.
Proof.
  intros n sq h i [Hp Hz] Hh Hi. assert (Pn : 0 < INR n) by (apply lt_0_INR; lia). eexists. refine (conj (gaussian_value n sq h i Hh Hi) (conj _ (conj _ _))).
  - replace (INR n * (sumR n (fun j => kernel h (sq i j)) / INR n)) with (sumR n (fun j => kernel h (sq i j))) by (field; lra). reflexivity.
  - assert (K : forall j, (j < n)%nat -> 0 <= kernel h (sq i j) <= 1) by (intros; apply kernel_bounds; [exact Hh|apply Hp; assumption]).
    assert (One : kernel h (sq i i) = 1). { unfold kernel. rewrite Hz by exact Hi. destruct (Rle_dec 0 (h * h)); [|nra]. replace (- 0 / (2 * h)) with 0 by (field; lra). apply exp_0. }
    assert (L : 1 <= sumR n (fun j => kernel h (sq i j))).
    { rewrite <- One. rewrite <- (sumR_delta n i (fun j => kernel h (sq i j))) by exact Hi. apply sumR_le. intros j Hj. unfold delta. specialize (K j Hj). destruct (Nat.eqb i j); lra. }
    assert (U : sumR n (fun j => kernel h (sq i j)) <= INR n) by (rewrite <- (Rmult_1_r (INR n)), <- sumR_const; apply sumR_le; intros j Hj; apply K; exact Hj).
    assert (0 < / INR n) by (apply Rinv_0_lt_compat; exact Pn). unfold Rdiv. split; [nra|]. apply (Rmult_le_reg_r (INR n)); [exact Pn|]. rewrite Rmult_assoc, Rinv_l by lra. lra.
  - intros h' Hle. eexists. split; [apply gaussian_value; [lra|exact Hi]|]. unfold Rdiv. apply Rmult_le_compat_r; [left; apply Rinv_0_lt_compat; exact Pn|]. apply sumR_le. intros j Hj. apply kernel_mono; auto.
Qed.

(** FINDING: for bandwidth 0, the densities are not finite. *)
Theorem C109_bandwidth_refuted : forall n sq i, (i < n)%nat -> sq i i = 0 -> nth_error (truncatedGaussian n sq 0) i = Some None.
Proof.
  intros n sq i Hi Hz. unfold truncatedGaussian. rewrite nth_error_map, (nth_error_nth' _ 0%nat) by (rewrite seq_length; exact Hi). rewrite seq_nth by exact Hi. cbn [option_map Nat.add]. match goal with |- context [fold_left ?f _ _] => set (step := f) end.
  assert (SN : forall st j, step st j = st \/ step st j = None). { intros st j. unfold step. destruct (Rle_dec (sq i j) (0 * 0)); [|auto]. right. unfold divR. destruct (Req_EM_T (2 * 0) 0); [|lra]. destruct st; reflexivity. }
  assert (Si : forall st, step st i = None). { intro st. unfold step. destruct (Rle_dec (sq i i) (0 * 0)); [|lra]. unfold divR. destruct (Req_EM_T (2 * 0) 0); [|lra]. destruct st; reflexivity. }
  assert (N : forall l, fold_left step l None = None). { induction l as [|j l IH]; [reflexivity|]. cbn [fold_left]. destruct (SN None j) as [-> | ->]; exact IH. }
  assert (F : forall l st, In i l -> fold_left step l st = None). { induction l as [|j l IH]; intros st Hl; [destruct Hl|]. cbn [fold_left]. destruct Hl as [->|Hl]; [rewrite Si; apply N|apply IH; exact Hl]. }
  rewrite F by (apply in_seq; lia). reflexivity.
Qed.

(** FINDING: the exponent divides the squared distance by the bandwidth instead of its square,
    so that the densities change if all distances and the bandwidth are doubled. *)
Theorem C109_scale_refuted : exists sq, nonneg_dist 2 sq /\ exists d d', nth_error (truncatedGaussian 2 sq 1) 0 = Some (Some d) /\ nth_error (truncatedGaussian 2 (fun i j => 2 * 2 * sq i j) (2 * 1)) 0 = Some (Some d') /\ d' < d.
Proof.
  exists (fun i j => if Nat.eqb i j then 0 else 1). split; [split; [intros i j _ _; destruct (Nat.eqb i j); lra|intros i _; rewrite Nat.eqb_refl; reflexivity]|].
  eexists _, _. split; [apply gaussian_value; [lra|lia]|]. split; [apply gaussian_value; [lra|lia]|]. unfold sumR. cbn [seq map fold_right Nat.eqb]. unfold kernel.
  destruct (Rle_dec (2 * 2 * 0) (2 * 1 * (2 * 1))); [|lra]. destruct (Rle_dec (2 * 2 * 1) (2 * 1 * (2 * 1))); [|lra]. destruct (Rle_dec 0 (1 * 1)); [|lra]. destruct (Rle_dec 1 (1 * 1)); [|lra].
  assert (E1 : - (2 * 2 * 0) / (2 * (2 * 1)) = 0) by field. assert (E2 : - (2 * 2 * 1) / (2 * (2 * 1)) = -1) by field. assert (E3 : - 0 / (2 * 1) = 0) by field. assert (E4 : - (1) / (2 * 1) = - (1 / 2)) by field. rewrite E1, E2, E3, E4.
  assert (exp (-1) < exp (- (1 / 2))) by (apply exp_increasing; lra). assert (0 < / INR 2) by (apply Rinv_0_lt_compat; cbn; lra). unfold Rdiv. apply Rmult_lt_compat_r; [assumption|]. lra.
Qed.

(** ** C112: correlation dimensions *)
Lemma logsR_ok l : (forall x, In x l -> 0 < x) -> logsR l = Some (map ln l).
Proof. induction l as [|a l IH]; intro H; [reflexivity|]. cbn [logsR map]. unfold logR. destruct (Rlt_dec 0 a) as [_|N]; [|exfalso; apply N; apply H; simpl; auto]. rewrite IH by (intros; apply H; simpl; auto). reflexivity. Qed.

Definition sumL (l : list R) : R := fold_right Rplus 0 l.
Fixpoint sum2 (f : R -> R -> R) (l k : list R) : R := match l, k with x :: l, y :: k => f x y + sum2 f l k | _, _ => 0 end.

Lemma fold_plus l : forall s, fold_left Rplus l s = s + sumL l.
Proof. induction l as [|a l IH]; intro s; cbn [fold_left sumL fold_right]; [lra|]. rewrite IH. unfold sumL. lra. Qed.
Lemma fold_square m l : forall s, fold_left (fun sum d => sum + (d - m) * (d - m)) l s = s + sum2 (fun x y => (x - m) * (y - m)) l l.
Proof. induction l as [|a l IH]; intro s; cbn [fold_left sum2]; [lra|]. rewrite IH. lra. Qed.
Lemma covariance_sumR_eq m1 m2 : forall l k s, covariance_sumR m1 m2 l k s = s + sum2 (fun x y => (x - m1) * (y - m2)) l k.
Proof. induction l as [|a l IH]; intros [|b k] s; cbn [covariance_sumR sum2]; try lra. rewrite IH. lra. Qed.

Lemma sum2_lin f g a b : forall l k, sum2 (fun x y => a * f x y + b * g x y) l k = a * sum2 f l k + b * sum2 g l k.
Proof. induction l as [|x l IH]; intros [|y k]; cbn [sum2]; try lra. rewrite IH. lra. Qed.
Lemma sum2_ext f g : (forall x y, f x y = g x y) -> forall l k, sum2 f l k = sum2 g l k.
Proof. intros H. induction l as [|x l IH]; intros [|y k]; cbn [sum2]; try reflexivity. rewrite H, IH. reflexivity. Qed.
Lemma sum2_nonneg f : (forall x y, 0 <= f x y) -> forall l k, 0 <= sum2 f l k.
Proof. intros H. induction l as [|x l IH]; intros [|y k]; cbn [sum2]; try lra. specialize (H x y). specialize (IH k). lra. Qed.
Lemma sum2_one : forall l k, length l = length k -> sum2 (fun _ _ => 1) l k = INR (length l).
Proof. induction l as [|x l IH]; intros [|y k] H; try discriminate; [reflexivity|]. cbn [length] in *. injection H as H. rewrite S_INR. cbn [sum2]. rewrite IH by exact H. lra. Qed.
Lemma sum2_fst : forall l k, length l = length k -> sum2 (fun x _ => x) l k = sumL l.
Proof. induction l as [|x l IH]; intros [|y k] H; try discriminate; [reflexivity|]. injection H as H. cbn [sum2 sumL fold_right]. rewrite IH by exact H. reflexivity. Qed.
Lemma sum2_snd : forall l k, length l = length k -> sum2 (fun _ y => y) l k = sumL k.
Proof. induction l as [|x l IH]; intros [|y k] H; try discriminate; [reflexivity|]. injection H as H. cbn [sum2 sumL fold_right]. rewrite IH by exact H. reflexivity. Qed.
Lemma sum2_diag f l : sum2 f l l = sum2 (fun x _ => f x x) l l.
Proof. induction l as [|x l IH]; [reflexivity|]. cbn [sum2]. rewrite IH. reflexivity. Qed.
Lemma sum2_diag2 (f : R -> R) : forall l k, length l = length k -> sum2 (fun x _ => f x) l l = sum2 (fun x _ => f x) l k.
Proof. induction l as [|x l IH]; intros [|y k] H; try discriminate; [reflexivity|]. injection H as H. cbn [sum2]. rewrite (IH k H). reflexivity. Qed.
Lemma square_sum_zero m l : sum2 (fun x _ => (x - m) * (x - m)) l l = 0 -> forall x, In x l -> x = m.
Proof.
  assert (G : forall l k, sum2 (fun x _ => (x - m) * (x - m)) l k = 0 -> length l = length k -> forall x, In x l -> x = m).
  { clear l. induction l as [|a l IH]; intros [|b k] H Hl x Hx; try discriminate; [destruct Hx|]. cbn [sum2] in H. injection Hl as Hl. pose proof (sum2_nonneg (fun x _ => (x - m) * (x - m)) (fun x _ => Rle_0_sqr (x - m)) l k) as P. pose proof (Rle_0_sqr (a - m)) as Q. unfold Rsqr in Q. assert (A0 : (a - m) * (a - m) = 0) by lra. destruct Hx as [<-|Hx]; [apply Rmult_integral in A0; lra|]. apply (IH k); [lra|exact Hl|exact Hx]. }
  intro H. apply (G l l H eq_refl).
Qed.

Definition mean (l : list R) : R := sumL l / INR (length l).

(** the sum of squared deviations of [Y] from the line [a + b X] *)
Definition residual (X Y : list R) (a b : R) : R := sum2 (fun x y => (y - (a + b * x)) * (y - (a + b * x))) X Y.

Lemma corr_value x y : length x = length y -> (2 <= length x)%nat -> (forall v, In v x -> 0 < v) -> (forall v, In v y -> 0 < v) ->
  let X := map ln x in let Y := map ln y in let sxx := sum2 (fun a _ => (a - mean X) * (a - mean X)) X Y in let sxy := sum2 (fun a b => (a - mean X) * (b - mean Y)) X Y in
  correlationDimension x y = Ok (if Req_EM_T sxx 0 then None else Some (sxy / sxx)).
Proof.
  intros Hl H2 Px Py X Y sxx sxy. unfold correlationDimension. destruct (Nat.eqb_spec (length x) (length y)); [|lia]. cbn [negb]. rewrite !logsR_ok by assumption. fold X Y.
  assert (LX : length X = length x) by apply map_length. assert (LY : length Y = length x) by (unfold Y; rewrite map_length; lia). unfold sampleCovarianceR, sampleVarianceR. rewrite LX. destruct (Nat.ltb_spec (length x) 2); [lia|].
  assert (MX : sampleMeanR X = Some (mean X)) by (unfold sampleMeanR, mean; destruct X; [cbn in LX; lia|]; rewrite fold_plus, Rplus_0_l; reflexivity). assert (MY : sampleMeanR Y = Some (mean Y)) by (unfold sampleMeanR, mean; destruct Y; [cbn in LY; lia|]; rewrite fold_plus, Rplus_0_l; reflexivity).
  rewrite MX, MY. rewrite covariance_sumR_eq, fold_square, !Rplus_0_l. rewrite (sum2_diag (fun a b => (a - mean X) * (b - mean X)) X). rewrite (sum2_diag2 (fun a => (a - mean X) * (a - mean X)) X Y) by lia. fold sxx sxy.
  assert (Pm : 0 < INR (length x - 1)) by (apply lt_0_INR; lia). unfold divR. f_equal. destruct (Req_EM_T sxx 0) as [Z|Z].
  - destruct (Req_EM_T (1 / INR (length x - 1) * sxx) 0) as [_|N]; [reflexivity|]. exfalso. apply N. rewrite Z. ring.
  - destruct (Req_EM_T (1 / INR (length x - 1) * sxx) 0) as [E|_].
    + exfalso. apply Rmult_integral in E. destruct E as [E|E]; [|contradiction]. assert (0 < 1 / INR (length x - 1)) by (apply Rmult_lt_0_compat; [lra|apply Rinv_0_lt_compat; exact Pm]). lra.
    + f_equal. field. split; [exact Z|lra].
Qed.

(** Sequences of different length are rejected. *)
Theorem C112_throws : forall x y, length x <> length y -> correlationDimension x y = Throw RuntimeError.
Proof. intros x y H. unfold correlationDimension. destruct (Nat.eqb_spec (length x) (length y)); [contradiction|reflexivity]. Qed.

(** Otherwise, the result is the slope of the line that fits the logarithms best; it exists
    unless all abscissae are equal. *)
Theorem C112_regression : forall x y, length x = length y -> (2 <= length x)%nat -> (forall v, In v x -> 0 < v) -> (forall v, In v y -> 0 < v) ->
  (correlationDimension x y = Ok None /\ forall u v, In u x -> In v x -> u = v) \/
  exists s a, correlationDimension x y = Ok (Some s) /\ forall a' b', residual (map ln x) (map ln y) a s <= residual (map ln x) (map ln y) a' b'.
Proof.
  intros x y Hl H2 Px Py. pose proof (corr_value x y Hl H2 Px Py) as E. cbn zeta in E. set (X := map ln x) in *. set (Y := map ln y) in *. set (sxx := sum2 (fun a _ => (a - mean X) * (a - mean X)) X Y) in *. set (sxy := sum2 (fun a b => (a - mean X) * (b - mean Y)) X Y) in *.
  assert (LXY : length X = length Y) by (unfold X, Y; rewrite !map_length; exact Hl). assert (Pn : 0 < INR (length X)) by (apply lt_0_INR; unfold X; rewrite map_length; lia).
  destruct (Req_EM_T sxx 0) as [Z|Z].
  - left. split; [exact E|]. unfold sxx in Z. rewrite <- (sum2_diag2 (fun a => (a - mean X) * (a - mean X)) X Y LXY) in Z. pose proof (square_sum_zero _ _ Z) as A. intros u v Hu Hv. apply ln_inv; auto. rewrite (A (ln u)), (A (ln v)) by (apply in_map; assumption). reflexivity.
  - right. exists (sxy / sxx), (mean Y - sxy / sxx * mean X). split; [exact E|]. intros a' b'. set (s := sxy / sxx).
    assert (Psxx : 0 < sxx) by (pose proof (sum2_nonneg (fun a _ => (a - mean X) * (a - mean X)) (fun a _ => Rle_0_sqr (a - mean X)) X Y) as P; fold sxx in P; lra).
    set (n := INR (length X)) in *. set (syy := sum2 (fun _ b => (b - mean Y) * (b - mean Y)) X Y).
    assert (DX : sum2 (fun x _ => x - mean X) X Y = 0). { rewrite (sum2_ext _ (fun x y => 1 * (fun x _ => x) x y + (- mean X) * (fun _ _ => 1) x y)) by (intros; cbn; ring). rewrite sum2_lin, sum2_fst, sum2_one by exact LXY. unfold mean. fold n. field. lra. }
    assert (DY : sum2 (fun _ y => y - mean Y) X Y = 0). { rewrite (sum2_ext _ (fun x y => 1 * (fun _ y => y) x y + (- mean Y) * (fun _ _ => 1) x y)) by (intros; cbn; ring). rewrite sum2_lin, sum2_snd, sum2_one by exact LXY. unfold mean. rewrite <- LXY. fold n. field. lra. }
    assert (RS : forall a b, residual X Y a b = syy - 2 * b * sxy + b * b * sxx + n * ((mean Y - a - b * mean X) * (mean Y - a - b * mean X))).
    { intros a b. set (c := mean Y - a - b * mean X). unfold residual.
      rewrite (sum2_ext _ (fun x y => 1 * (fun x y => 1 * (fun _ y => (y - mean Y) * (y - mean Y)) x y + (- (2 * b)) * (fun x y => (x - mean X) * (y - mean Y)) x y) x y + 1 * (fun x y => 1 * (fun x y => b * b * (fun x _ => (x - mean X) * (x - mean X)) x y + c * c * (fun _ _ => 1) x y) x y + 1 * (fun x y => 2 * c * (fun _ y => y - mean Y) x y + (- (2 * b * c)) * (fun x _ => x - mean X) x y) x y) x y)) by (intros; unfold c; cbn; ring).
      rewrite sum2_lin, sum2_lin, sum2_lin, sum2_lin, sum2_lin, sum2_one, DX, DY by exact LXY. fold sxx sxy syy n. ring. }
    rewrite !RS. set (c' := mean Y - a' - b' * mean X). assert (0 <= n * (c' * c')) by (apply Rmult_le_pos; [lra|apply Rle_0_sqr]). assert (C0 : mean Y - (mean Y - s * mean X) - s * mean X = 0) by ring. rewrite C0. assert (Es : sxy = s * sxx) by (unfold s; field; lra). rewrite Es. assert (0 <= sxx * ((b' - s) * (b' - s))) by (apply Rmult_le_pos; [lra|apply Rle_0_sqr]). lra.
Qed.

(** A sequence that follows a power law has the exponent as its dimension. *)
Theorem C112_power : forall x c D, (2 <= length x)%nat -> (forall v, In v x -> 0 < v) -> (exists u v, In u x /\ In v x /\ u <> v) -> 0 < c ->
  correlationDimension x (map (fun v => c * Rpower v D) x) = Ok (Some D).
Proof.
  intros x c D H2 Px (u & v & Hu & Hv & Hne) Hc. set (y := map (fun v => c * Rpower v D) x). assert (Hl : length x = length y) by (unfold y; rewrite map_length; reflexivity).
  assert (Py : forall w, In w y -> 0 < w) by (intros w Hw; apply in_map_iff in Hw; destruct Hw as (z & <- & _); apply Rmult_lt_0_compat; [exact Hc|apply exp_pos]).
  pose proof (corr_value x y Hl H2 Px Py) as E. cbn zeta in E. set (X := map ln x) in *. set (Y := map ln y) in *. rewrite E. clear E.
  assert (LXY : length X = length Y) by (unfold X, Y; rewrite !map_length; exact Hl). assert (Pn : 0 < INR (length X)) by (apply lt_0_INR; unfold X; rewrite map_length; lia).
  assert (YX : Y = map (fun z => ln c + D * z) X).
  { unfold Y, X, y. rewrite !map_map. apply map_ext_in. intros z Hz. rewrite ln_mult by (try apply exp_pos; exact Hc). unfold Rpower. rewrite ln_exp. reflexivity. }
  assert (SY : sumL Y = INR (length X) * ln c + D * sumL X). { rewrite YX. clear. induction X as [|a X IH]; [cbn; ring|]. cbn [map sumL fold_right length]. rewrite S_INR. fold (sumL (map (fun z => ln c + D * z) X)). rewrite IH. unfold sumL. ring. }
  assert (MY : mean Y = ln c + D * mean X). { unfold mean. rewrite <- LXY, SY. field. lra. }
  assert (SXY : sum2 (fun a b => (a - mean X) * (b - mean Y)) X Y = D * sum2 (fun a _ => (a - mean X) * (a - mean X)) X Y).
  { rewrite MY, YX. generalize (mean X). intro m. clear. induction X as [|a X IH]; cbn [map sum2]; [ring|]. rewrite IH. ring. }
  rewrite SXY. destruct (Req_EM_T _ 0) as [Z|Z].
  - exfalso. apply Hne. rewrite <- (sum2_diag2 (fun a => (a - mean X) * (a - mean X)) X Y LXY) in Z. pose proof (square_sum_zero _ _ Z) as A. apply ln_inv; auto. rewrite (A (ln u)), (A (ln v)) by (apply in_map; assumption). reflexivity.
  - f_equal. f_equal. field. exact Z.
Qed.

(** FINDING: with fewer than two samples, the dimension is not finite. *)
Theorem C112_short_refuted : forall x y, length x = length y -> (length x < 2)%nat -> correlationDimension x y = Ok None.
Proof.
  intros x y Hl H2. unfold correlationDimension. destruct (Nat.eqb_spec (length x) (length y)); [|contradiction]. cbn [negb]. f_equal. destruct (logsR x) as [X|] eqn:EX; [|reflexivity]. destruct (logsR y) as [Y|]; [|reflexivity].
  assert (LX : (length X < 2)%nat). { assert (G : forall l r, logsR l = Some r -> length r = length l). { clear. induction l as [|a l IH]; intros r H; cbn [logsR] in H; [injection H as <-; reflexivity|]. destruct (logR a); [|discriminate]. destruct (logsR l); [|discriminate]. injection H as <-. cbn. f_equal. apply IH. reflexivity. } rewrite (G x X EX). exact H2. }
  unfold sampleCovarianceR. destruct (Nat.ltb_spec (length X) 2); [reflexivity|lia].
Qed.

Example C112_example : correlationDimension [1; 2; 4] [1 / 16; 1 / 4; 1] = Ok (Some 2).
Proof.
  rewrite <- (C112_power [1; 2; 4] (1 / 16) 2).
  - f_equal. cbn [map]. assert (R2 : forall v, 0 < v -> Rpower v 2 = v * v) by (intros v Hv; replace 2 with (1 + 1) by ring; rewrite Rpower_plus, Rpower_1 by exact Hv; reflexivity). rewrite !R2 by lra. f_equal; [field|f_equal; [field|f_equal; field]].
  - cbn. lia.
  - intros v Hv. cbn in Hv. intuition lra.
  - exists 1, 2. cbn. refine (conj _ (conj _ _)); auto. lra.
  - lra.
Qed.

Print Assumptions C108_order.
Print Assumptions C108_max.
Print Assumptions C108_single_refuted.
Print Assumptions C108_lipschitz.
Print Assumptions C108_bound.
Print Assumptions C109_gaussian.
Print Assumptions C109_bandwidth_refuted.
Print Assumptions C109_scale_refuted.
Print Assumptions C112_throws.
Print Assumptions C112_regression.
Print Assumptions C112_power.
Print Assumptions C112_short_refuted.
