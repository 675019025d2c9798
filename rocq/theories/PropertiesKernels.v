(** * Kernels between persistence diagrams. *)
From Coq Require Import Reals List Arith Bool Lia Lra.
From Verif Require Import Base HeatKernel RealDescriptors PropertiesRealDescriptors Kernels SemidefiniteFacts.
Import ListNotations.
Local Open Scope R_scope.

(** ** C117: the multi-scale kernel *)
Definition mirror (p : R * R) : R * R := (snd p, fst p).

(** The sum over all pairs of points of the Gaussians of the distances to the second point and
    to its mirror image at the diagonal. *)
Definition heat_sum (c : R) (D E : list (R * R)) : R := SL (fun p => SL (fun q => exp (- sq p q / c) - exp (- sq p (mirror q) / c)) E) D.

Lemma distance_sq p q : squaredEuclideanDistance p q false = sq p q.
Proof. destruct p as [x0 y0], q as [x1 y1]. unfold squaredEuclideanDistance, sq. cbn [fst snd]. destruct (Rlt_dec x1 x0), (Rlt_dec y1 y0); ring. Qed.
Lemma distance_mirror p q : squaredEuclideanDistance p q true = sq p (mirror q).
Proof. destruct p as [x0 y0], q as [x1 y1]. unfold squaredEuclideanDistance, sq, mirror. cbn [fst snd]. destruct (Rlt_dec y1 x0), (Rlt_dec x1 y0); ring. Qed.
Lemma kahan_exact s v : kahanR_add (s, 0) v = (s + v, 0).
Proof. unfold kahanR_add. cbn [fst snd]. f_equal; lra. Qed.

Lemma kernel_sum_eq c D E : kernel_sum c D E = heat_sum (c * PI) D E.
Proof.
  assert (G : forall D s, fold_left (fun st p => fold_left (fun st q => kahanR_sub (kahanR_add st (exp (- squaredEuclideanDistance p q false / (c * PI)))) (exp (- squaredEuclideanDistance p q true / (c * PI)))) E st) D (s, 0) = (s + heat_sum (c * PI) D E, 0)).
  { clear D. induction D as [|p D IH]; intro s; cbn [fold_left]; [unfold heat_sum; rewrite SL_nil; f_equal; lra|].
    assert (F : forall E s, fold_left (fun st q => kahanR_sub (kahanR_add st (exp (- squaredEuclideanDistance p q false / (c * PI)))) (exp (- squaredEuclideanDistance p q true / (c * PI)))) E (s, 0) = (s + SL (fun q => exp (- sq p q / (c * PI)) - exp (- sq p (mirror q) / (c * PI))) E, 0)).
    { clear. induction E as [|q E IH]; intro s; cbn [fold_left]; [rewrite SL_nil; f_equal; lra|]. unfold kahanR_sub at 2. rewrite !kahan_exact, IH, SL_cons, distance_sq, distance_mirror. f_equal. lra. }
    rewrite F, IH. f_equal. unfold heat_sum. rewrite SL_cons. lra. }
  unfold kernel_sum. rewrite (G D 0). cbn [fst]. lra.
Qed.

Lemma sq_sym p q : sq p q = sq q p.
Proof. unfold sq. ring. Qed.
Lemma sq_mirror p q : sq (mirror p) (mirror q) = sq p q.
Proof. unfold sq, mirror. cbn [fst snd]. ring. Qed.
Lemma sq_mirror_l p q : sq (mirror p) q = sq p (mirror q).
Proof. unfold sq, mirror. cbn [fst snd]. ring. Qed.

Lemma heat_sum_sym c D E : heat_sum c D E = heat_sum c E D.
Proof.
  unfold heat_sum. rewrite SL_swap. apply SL_ext. intros q _. apply SL_ext. intros p _. rewrite (sq_sym p q), (sq_sym p (mirror q)), sq_mirror_l. reflexivity.
Qed.

(** the signed measure of a diagram: its points, and their mirror images with weight -1 *)
Definition signed (D : list (R * R)) : list (R * (R * R)) := map (fun p => (1, p)) D ++ map (fun p => (-1, mirror p)) D.
Definition gauss (c : R) (a b : R * R) : R := exp (- sq a b / c).

Lemma bil_signed c D E : bil (gauss c) (signed D) (signed E) = 2 * heat_sum c D E.
Proof.
  unfold signed. rewrite bil_app_l, !bil_app_r. unfold bil. rewrite !SL_map. unfold heat_sum. rewrite <- SL_scale, <- !SL_plus. apply SL_ext. intros p _. rewrite !SL_map, <- SL_scale, <- !SL_plus. apply SL_ext. intros q _. cbn [fst snd]. unfold gauss. rewrite sq_mirror, sq_mirror_l. ring.
Qed.
Lemma gauss_sym c a b : gauss c a b = gauss c b a.
Proof. unfold gauss. rewrite sq_sym. reflexivity. Qed.

Lemma multiscale_value D E sigma : 0 < sigma -> multiScaleKernel D E sigma = Some (heat_sum (8 * PI) D E / (8 * PI * sigma)).
Proof.
  intro Hs. pose proof PI_RGT_0 as Hpi. assert (P : 0 < 8 * PI * sigma) by (apply Rmult_lt_0_compat; lra). unfold multiScaleKernel, divR. destruct (Req_EM_T (8 * PI * sigma) 0); [lra|]. cbn [option_map]. rewrite kernel_sum_eq. f_equal. field. split; lra.
Qed.

(** The kernel is the sum over all pairs of points, and symmetric. *)
Theorem C117_kernel : forall D E sigma, 0 < sigma -> exists k, multiScaleKernel D E sigma = Some k /\ multiScaleKernel E D sigma = Some k /\
  8 * PI * sigma * k = SL (fun p => SL (fun q => exp (- sq p q / (8 * PI)) - exp (- sq p (mirror q) / (8 * PI))) E) D.
Proof.
  intros D E sigma Hs. eexists. refine (conj (multiscale_value D E sigma Hs) (conj _ _)); [rewrite multiscale_value, heat_sum_sym by exact Hs; reflexivity|]. pose proof PI_RGT_0. unfold heat_sum. field. split; lra.
Qed.

(** The kernel is additive, and points on the diagonal have no influence. *)
Theorem C117_additive : forall D D' E sigma, 0 < sigma -> exists k k', multiScaleKernel D E sigma = Some k /\ multiScaleKernel D' E sigma = Some k' /\ multiScaleKernel (D ++ D') E sigma = Some (k + k').
Proof.
  intros D D' E sigma Hs. eexists _, _. refine (conj (multiscale_value D E sigma Hs) (conj (multiscale_value D' E sigma Hs) _)). rewrite multiscale_value by exact Hs. f_equal. unfold heat_sum. rewrite SL_app. pose proof PI_RGT_0. field. split; lra.
Qed.
Theorem C117_diagonal : forall D D' E x sigma, 0 < sigma -> multiScaleKernel (D ++ (x, x) :: D') E sigma = multiScaleKernel (D ++ D') E sigma.
Proof.
  intros D D' E x sigma Hs. rewrite !multiscale_value by exact Hs. f_equal. f_equal. unfold heat_sum. rewrite !SL_app, SL_cons. assert (Z : SL (fun q => exp (- sq (x, x) q / (8 * PI)) - exp (- sq (x, x) (mirror q) / (8 * PI))) E = 0).
  { apply SL_zero. intros q _. rewrite <- sq_mirror_l. change (mirror (x, x)) with (x, x). lra. }
  rewrite Z. lra.
Qed.

(** The kernel is positive semidefinite. *)
Theorem C117_semidefinite : forall D E sigma, 0 < sigma -> exists kxx kxy kyy, multiScaleKernel D D sigma = Some kxx /\ multiScaleKernel D E sigma = Some kxy /\ multiScaleKernel E E sigma = Some kyy /\
  0 <= kxx /\ 0 <= kyy /\ kxy * kxy <= kxx * kyy.
Proof.
  intros D E sigma Hs. pose proof PI_RGT_0 as Hpi. assert (P8 : 0 < 8 * PI) by lra. assert (P : 0 < / (8 * PI * sigma)) by (apply Rinv_0_lt_compat, Rmult_lt_0_compat; lra).
  assert (PS : psd (gauss (8 * PI))) by (apply psd_gaussian; exact P8). assert (N : forall D, 0 <= heat_sum (8 * PI) D D) by (intro D0; pose proof (PS (signed D0)) as N; rewrite bil_signed in N; lra).
  exists (heat_sum (8 * PI) D D / (8 * PI * sigma)), (heat_sum (8 * PI) D E / (8 * PI * sigma)), (heat_sum (8 * PI) E E / (8 * PI * sigma)).
  refine (conj (multiscale_value _ _ _ Hs) (conj (multiscale_value _ _ _ Hs) (conj (multiscale_value _ _ _ Hs) (conj _ (conj _ _))))).
  - apply Rmult_le_pos; [apply N|lra].
  - apply Rmult_le_pos; [apply N|lra].
  - pose proof (cauchy_schwarz (gauss (8 * PI)) (signed D) (signed E) (gauss_sym (8 * PI)) PS) as CS. rewrite !bil_signed in CS. unfold Rdiv. set (i := / (8 * PI * sigma)) in *.
    replace (heat_sum (8 * PI) D E * i * (heat_sum (8 * PI) D E * i)) with (i * i * (heat_sum (8 * PI) D E * heat_sum (8 * PI) D E)) by ring. replace (heat_sum (8 * PI) D D * i * (heat_sum (8 * PI) E E * i)) with (i * i * (heat_sum (8 * PI) D D * heat_sum (8 * PI) E E)) by ring.
    apply Rmult_le_compat_l; [apply Rle_0_sqr|]. lra.
Qed.

(** The distance that belongs to the kernel is a pseudo-metric; in particular, the square root
    is always defined. *)
Definition difference (D E : list (R * R)) : list (R * (R * R)) := signed D ++ scaled (-1) (signed E).

Lemma bil_difference c D E D' E' : bil (gauss c) (difference D E) (difference D' E') = 2 * (heat_sum c D D' - heat_sum c D E' - heat_sum c E D' + heat_sum c E E').
Proof. unfold difference. rewrite bil_app_l, !bil_app_r, !bil_scale_l, !bil_scale_r, !bil_signed. ring. Qed.

Lemma metric_value D E sigma : 0 < sigma -> multiScalePseudoMetric D E sigma = Some (sqrt (/ (16 * PI * sigma)) * sqrt (bil (gauss (8 * PI)) (difference D E) (difference D E))).
Proof.
  intros Hs. pose proof PI_RGT_0 as Hpi. assert (P8 : 0 < 8 * PI) by lra. assert (P16 : 0 < 16 * PI * sigma) by (apply Rmult_lt_0_compat; lra). assert (Pi16 : 0 < / (16 * PI * sigma)) by (apply Rinv_0_lt_compat; exact P16).
  assert (PS : psd (gauss (8 * PI))) by (apply psd_gaussian; exact P8). pose proof (PS (difference D E)) as N.
  unfold multiScalePseudoMetric. rewrite !multiscale_value by exact Hs.
  assert (V : heat_sum (8 * PI) D D / (8 * PI * sigma) + heat_sum (8 * PI) E E / (8 * PI * sigma) - 2 * (heat_sum (8 * PI) D E / (8 * PI * sigma)) = / (16 * PI * sigma) * bil (gauss (8 * PI)) (difference D E) (difference D E)).
  { rewrite bil_difference, (heat_sum_sym _ E D). field. split; lra. }
  rewrite V. rewrite <- sqrt_mult by lra. unfold sqrtR. destruct (Rle_dec 0 _) as [_|X]; [reflexivity|exfalso; apply X; apply Rmult_le_pos; lra].
Qed.

Theorem C117_metric : forall sigma, 0 < sigma -> exists d : list (R * R) -> list (R * R) -> R, (forall D E, multiScalePseudoMetric D E sigma = Some (d D E)) /\
  (forall D E, 0 <= d D E) /\ (forall D E, d D E = d E D) /\ (forall D, d D D = 0) /\ (forall D E F, d D F <= d D E + d E F).
Proof.
  intros sigma Hs. pose proof PI_RGT_0 as Hpi. assert (P8 : 0 < 8 * PI) by lra. assert (PS : psd (gauss (8 * PI))) by (apply psd_gaussian; exact P8).
  eexists. refine (conj (fun D E => metric_value D E sigma Hs) (conj _ (conj _ (conj _ _)))).
  - intros D E. apply Rmult_le_pos; apply sqrt_pos.
  - intros D E. f_equal. f_equal. rewrite !bil_difference, (heat_sum_sym _ E D). ring.
  - intro D. rewrite bil_difference. replace (2 * (heat_sum (8 * PI) D D - heat_sum (8 * PI) D D - heat_sum (8 * PI) D D + heat_sum (8 * PI) D D)) with 0 by ring. rewrite sqrt_0. ring.
  - intros D E F. rewrite <- Rmult_plus_distr_l. apply Rmult_le_compat_l; [apply sqrt_pos|].
    pose proof (triangle (gauss (8 * PI)) (difference D E) (difference E F) (gauss_sym (8 * PI)) PS) as T.
    replace (bil (gauss (8 * PI)) (difference D F) (difference D F)) with (bil (gauss (8 * PI)) (difference D E ++ difference E F) (difference D E ++ difference E F)); [exact T|].
    rewrite bil_app_l, !bil_app_r, !bil_difference, (heat_sum_sym _ E D), (heat_sum_sym _ F D), (heat_sum_sym _ F E). ring.
Qed.

(** FINDING: the smoothing parameter does not occur in the exponents: it only scales the
    kernel. *)
Theorem C117_sigma_refuted : forall D E sigma, 0 < sigma -> exists k k1, multiScaleKernel D E sigma = Some k /\ multiScaleKernel D E 1 = Some k1 /\ sigma * k = k1.
Proof.
  intros D E sigma Hs. eexists _, _. refine (conj (multiscale_value D E sigma Hs) (conj (multiscale_value D E 1 Rlt_0_1) _)). pose proof PI_RGT_0. field. split; lra.
Qed.

(** The feature map of a diagram is the kernel with half the scale. *)
Theorem C117_feature : forall D sigma, 0 < sigma -> exists v, multiScaleFeatureMap D sigma = Some v /\ 0 <= v /\
  4 * PI * sigma * v = SL (fun p => SL (fun q => exp (- sq p q / (4 * PI)) - exp (- sq p (mirror q) / (4 * PI))) D) D.
Proof.
  intros D sigma Hs. pose proof PI_RGT_0 as Hpi. assert (P : 0 < 4 * PI * sigma) by (apply Rmult_lt_0_compat; lra). unfold multiScaleFeatureMap, divR. destruct (Req_EM_T (4 * PI * sigma) 0); [lra|]. cbn [option_map]. rewrite kernel_sum_eq. eexists. refine (conj eq_refl (conj _ _)).
  - apply Rmult_le_pos; [left; apply Rmult_lt_0_compat; [lra|apply Rinv_0_lt_compat; exact P]|]. pose proof (psd_gaussian (4 * PI) ltac:(lra) (signed D)) as N. change (0 <= bil (gauss (4 * PI)) (signed D) (signed D)) in N. rewrite bil_signed in N. lra.
  - unfold heat_sum. field. split; lra.
Qed.

(** The kernel of a point off the diagonal with itself is positive. *)
Example C117_example : exists k, multiScaleKernel [(0, 1)] [(0, 1)] 1 = Some k /\ 0 < k.
Proof.
  eexists. split; [apply multiscale_value; lra|]. pose proof PI_RGT_0 as Hpi. unfold heat_sum. rewrite !SL_cons, !SL_nil. unfold sq, mirror. cbn [fst snd].
  apply Rmult_lt_0_compat; [|apply Rinv_0_lt_compat; lra]. assert (exp (- ((0 - 1) * (0 - 1) + (1 - 0) * (1 - 0)) / (8 * PI)) < exp (- ((0 - 0) * (0 - 0) + (1 - 1) * (1 - 1)) / (8 * PI))); [|lra]. apply exp_increasing. unfold Rdiv. apply Rmult_lt_compat_r; [apply Rinv_0_lt_compat; lra|lra].
Qed.

(** ** C118: kernel embeddings *)
Lemma linear_value D E w k K : (forall p q, In p D -> In q E -> k p q = Some (K p q)) -> linearKernel D E w k = Some (SL (fun p => SL (fun q => w p * w q * K p q) E) D).
Proof.
  intro H. unfold linearKernel. assert (G : forall D s, (forall p q, In p D -> In q E -> k p q = Some (K p q)) -> fold_left (fun st p => fold_left (fun st q => match st, k p q with Some st, Some v => Some (kahanR_add st (w p * w q * v)) | _, _ => None end) E st) D (Some (s, 0)) = Some (s + SL (fun p => SL (fun q => w p * w q * K p q) E) D, 0)).
  { clear D H. induction D as [|p D IH]; intros s H; cbn [fold_left]; [rewrite SL_nil; f_equal; f_equal; lra|].
    assert (F : forall E s, (forall q, In q E -> k p q = Some (K p q)) -> fold_left (fun st q => match st, k p q with Some st, Some v => Some (kahanR_add st (w p * w q * v)) | _, _ => None end) E (Some (s, 0)) = Some (s + SL (fun q => w p * w q * K p q) E, 0)).
    { clear. induction E as [|q E IH]; intros s H; cbn [fold_left]; [rewrite SL_nil; f_equal; f_equal; lra|]. rewrite (H q (or_introl eq_refl)), kahan_exact, IH, SL_cons by (intros; apply H; simpl; auto). f_equal. f_equal. lra. }
    rewrite F by (intros; apply H; simpl; auto). rewrite IH by (intros; apply H; simpl; auto). rewrite SL_cons. f_equal. f_equal. lra. }
  rewrite (G D 0 H). cbn [option_map fst]. f_equal. lra.
Qed.

Lemma default_value sigma p q : sigma <> 0 -> defaultKernel sigma p q = Some (gauss (2 * sigma * sigma) p q).
Proof.
  intro Hs. unfold defaultKernel, divR. destruct (Req_EM_T (2 * sigma * sigma) 0) as [Z|_].
  - exfalso. apply Hs. apply Rmult_integral in Z. destruct Z as [Z|Z]; lra.
  - cbn [option_map]. rewrite distance_sq. reflexivity.
Qed.

Definition weighted (w : R * R -> R) (D : list (R * R)) : list (R * (R * R)) := map (fun p => (w p, p)) D.

Lemma linear_bil D E w sigma : sigma <> 0 -> linearKernel D E w (defaultKernel sigma) = Some (bil (gauss (2 * sigma * sigma)) (weighted w D) (weighted w E)).
Proof.
  intro Hs. rewrite (linear_value D E w _ (gauss (2 * sigma * sigma))) by (intros; apply default_value; exact Hs). f_equal. unfold bil, weighted. rewrite SL_map. apply SL_ext. intros p _. rewrite SL_map. reflexivity.
Qed.

(** The linear kernel is the weighted sum of the kernel over all pairs; with Gaussians, it is
    symmetric and positive semidefinite for every weight function. *)
Theorem C118_linear : forall D E w sigma, sigma <> 0 -> exists kxx kxy kyy,
  linearKernel D D w (defaultKernel sigma) = Some kxx /\ linearKernel D E w (defaultKernel sigma) = Some kxy /\ linearKernel E D w (defaultKernel sigma) = Some kxy /\ linearKernel E E w (defaultKernel sigma) = Some kyy /\
  kxy = SL (fun p => SL (fun q => w p * w q * exp (- sq p q / (2 * sigma * sigma))) E) D /\
  0 <= kxx /\ kxy * kxy <= kxx * kyy /\ 2 * kxy <= kxx + kyy.
Proof.
  intros D E w sigma Hs. assert (P : 0 < 2 * sigma * sigma). { assert (0 < sigma * sigma) by (apply Rsqr_pos_lt; exact Hs). lra. }
  assert (PS : psd (gauss (2 * sigma * sigma))) by (apply psd_gaussian; exact P). exists (bil (gauss (2 * sigma * sigma)) (weighted w D) (weighted w D)), (bil (gauss (2 * sigma * sigma)) (weighted w D) (weighted w E)), (bil (gauss (2 * sigma * sigma)) (weighted w E) (weighted w E)).
  refine (conj (linear_bil D D w sigma Hs) (conj (linear_bil D E w sigma Hs) (conj _ (conj (linear_bil E E w sigma Hs) (conj _ (conj (PS _) (conj _ _))))))).
  - rewrite linear_bil by exact Hs. f_equal. apply bil_sym. apply gauss_sym.
  - unfold bil, weighted. rewrite SL_map. apply SL_ext. intros p _. rewrite SL_map. reflexivity.
  - apply cauchy_schwarz; [apply gauss_sym|exact PS].
  - pose proof (PS (weighted w D ++ scaled (-1) (weighted w E))) as N. rewrite bil_app_l, !bil_app_r, !bil_scale_l, !bil_scale_r, (bil_sym _ (weighted w E) (weighted w D) (gauss_sym (2 * sigma * sigma))) in N. lra.
Qed.

(** The default weights are between 0 and a right angle, and increase with the persistence. *)
Lemma powR_mono x y p : 0 <= x -> x < y -> 0 < p -> powR x p < powR y p.
Proof.
  intros Hx Hxy Hp. unfold powR. destruct (Req_EM_T y 0); [lra|]. destruct (Req_EM_T x 0) as [->|Hne]; [apply exp_pos|]. unfold Rpower. apply exp_increasing. apply Rmult_lt_compat_l; [exact Hp|]. apply ln_increasing; lra.
Qed.
Theorem C118_weight : forall C p x y, 0 < C -> 0 < p -> 0 <= snd x - fst x -> 
  0 <= defaultWeight C p x < PI / 2 /\ (snd x - fst x < snd y - fst y -> defaultWeight C p x < defaultWeight C p y) /\ (defaultWeight C p x = 0 <-> fst x = snd x).
Proof.
  intros C p x y HC Hp Hx. unfold defaultWeight. set (u := snd x - fst x) in *.
  assert (Z : powR 0 p = 0) by (unfold powR; destruct (Req_EM_T 0 0); [reflexivity|lra]).
  assert (At0 : atan 0 = 0) by apply atan_0.
  refine (conj (conj _ _) (conj _ _)).
  - destruct (Rle_lt_or_eq_dec _ _ Hx) as [L|<-]; [|rewrite Z, Rmult_0_r, At0; lra]. left. rewrite <- At0. apply atan_increasing. apply Rmult_lt_0_compat; [exact HC|]. rewrite <- Z. apply powR_mono; lra.
  - apply atan_bound.
  - intro L. apply atan_increasing. apply Rmult_lt_compat_l; [exact HC|]. apply powR_mono; lra.
  - split; intro H.
    + destruct (Rle_lt_or_eq_dec _ _ Hx) as [L|E]; [|unfold u in E; lra]. exfalso. assert (atan 0 < atan (C * powR u p)); [|lra]. apply atan_increasing. apply Rmult_lt_0_compat; [exact HC|]. rewrite <- Z. apply powR_mono; lra.
    + assert (E : u = 0) by (unfold u; lra). rewrite E, Z, Rmult_0_r. exact At0.
Qed.

(** FINDING: the distance is 0 for all diagrams, since all kernel values are those of the two
    diagrams, and the Gaussian kernel is 1. *)
Theorem C118_metric_refuted : forall D E w sigma, sigma <> 0 -> pseudoMetric D E w (defaultKernel sigma) = Some 0.
Proof.
  intros D E w sigma Hs. unfold pseudoMetric. rewrite linear_bil by exact Hs. set (v := bil _ _ _). replace (v + v - 2 * v) with 0 by ring. unfold sqrtR. destruct (Rle_dec 0 0); [|lra]. rewrite sqrt_0. reflexivity.
Qed.
Theorem C118_gaussian_refuted : forall D E sigma C p tau, sigma <> 0 -> tau <> 0 -> gaussianKernelDefault D E sigma C p tau = Some 1.
Proof.
  intros D E sigma C p tau Hs Ht. unfold gaussianKernelDefault, gaussianKernel. rewrite C118_metric_refuted by exact Hs. unfold divR. destruct (Req_EM_T (2 * tau * tau) 0) as [Z|_].
  - exfalso. apply Ht. apply Rmult_integral in Z. destruct Z as [Z|Z]; lra.
  - rewrite Rmult_0_r, exp_0. reflexivity.
Qed.

Example C118_example : forall C p, exists k, linearKernel [(0, 1)] [(0, 1)] (defaultWeight C p) (defaultKernel 1) = Some k /\ k = atan C * atan C.
Proof.
  intros C p. eexists. split; [apply linear_bil; lra|]. unfold bil, weighted. cbn [map]. rewrite !SL_cons, !SL_nil. cbn [fst snd]. unfold gauss, sq, defaultWeight. cbn [fst snd]. replace (- ((0 - 0) * (0 - 0) + (1 - 1) * (1 - 1)) / (2 * 1 * 1)) with 0 by field. rewrite exp_0. replace (1 - 0) with 1 by ring. unfold powR. destruct (Req_EM_T 1 0); [lra|]. unfold Rpower. rewrite ln_1, (Rmult_0_r p), exp_0, (Rmult_1_r C). ring.
Qed.

Print Assumptions C117_kernel.
Print Assumptions C117_additive.
Print Assumptions C117_diagonal.
Print Assumptions C117_semidefinite.
Print Assumptions C117_metric.
Print Assumptions C117_sigma_refuted.
Print Assumptions C117_feature.
Print Assumptions C118_linear.
Print Assumptions C118_weight.
Print Assumptions C118_metric_refuted.
Print Assumptions C118_gaussian_refuted.
