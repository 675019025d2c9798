(** * Kernel density estimates and algebraic spheres. *)
From Coq Require Import Reals List Arith Bool Lia Lra Permutation.
From Verif Require Import Base HeatKernel Kernels MathReal SemidefiniteFacts.
Import ListNotations.
Local Open Scope R_scope.

(** ** C119: kernel density estimates *)
Lemma kde_fold {A} h kernel (norm : A -> A -> R) x : h <> 0 -> forall data s, fold_left (fun value y =>
    match value, divR (norm y x) h with
    | Some value, Some q => Some (value + kernel q)
    | _, _ => None
    end) data (Some s) = Some (s + SL (fun y => kernel (norm y x / h)) data).
Proof.
  intro Hh. induction data as [|y data IH]; intro s; cbn [fold_left]; [rewrite SL_nil; f_equal; lra|]. unfold divR at 2. destruct (Req_EM_T h 0); [contradiction|]. rewrite IH, SL_cons. f_equal. lra.
Qed.

Lemma kde_value {A} h d kernel (norm : A -> A -> R) data x : h <> 0 -> data <> [] -> kde h d kernel norm data x = Some (SL (fun y => kernel (norm y x / h)) data / (h ^ d) / INR (length data)).
Proof.
  intros Hh Hd. unfold kde. rewrite kde_fold by exact Hh. unfold divR at 1. destruct (Req_EM_T (h ^ d) 0) as [Z|_]; [exfalso; exact (pow_nonzero h d Hh Z)|]. unfold divR. destruct (Req_EM_T (INR (length data)) 0) as [Z|_].
  - exfalso. apply Hd. apply INR_eq with (m := 0%nat) in Z. destruct data; [reflexivity|discriminate].
  - rewrite Rplus_0_l. reflexivity.
Qed.

Lemma SL_nonneg {A} (f : A -> R) l : (forall a, In a l -> 0 <= f a) -> 0 <= SL f l.
Proof. induction l as [|a l IH]; intro H; [rewrite SL_nil; lra|]. rewrite SL_cons. pose proof (H a (or_introl eq_refl)). assert (0 <= SL f l) by (apply IH; intros; apply H; simpl; auto). lra. Qed.
Lemma SL_bound {A} (f : A -> R) b l : (forall a, In a l -> f a <= b) -> SL f l <= INR (length l) * b.
Proof. induction l as [|a l IH]; intro H; [rewrite SL_nil; cbn; lra|]. rewrite SL_cons. cbn [length]. rewrite S_INR. pose proof (H a (or_introl eq_refl)). assert (SL f l <= INR (length l) * b) by (apply IH; intros; apply H; simpl; auto). lra. Qed.
Lemma SL_perm {A} (f : A -> R) l l' : Permutation l l' -> SL f l = SL f l'.
Proof. induction 1; rewrite ?SL_cons in *; try lra. Qed.

Lemma INR_pos {A} (l : list A) : l <> [] -> 0 < INR (length l).
Proof. intro H. apply lt_0_INR. destruct l; [contradiction|cbn; lia]. Qed.

(** The estimate is the sum of the kernel values, divided by the number of samples and the power
    of the bandwidth; it depends neither on the order of the samples nor, in one dimension, on
    the origin. *)
Theorem C119_sum : forall (A : Type) h d kernel (norm : A -> A -> R) data x, h <> 0 -> data <> [] ->
  exists v, kde h d kernel norm data x = Some v /\ INR (length data) * h ^ d * v = SL (fun y => kernel (norm y x / h)) data /\
  forall data', Permutation data data' -> kde h d kernel norm data' x = Some v.
Proof.
  intros A h d kernel norm data x Hh Hd. eexists. refine (conj (kde_value h d kernel norm data x Hh Hd) (conj _ _)).
  - pose proof (pow_nonzero h d Hh). pose proof (INR_pos data Hd). field. split; lra.
  - intros data' P. rewrite kde_value; [|exact Hh|intros ->; apply Hd; apply Permutation_nil; apply Permutation_sym; exact P]. rewrite (Permutation_length P), (SL_perm _ _ _ P). reflexivity.
Qed.

Theorem C119_translation : forall h d kernel data x t, h <> 0 -> data <> [] -> kde h d kernel Rminus (map (Rplus t) data) (t + x) = kde h d kernel Rminus data x.
Proof.
  intros h d kernel data x t Hh Hd. rewrite !kde_value; auto; [|destruct data; [contradiction|discriminate]]. rewrite SL_map, map_length. f_equal. f_equal. f_equal. apply SL_ext. intros a _. f_equal. f_equal. ring.
Qed.

Lemma epanechnikov_bounds v : 0 <= epanechnikov v <= 3 / 4.
Proof.
  unfold epanechnikov. destruct (Rle_dec (Rabs v) 1) as [L|L]; [|lra]. pose proof (Rabs_pos v). assert (v * v <= 1). { rewrite <- (Rabs_pos_eq (v * v)) by apply Rle_0_sqr. rewrite Rabs_mult. nra. } pose proof (Rle_0_sqr v) as Q. unfold Rsqr in Q. lra.
Qed.
Lemma gaussian_bounds sigma v : 0 < sigma -> 0 < gaussian sigma v <= gaussian sigma 0.
Proof.
  intro Hs. unfold gaussian. assert (P : 0 < 1 / (sqrt (2 * PI) * sigma)). { apply Rmult_lt_0_compat; [lra|]. apply Rinv_0_lt_compat. apply Rmult_lt_0_compat; [apply sqrt_lt_R0; pose proof PI_RGT_0; lra|exact Hs]. }
  split; [apply Rmult_lt_0_compat; [exact P|apply exp_pos]|]. apply Rmult_le_compat_l; [lra|]. assert (Q : - (1 / 2) * (v * v) / (sigma * sigma) <= - (1 / 2) * (0 * 0) / (sigma * sigma)).
  { unfold Rdiv. apply Rmult_le_compat_r; [left; apply Rinv_0_lt_compat; nra|]. pose proof (Rle_0_sqr v) as Q. unfold Rsqr in Q. lra. }
  destruct (Rle_lt_or_eq_dec _ _ Q) as [L|E]; [left; apply exp_increasing; exact L|rewrite E; lra].
Qed.

(** With both kernels, the estimate is between 0 and the maximum of the kernel, divided by the
    power of the bandwidth. *)
Theorem C119_bounds : forall (A : Type) h d kernel (norm : A -> A -> R) data x, 0 < h -> data <> [] -> kernel = epanechnikov \/ (exists sigma, 0 < sigma /\ kernel = gaussian sigma) ->
  exists v, kde h d kernel norm data x = Some v /\ 0 <= v <= kernel 0 / h ^ d.
Proof.
  intros A h d kernel norm data x Hh Hd HK. assert (B : forall v, 0 <= kernel v <= kernel 0).
  { destruct HK as [->|(sigma & Hs & ->)]; intro v; [|pose proof (gaussian_bounds sigma v Hs); lra]. pose proof (epanechnikov_bounds v). assert (epanechnikov 0 = 3 / 4); [|lra]. unfold epanechnikov. rewrite Rabs_R0. destruct (Rle_dec 0 1); lra. }
  eexists. split; [apply kde_value; [lra|exact Hd]|]. pose proof (INR_pos data Hd) as Pn. pose proof (pow_lt h d Hh) as Ph. assert (Pi : 0 < / h ^ d) by (apply Rinv_0_lt_compat; exact Ph). assert (Pni : 0 < / INR (length data)) by (apply Rinv_0_lt_compat; exact Pn).
  unfold Rdiv. split.
  - apply Rmult_le_pos; [|lra]. apply Rmult_le_pos; [|lra]. apply SL_nonneg. intros; apply B.
  - assert (L : SL (fun y => kernel (norm y x / h)) data <= INR (length data) * kernel 0) by (apply SL_bound; intros; apply B). apply (Rmult_le_reg_r (INR (length data))); [exact Pn|]. rewrite Rmult_assoc, Rinv_l, Rmult_1_r by lra. replace (kernel 0 * / h ^ d * INR (length data)) with (INR (length data) * kernel 0 * / h ^ d) by ring. apply Rmult_le_compat_r; [lra|exact L].
Qed.

(** *** Epanechnikov estimates are probability densities *)
Definition epa_int (t : R) : R := if Rle_dec t (-1) then 0 else if Rle_dec t 1 then (2 + 3 * t - t * t * t) / 4 else 1.

Lemma epa_eq t : epanechnikov t = if Rle_dec t (-1) then 0 else if Rle_dec t 1 then 3 / 4 * (1 - t * t) else 0.
Proof.
  unfold epanechnikov. unfold Rabs. destruct (Rcase_abs t), (Rle_dec t (-1)), (Rle_dec t 1); try (destruct (Rle_dec (- t) 1)); try (destruct (Rle_dec t 1)); try lra; try (assert (t = -1) by lra; subst; lra).
Qed.

Lemma epa_taylor t h : Rabs (epa_int (t + h) - epa_int t - h * epanechnikov t) <= 3 * (h * h).
Proof.
  rewrite epa_eq. unfold epa_int. apply Rabs_le. pose proof (Rle_0_sqr h) as H2. unfold Rsqr in H2.
  destruct (Rle_dec (t + h) (-1)) as [A|A], (Rle_dec t (-1)) as [B|B]; try lra.
  - destruct (Rle_dec t 1) as [D|D].
    + (* t in the interval, t + h left of it: let u = t + 1 in (0, 2], h <= -u *)
      set (u := t + 1). assert (Ht : t = u - 1) by (unfold u; ring). assert (0 < u <= - h) by (unfold u; lra). assert (u <= 2) by (unfold u; lra). assert (u * u <= h * h) by nra.
      assert (E1 : (2 + 3 * t - t * t * t) / 4 = u * u * (3 - u) / 4) by (rewrite Ht; field). assert (E2 : 3 / 4 * (1 - t * t) = 3 / 4 * u * (2 - u)) by (rewrite Ht; field). rewrite E1, E2. assert (0 <= u * (2 - u)) by nra. assert (u * (2 - u) <= 2 * (- h)) by nra. split; nra.
    + (* t right of the interval, t + h left of it *)
      assert (2 <= - h) by lra. split; nra.
  - destruct (Rle_dec (t + h) 1) as [D|D].
    + set (u := t + h + 1). assert (Ht : t + h = u - 1) by (unfold u; ring). rewrite Ht. assert (0 < u <= h) by (unfold u; lra). assert (u <= 2) by (unfold u; lra). assert (u * u <= h * h) by nra.
      assert (E1 : (2 + 3 * (u - 1) - (u - 1) * (u - 1) * (u - 1)) / 4 = u * u * (3 - u) / 4) by field. rewrite E1. split; nra.
    + assert (2 <= h) by lra. split; nra.
  - destruct (Rle_dec (t + h) 1) as [D|D], (Rle_dec t 1) as [F|F].
    + assert (E : (2 + 3 * (t + h) - (t + h) * (t + h) * (t + h)) / 4 - (2 + 3 * t - t * t * t) / 4 - h * (3 / 4 * (1 - t * t)) = - (h * h * (3 * t + h) / 4)) by field. rewrite E. assert (-3 <= 3 * t + h <= 5) by lra. split; nra.
    + set (u := 1 - (t + h)). assert (Ht : t + h = 1 - u) by (unfold u; ring). rewrite Ht. assert (0 <= u <= - h) by (unfold u; lra). assert (u <= 2) by (unfold u; lra). assert (u * u <= h * h) by nra.
      assert (E1 : (2 + 3 * (1 - u) - (1 - u) * (1 - u) * (1 - u)) / 4 = 1 - u * u * (3 - u) / 4) by field. rewrite E1. split; nra.
    + set (u := 1 - t). assert (Ht : t = 1 - u) by (unfold u; ring). assert (0 <= u <= h) by (unfold u; lra). assert (u <= 2) by (unfold u; lra). assert (u * u <= h * h) by nra.
      assert (E1 : (2 + 3 * t - t * t * t) / 4 = 1 - u * u * (3 - u) / 4) by (rewrite Ht; field). assert (E2 : 3 / 4 * (1 - t * t) = 3 / 4 * u * (2 - u)) by (rewrite Ht; field). rewrite E1, E2. assert (0 <= u * (2 - u)) by nra. assert (u * (2 - u) <= 2 * h) by nra. split; nra.
    + split; nra.
Qed.

Lemma epa_derivable t : derivable_pt_lim epa_int t (epanechnikov t).
Proof.
  intros eps He. assert (Pd : 0 < eps / 3) by lra. exists (mkposreal (eps / 3) Pd). intros h Hne Hh. cbn [pos] in Hh. pose proof (epa_taylor t h) as T. pose proof (Rabs_pos_lt h Hne) as Ph.
  replace ((epa_int (t + h) - epa_int t) / h - epanechnikov t) with ((epa_int (t + h) - epa_int t - h * epanechnikov t) / h) by (field; exact Hne). unfold Rdiv. rewrite Rabs_mult, Rabs_inv. apply (Rmult_lt_reg_r (Rabs h)); [exact Ph|]. rewrite Rmult_assoc, Rinv_l by lra. rewrite Rmult_1_r.
  apply (Rle_lt_trans _ _ _ T). assert (E : h * h = Rabs h * Rabs h) by (rewrite <- Rabs_mult; symmetry; apply Rabs_pos_eq; apply Rle_0_sqr). rewrite E. nra.
Qed.

Lemma SL_derivable {A} (F f : A -> R -> R) l x : (forall a, In a l -> derivable_pt_lim (F a) x (f a x)) -> derivable_pt_lim (fun x => SL (fun a => F a x) l) x (SL (fun a => f a x) l).
Proof.
  induction l as [|a l IH]; intro H; [exact (derivable_pt_lim_const 0 x)|]. apply (derivable_pt_lim_plus (F a) (fun x => SL (fun a => F a x) l)); [apply H; simpl; auto|apply IH; intros; apply H; simpl; auto].
Qed.

(** The estimate with the Epanechnikov kernel in one dimension has a distribution function: an
    antiderivative that is 0 left of all samples and 1 right of them. *)
Theorem C119_density : forall h data, 0 < h -> data <> [] -> exists f F : R -> R, (forall x, kde h 1 epanechnikov Rminus data x = Some (f x)) /\ (forall x, derivable_pt_lim F x (f x)) /\
  (forall x, (forall y, In y data -> x <= y - h) -> F x = 0) /\ (forall x, (forall y, In y data -> y + h <= x) -> F x = 1).
Proof.
  intros h data Hh Hd. pose proof (INR_pos data Hd) as Pn. eexists. exists (fun x => / INR (length data) * SL (fun y => epa_int ((x - y) / h)) data). refine (conj (fun x => kde_value h 1 epanechnikov Rminus data x ltac:(lra) Hd) (conj _ (conj _ _))).
  - intro x. replace (SL (fun y => epanechnikov ((y - x) / h)) data / h ^ 1 / INR (length data)) with (/ INR (length data) * SL (fun y => / h * epanechnikov ((x - y) / h)) data).
    + apply (derivable_pt_lim_scal (fun x => SL (fun y => epa_int ((x - y) / h)) data)). apply (SL_derivable (fun y x => epa_int ((x - y) / h)) (fun y x => / h * epanechnikov ((x - y) / h))). intros y _.
      rewrite Rmult_comm. apply (derivable_pt_lim_comp (fun x => (x - y) / h) epa_int); [|apply epa_derivable].
      assert (D : derivable_pt_lim (fun x => / h * (x - y)) x (/ h * (1 - 0))).
      { apply (derivable_pt_lim_scal (fun x => x - y)). apply (derivable_pt_lim_minus (fun x => x) (fun _ => y)); [apply derivable_pt_lim_id|apply derivable_pt_lim_const]. }
      rewrite Rminus_0_r, Rmult_1_r in D. intros eps He. destruct (D eps He) as [d Hd']. exists d. intros k Hk Hk'. specialize (Hd' k Hk Hk'). unfold Rdiv. rewrite !(Rmult_comm _ (/ h)). unfold Rdiv in Hd'. rewrite (Rmult_comm (/ h * (x + k - y) - / h * (x - y)) (/ k)) in Hd'. rewrite (Rmult_comm (/ k)) in Hd'. exact Hd'.
    + rewrite SL_scale. rewrite (SL_ext (fun y => epanechnikov ((x - y) / h)) (fun y => epanechnikov ((y - x) / h))).
      * cbn [pow]. field. split; lra.
      * intros y _. replace ((x - y) / h) with (- ((y - x) / h)) by (field; lra). unfold epanechnikov. rewrite Rabs_Ropp. destruct (Rle_dec (Rabs ((y - x) / h)) 1); [|reflexivity]. ring.
  - intros x Hx. rewrite SL_zero; [ring|]. intros y Hy. specialize (Hx y Hy). unfold epa_int. destruct (Rle_dec ((x - y) / h) (-1)) as [_|N]; [reflexivity|]. exfalso. apply N. apply (Rmult_le_reg_r h); [exact Hh|]. unfold Rdiv. rewrite Rmult_assoc, Rinv_l by lra. lra.
  - intros x Hx. rewrite (SL_ext _ (fun _ => 1 * 1)).
    + rewrite SL_scale. assert (E : SL (fun _ : R => 1) data = INR (length data)). { clear. induction data as [|y data IH]; [reflexivity|]. rewrite SL_cons, IH. cbn [length]. rewrite S_INR. ring. } rewrite E. field. lra.
    + intros y Hy. specialize (Hx y Hy). unfold epa_int. assert (L : 1 <= (x - y) / h). { apply (Rmult_le_reg_r h); [exact Hh|]. unfold Rdiv. rewrite Rmult_assoc, Rinv_l by lra. lra. } destruct (Rle_dec ((x - y) / h) (-1)); [lra|]. destruct (Rle_dec ((x - y) / h) 1); [|ring]. replace ((x - y) / h) with 1 by lra. field.
Qed.

(** FINDING: without samples, or for bandwidth 0, the estimate is not finite. *)
Theorem C119_empty_refuted : forall (A : Type) h d kernel (norm : A -> A -> R) x, kde h d kernel norm [] x = None.
Proof. intros A h d kernel norm x. unfold kde. cbn [fold_left length]. unfold divR. destruct (Req_EM_T (h ^ d) 0); [reflexivity|]. cbn [INR]. destruct (Req_EM_T 0 0); [reflexivity|lra]. Qed.

Example C119_example : kde 2 1 epanechnikov Rminus [0; 1; 10] 1 = Some (7 / 32).
Proof.
  rewrite kde_value by (try lra; discriminate). f_equal. rewrite !SL_cons, SL_nil. rewrite !epa_eq. replace ((0 - 1) / 2) with (- (1 / 2)) by field. replace ((1 - 1) / 2) with 0 by field. replace ((10 - 1) / 2) with (9 / 2) by field.
  destruct (Rle_dec (- (1 / 2)) (-1)); [lra|]. destruct (Rle_dec (- (1 / 2)) 1); [|lra]. destruct (Rle_dec 0 (-1)); [lra|]. destruct (Rle_dec 0 1); [|lra]. destruct (Rle_dec (9 / 2) (-1)); [lra|]. destruct (Rle_dec (9 / 2) 1); [lra|]. cbn [pow length INR]. field.
Qed.

(** ** C120: algebraic spheres *)
(** the value of the polynomial [u0 + <u, x> + s <x, x>] *)
Fixpoint inner (u x : list R) : R := match u, x with a :: u, b :: x => a * b + inner u x | _, _ => 0 end.
Definition polynomial (u0 : R) (u : list R) (s : R) (x : list R) : R := u0 + inner u x + s * inner x x.
Definition square_distance (x y : list R) : R := inner (map (fun p => fst p - snd p) (combine x y)) (map (fun p => fst p - snd p) (combine x y)).

Lemma centre_eq u0 u s : s <> 0 -> centre (u0 :: u ++ [s]) = map (fun x => Some (x / (2 * s))) u.
Proof.
  intro Hs. unfold centre. cbn [tl]. rewrite removelast_last. assert (L : last (u0 :: u ++ [s]) 0 = s) by (rewrite app_comm_cons; apply last_last). rewrite L. apply map_ext. intro x. unfold divR. destruct (Req_EM_T (2 * s) 0); [lra|reflexivity].
Qed.
Lemma square_norm_eq c : square_norm (map Some c) = Some (inner c c).
Proof.
  unfold square_norm. assert (G : forall c a, fold_left (fun acc x => match acc, x with Some acc, Some x => Some (acc + x * x) | _, _ => None end) (map Some c) (Some a) = Some (a + inner c c)).
  { clear. induction c as [|x c IH]; intro a; cbn [map fold_left inner]; [f_equal; lra|]. rewrite IH. f_equal. lra. }
  rewrite G. f_equal. lra.
Qed.
Lemma radius_eq u0 u s : s <> 0 -> radius (u0 :: u ++ [s]) = sqrtR (inner (map (fun x => x / (2 * s)) u) (map (fun x => x / (2 * s)) u) - u0 / s).
Proof.
  intro Hs. unfold radius. rewrite centre_eq by exact Hs. rewrite <- (map_map (fun x => x / (2 * s)) Some), square_norm_eq. assert (L : last (u0 :: u ++ [s]) 0 = s) by (rewrite app_comm_cons; apply last_last). rewrite L. cbn [hd]. unfold divR. destruct (Req_EM_T s 0); [contradiction|reflexivity].
Qed.

Lemma complete_square u0 s : s <> 0 -> forall u x, length x = length u -> 
  polynomial u0 u s x = s * (square_distance x (map Ropp (map (fun a => a / (2 * s)) u)) - (inner (map (fun x => x / (2 * s)) u) (map (fun x => x / (2 * s)) u) - u0 / s)).
Proof.
  intros Hs u x Hl. unfold polynomial, square_distance. assert (G : forall u x, length x = length u -> inner u x + s * inner x x = s * (inner (map (fun p => fst p - snd p) (combine x (map Ropp (map (fun a => a / (2 * s)) u)))) (map (fun p => fst p - snd p) (combine x (map Ropp (map (fun a => a / (2 * s)) u)))) - inner (map (fun x => x / (2 * s)) u) (map (fun x => x / (2 * s)) u))).
  { clear u x Hl. induction u as [|a u IH]; intros [|b x] Hl; try discriminate; cbn [map combine inner fst snd]; [ring|]. injection Hl as Hl. specialize (IH x Hl). set (P := inner (map _ (combine x _)) _) in *. set (Q := inner (map (fun x => x / (2 * s)) u) _) in *. replace (a * b + inner u x + s * (b * b + inner x x)) with (a * b + s * (b * b) + (inner u x + s * inner x x)) by ring. rewrite IH. field. exact Hs. }
  specialize (G u x Hl). set (P := inner (map _ (combine x _)) _) in *. set (Q := inner (map (fun x => x / (2 * s)) u) _) in *. replace (u0 + inner u x + s * inner x x) with (u0 + (inner u x + s * inner x x)) by ring. rewrite G. field. exact Hs.
Qed.

(** For a sphere with a radius, the zeros of the polynomial are the points at distance [r] from
    the NEGATIVE of the result of [centre]; the curvatures are those of a sphere with the
    radius. *)
Theorem C120_sphere : forall u0 u s r, s <> 0 -> radius (u0 :: u ++ [s]) = Some r -> exists c, centre (u0 :: u ++ [s]) = map Some c /\ length c = length u /\ 0 <= r /\
  (forall x, length x = length u -> (polynomial u0 u s x = 0 <-> square_distance x (map Ropp c) = r * r)) /\
  (0 < r -> gaussianCurvature (u0 :: u ++ [s]) * (r * r) = 1 /\ meanCurvature (u0 :: u ++ [s]) * r = 1).
Proof.
  intros u0 u s r Hs HR. exists (map (fun x => x / (2 * s)) u). refine (conj _ (conj (map_length _ _) _)); [rewrite centre_eq by exact Hs; rewrite map_map; reflexivity|].
  pose proof HR as HR'. rewrite radius_eq in HR by exact Hs. unfold sqrtR in HR. destruct (Rle_dec 0 _) as [P|]; [|discriminate]. injection HR as <-. refine (conj (sqrt_pos _) (conj _ _)).
  - intros x Hx. rewrite sqrt_sqrt by exact P. rewrite (complete_square u0 s Hs u x Hx). split; intro H.
    + apply Rmult_integral in H. destruct H as [H|H]; [contradiction|lra].
    + rewrite H. ring.
  - intro Hr. unfold gaussianCurvature, meanCurvature. rewrite HR'. set (r := sqrt _) in *. destruct (Rlt_dec 0 r); [|contradiction]. split; field; lra.
Qed.

(** FINDING: the circle around (1, 0) with radius 1 has the polynomial [- 2 x + x^2 + y^2], for
    which (-1, 0) is returned. *)
Theorem C120_centre_refuted : centre [0; -2; 0; 1] = [Some (-1); Some 0] /\ radius [0; -2; 0; 1] = Some 1 /\ (forall x y, polynomial 0 [-2; 0] 1 [x; y] = square_distance [x; y] [1; 0] - 1).
Proof.
  refine (conj _ (conj _ _)).
  - change [0; -2; 0; 1] with (0 :: [-2; 0] ++ [1]). rewrite centre_eq by lra. cbn [map]. f_equal; [f_equal; field|f_equal; f_equal; field].
  - change [0; -2; 0; 1] with (0 :: [-2; 0] ++ [1]). rewrite radius_eq by lra. cbn [map inner]. replace (-2 / (2 * 1) * (-2 / (2 * 1)) + (0 / (2 * 1) * (0 / (2 * 1)) + 0) - 0 / 1) with 1 by field. unfold sqrtR. destruct (Rle_dec 0 1); [|lra]. rewrite sqrt_1. reflexivity.
  - intros x y. unfold polynomial, square_distance. cbn [inner map combine fst snd]. ring.
Qed.

(** A plane, and a polynomial without zeros, have curvature 0. *)
Theorem C120_degenerate : forall u0 u, radius (u0 :: u ++ [0]) = None /\ gaussianCurvature (u0 :: u ++ [0]) = 0 /\ meanCurvature (u0 :: u ++ [0]) = 0.
Proof.
  intros u0 u. assert (H : radius (u0 :: u ++ [0]) = None). { unfold radius. assert (L : last (u0 :: u ++ [0]) 0 = 0) by (rewrite app_comm_cons; apply last_last). rewrite L. unfold divR at 1. destruct (Req_EM_T 0 0); [|lra]. destruct (square_norm _); reflexivity. }
  unfold gaussianCurvature, meanCurvature. rewrite H. auto.
Qed.
Theorem C120_throws : forall l, sphere_make l = Throw RuntimeError <-> (length l < 3)%nat.
Proof. intro l. unfold sphere_make. destruct (Nat.ltb_spec (length l) 3); split; intro H'; try discriminate; auto; lia. Qed.

Example C120_example : radius [-4; 0; 0; 1] = Some 2 /\ gaussianCurvature [-4; 0; 0; 1] = 1 / 4.
Proof.
  assert (H : radius [-4; 0; 0; 1] = Some 2). { change [-4; 0; 0; 1] with (-4 :: [0; 0] ++ [1]). rewrite radius_eq by lra. cbn [map inner]. replace (0 / (2 * 1) * (0 / (2 * 1)) + (0 / (2 * 1) * (0 / (2 * 1)) + 0) - -4 / 1) with (2 * 2) by field. unfold sqrtR. destruct (Rle_dec 0 (2 * 2)); [|lra]. rewrite sqrt_square by lra. reflexivity. }
  split; [exact H|]. unfold gaussianCurvature. rewrite H. destruct (Rlt_dec 0 2); [field|lra].
Qed.

Print Assumptions C119_sum.
Print Assumptions C119_translation.
Print Assumptions C119_bounds.
Print Assumptions C119_density.
Print Assumptions C119_empty_refuted.
Print Assumptions C120_sphere.
Print Assumptions C120_centre_refuted.
Print Assumptions C120_degenerate.
Print Assumptions C120_throws.
