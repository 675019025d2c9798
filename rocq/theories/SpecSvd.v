(** * Specification of singular value decompositions *)
From Coq Require Import Reals List Arith Bool Lia Lra.
From Verif Require Import Base PropertiesHeat.
Import ListNotations.
Local Open Scope R_scope.

Definition entry (M : list (list R)) (r c : nat) : R := nth c (nth r M []) 0.
Definition singular (sigma : list R) (k : nat) : R := nth k sigma 0.

(** [sigma] are the singular values of the matrix [M] with [n] rows and [m] columns and [V] are its right
    singular vectors: M is the product of a matrix with orthonormal columns, the diagonal matrix of the
    singular values and the transpose of V, which has orthonormal columns and is orthogonal if it is square *)
Record svd_spec (n m : nat) (M : list (list R)) (sigma : list R) (V : list (list R)) : Prop := {
  svd_values : length sigma = min n m;
  svd_vectors : length V = min n m;
  svd_width : forall v, In v V -> length v = m;
  svd_order : forall i j, (i <= j < min n m)%nat -> 0 <= singular sigma j <= singular sigma i;
  svd_orthonormal : forall i j, (i < min n m)%nat -> (j < min n m)%nat -> sumR m (fun c => entry V i c * entry V j c) = delta i j;
  svd_product : exists U : nat -> nat -> R,
    (forall i j, (i < min n m)%nat -> (j < min n m)%nat -> sumR n (fun r => U i r * U j r) = delta i j) /\
    (forall r c, (r < n)%nat -> (c < m)%nat -> entry M r c = sumR (min n m) (fun k => singular sigma k * U k r * entry V k c));
  svd_square : (m <= n)%nat -> forall c e, (c < m)%nat -> (e < m)%nat -> sumR m (fun k => entry V k c * entry V k e) = delta c e }.

(** ** Consequences *)
Lemma sumR_scale_r n c f : sumR n (fun i => f i * c) = sumR n f * c.
Proof. rewrite (sumR_ext n (fun i => f i * c) (fun i => c * f i)) by (intros; ring). rewrite sumR_scale. ring. Qed.
(** the inner product of two combinations of orthonormal vectors *)
Lemma parseval n k (W : nat -> nat -> R) a b : (forall i j, (i < k)%nat -> (j < k)%nat -> sumR n (fun r => W i r * W j r) = delta i j) ->
  sumR n (fun r => sumR k (fun i => a i * W i r) * sumR k (fun j => b j * W j r)) = sumR k (fun i => a i * b i).
Proof.
  intro H. rewrite (sumR_ext n _ (fun r => sumR k (fun i => sumR k (fun j => a i * b j * (W i r * W j r))))).
  2:{ intros r Hr. rewrite <- sumR_scale_r. apply sumR_ext. intros i Hi. rewrite <- sumR_scale. apply sumR_ext. intros j Hj. ring. }
  rewrite sumR_swap. apply sumR_ext. intros i Hi. rewrite sumR_swap. rewrite (sumR_ext k _ (fun j => delta i j * (a i * b j))).
  2:{ intros j Hj. rewrite sumR_scale, H by assumption. ring. }
  apply (sumR_delta k i (fun j => a i * b j)); exact Hi.
Qed.
Section Consequences.
Variables n m : nat.
Variable M : list (list R).
Variable sigma : list R.
Variable V : list (list R).
Hypothesis H : svd_spec n m M sigma V.
Definition along (x : nat -> R) (k : nat) : R := sumR m (fun c => entry V k c * x c).
Definition size2 (x : nat -> R) : R := sumR m (fun c => x c * x c).

(** the squared norm of M x *)
Lemma image_norm x : sumR n (fun r => sumR m (fun c => entry M r c * x c) * sumR m (fun c => entry M r c * x c)) = sumR (min n m) (fun k => singular sigma k * singular sigma k * (along x k * along x k)).
Proof.
  destruct (svd_product _ _ _ _ _ H) as (U & HU & HM).
  assert (E : forall r, (r < n)%nat -> sumR m (fun c => entry M r c * x c) = sumR (min n m) (fun k => singular sigma k * along x k * U k r)).
  { intros r Hr. rewrite (sumR_ext m _ (fun c => sumR (min n m) (fun k => singular sigma k * U k r * entry V k c * x c))).
    2:{ intros c Hc. rewrite HM by assumption. rewrite <- sumR_scale_r. reflexivity. }
    rewrite sumR_swap. apply sumR_ext. intros k Hk. unfold along. rewrite (sumR_ext m _ (fun c => singular sigma k * U k r * (entry V k c * x c))) by (intros; ring). rewrite sumR_scale. ring. }
  rewrite (sumR_ext n _ (fun r => sumR (min n m) (fun k => singular sigma k * along x k * U k r) * sumR (min n m) (fun k => singular sigma k * along x k * U k r))) by (intros r Hr; rewrite E by exact Hr; reflexivity).
  rewrite (parseval n (min n m) U) by exact HU. apply sumR_ext. intros; ring.
Qed.
Lemma along_vector j k : (j < min n m)%nat -> (k < min n m)%nat -> along (fun c => entry V j c) k = delta j k.
Proof. intros Hj Hk. unfold along. rewrite (svd_orthonormal _ _ _ _ _ H k j Hk Hj). unfold delta. rewrite Nat.eqb_sym. reflexivity. Qed.
Lemma image_vector j : (j < min n m)%nat -> sumR n (fun r => sumR m (fun c => entry M r c * entry V j c) * sumR m (fun c => entry M r c * entry V j c)) = singular sigma j * singular sigma j.
Proof.
  intro Hj. rewrite (image_norm (fun c => entry V j c)). rewrite (sumR_single _ j); [|exact Hj|intros k Hk Hne; rewrite along_vector by assumption; unfold delta; destruct (Nat.eqb_spec j k); [congruence|ring]].
  rewrite along_vector by assumption. unfold delta. rewrite Nat.eqb_refl. ring.
Qed.
(** Bessel's inequality *)
Lemma bessel x : sumR (min n m) (fun k => along x k * along x k) <= size2 x.
Proof.
  pose (p := fun c => sumR (min n m) (fun k => along x k * entry V k c)).
  assert (A : sumR m (fun c => p c * p c) = sumR (min n m) (fun k => along x k * along x k)) by (apply (parseval m (min n m) (entry V)); exact (svd_orthonormal _ _ _ _ _ H)).
  assert (B : sumR m (fun c => x c * p c) = sumR (min n m) (fun k => along x k * along x k)).
  { unfold p. rewrite (sumR_ext m _ (fun c => sumR (min n m) (fun k => along x k * (entry V k c * x c)))) by (intros c _; rewrite <- sumR_scale; apply sumR_ext; intros; ring). rewrite sumR_swap. apply sumR_ext. intros k _. rewrite sumR_scale. reflexivity. }
  assert (C : 0 <= sumR m (fun c => (x c - p c) * (x c - p c))) by (apply sumR_nonneg; intros; apply Rle_0_sqr).
  rewrite (sumR_ext m _ (fun c => x c * x c + ((-2) * (x c * p c) + p c * p c))) in C by (intros; ring). rewrite !sumR_plus, sumR_scale, A, B in C. unfold size2. lra.
Qed.
Lemma complete x : (m <= n)%nat -> sumR m (fun k => along x k * along x k) = size2 x.
Proof.
  intro Hm. unfold size2. rewrite <- (parseval m m (fun c k => entry V k c) x x).
  - apply sumR_ext. intros k _. unfold along. f_equal; apply sumR_ext; intros; ring.
  - intros i j Hi Hj. apply (svd_square _ _ _ _ _ H Hm); assumption.
Qed.
(** a vector orthogonal to the first [j] singular vectors is not stretched by more than the next singular value *)
Lemma stretch x j : (j < min n m)%nat -> (forall k, (k < j)%nat -> along x k = 0) ->
  sumR n (fun r => sumR m (fun c => entry M r c * x c) * sumR m (fun c => entry M r c * x c)) <= singular sigma j * singular sigma j * size2 x.
Proof.
  intros Hj Hk. rewrite image_norm. apply Rle_trans with (sumR (min n m) (fun k => singular sigma j * singular sigma j * (along x k * along x k))).
  - apply sumR_le. intros k Hkm. destruct (Nat.lt_ge_cases k j) as [L|L]; [rewrite (Hk k L); lra|]. destruct (svd_order _ _ _ _ _ H j k ltac:(lia)) as [S1 S2]. apply Rmult_le_compat_r; [apply Rle_0_sqr|]. apply Rmult_le_compat; assumption.
  - rewrite sumR_scale. apply Rmult_le_compat_l; [apply Rle_0_sqr|apply bessel].
Qed.
(** all vectors are stretched by at least the last singular value, unless there are fewer rows than columns *)
Lemma shrink x : (m <= n)%nat -> (0 < m)%nat -> singular sigma (m - 1) * singular sigma (m - 1) * size2 x <= sumR n (fun r => sumR m (fun c => entry M r c * x c) * sumR m (fun c => entry M r c * x c)).
Proof.
  intros Hm H0. rewrite image_norm, <- (complete x Hm), <- sumR_scale. rewrite Nat.min_r by exact Hm. apply sumR_le. intros k Hk. destruct (svd_order _ _ _ _ _ H k (m - 1) ltac:(lia)) as [S1 S2]. apply Rmult_le_compat_r; [apply Rle_0_sqr|]. apply Rmult_le_compat; assumption.
Qed.
(** the squared singular values sum up to the squared entries *)
Lemma total : sumR (min n m) (fun k => singular sigma k * singular sigma k) = sumR n (fun r => sumR m (fun c => entry M r c * entry M r c)).
Proof.
  destruct (svd_product _ _ _ _ _ H) as (U & HU & HM). rewrite sumR_swap.
  rewrite (sumR_ext m _ (fun c => sumR (min n m) (fun k => singular sigma k * singular sigma k * (entry V k c * entry V k c)))).
  - rewrite sumR_swap. apply sumR_ext. intros k Hk. rewrite sumR_scale, (svd_orthonormal _ _ _ _ _ H k k Hk Hk). unfold delta. rewrite Nat.eqb_refl. ring.
  - intros c Hc. rewrite (sumR_ext n _ (fun r => sumR (min n m) (fun k => singular sigma k * entry V k c * U k r) * sumR (min n m) (fun k => singular sigma k * entry V k c * U k r))).
    + rewrite (parseval n (min n m) U) by exact HU. apply sumR_ext. intros; ring.
    + intros r Hr. rewrite HM by assumption. f_equal; apply sumR_ext; intros; ring.
Qed.
End Consequences.
