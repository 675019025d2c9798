(** * Positive semidefinite kernels. *)
From Coq Require Import Reals List Arith Bool Lia Lra.
Import ListNotations.
Local Open Scope R_scope.

(** the sum of [f] over a list *)
Definition SL {A} (f : A -> R) (l : list A) : R := fold_right Rplus 0 (map f l).

Lemma SL_nil {A} (f : A -> R) : SL f [] = 0. Proof. reflexivity. Qed.
Lemma SL_cons {A} (f : A -> R) a l : SL f (a :: l) = f a + SL f l. Proof. reflexivity. Qed.
Lemma SL_app {A} (f : A -> R) l k : SL f (l ++ k) = SL f l + SL f k.
Proof. induction l as [|a l IH]; cbn [app]; [rewrite SL_nil; lra|]. rewrite !SL_cons, IH. lra. Qed.
Lemma SL_map {A B} (f : B -> R) (g : A -> B) l : SL f (map g l) = SL (fun a => f (g a)) l.
Proof. unfold SL. rewrite map_map. reflexivity. Qed.
Lemma SL_ext {A} (f g : A -> R) l : (forall a, In a l -> f a = g a) -> SL f l = SL g l.
Proof. intro H. unfold SL. f_equal. apply map_ext_in. exact H. Qed.
Lemma SL_plus {A} (f g : A -> R) l : SL (fun a => f a + g a) l = SL f l + SL g l.
Proof. induction l as [|a l IH]; [rewrite !SL_nil; lra|]. rewrite !SL_cons, IH. lra. Qed.
Lemma SL_scale {A} c (f : A -> R) l : SL (fun a => c * f a) l = c * SL f l.
Proof. induction l as [|a l IH]; [rewrite !SL_nil; lra|]. rewrite !SL_cons, IH. lra. Qed.
Lemma SL_zero {A} (f : A -> R) l : (forall a, In a l -> f a = 0) -> SL f l = 0.
Proof. intro H. induction l as [|a l IH]; [reflexivity|]. rewrite SL_cons, IH, H; simpl; auto; try lra. intros; apply H; simpl; auto. Qed.
Lemma SL_swap {A B} (f : A -> B -> R) l k : SL (fun a => SL (fun b => f a b) k) l = SL (fun b => SL (fun a => f a b) l) k.
Proof. induction l as [|a l IH]; [rewrite SL_nil; symmetry; apply SL_zero; reflexivity|]. rewrite SL_cons, IH, <- SL_plus. reflexivity. Qed.

Section KERNEL.
  Context {A : Type}.

  (** the bilinear form of a kernel on weighted sets of points *)
  Definition bil (K : A -> A -> R) (L M : list (R * A)) : R := SL (fun a => SL (fun b => fst a * fst b * K (snd a) (snd b)) M) L.

  Definition psd (K : A -> A -> R) : Prop := forall L, 0 <= bil K L L.

  Definition scaled (s : R) (L : list (R * A)) : list (R * A) := map (fun a => (s * fst a, snd a)) L.

  Lemma bil_app_l K L L' M : bil K (L ++ L') M = bil K L M + bil K L' M.
  Proof. unfold bil. apply SL_app. Qed.
  Lemma bil_app_r K L M M' : bil K L (M ++ M') = bil K L M + bil K L M'.
  Proof. unfold bil. rewrite <- SL_plus. apply SL_ext. intros a _. apply SL_app. Qed.
  Lemma bil_scale_l K s L M : bil K (scaled s L) M = s * bil K L M.
  Proof. unfold bil, scaled. rewrite SL_map, <- SL_scale. apply SL_ext. intros a _. cbn [fst snd]. rewrite <- SL_scale. apply SL_ext. intros b _. ring. Qed.
  Lemma bil_scale_r K s L M : bil K L (scaled s M) = s * bil K L M.
  Proof. unfold bil, scaled. rewrite <- SL_scale. apply SL_ext. intros a _. rewrite SL_map, <- SL_scale. apply SL_ext. intros b _. cbn [fst snd]. ring. Qed.
  Lemma bil_sym K L M : (forall a b, K a b = K b a) -> bil K L M = bil K M L.
  Proof. intro H. unfold bil. rewrite SL_swap. apply SL_ext. intros a _. apply SL_ext. intros b _. rewrite H. ring. Qed.
  Lemma bil_ext K K' L M : (forall a b, K a b = K' a b) -> bil K L M = bil K' L M.
  Proof. intro H. unfold bil. apply SL_ext. intros a _. apply SL_ext. intros b _. rewrite H. reflexivity. Qed.

  Lemma psd_ext K K' : (forall a b, K a b = K' a b) -> psd K -> psd K'.
  Proof. intros E H L. rewrite <- (bil_ext K K' L L E). apply H. Qed.
  Lemma psd_rank1 f : psd (fun a b => f a * f b).
  Proof.
    intro L. unfold bil. rewrite (SL_ext _ (fun a => fst a * f (snd a) * SL (fun b => fst b * f (snd b)) L)).
    - rewrite (SL_ext _ (fun a => SL (fun b => fst b * f (snd b)) L * (fst a * f (snd a)))) by (intros; ring). rewrite SL_scale. apply Rle_0_sqr.
    - intros a _. rewrite <- SL_scale. apply SL_ext. intros b _. ring.
  Qed.
  Lemma psd_zero : psd (fun _ _ => 0).
  Proof. apply (psd_ext (fun a b => (fun _ => 0) a * (fun _ => 0) b)); [intros; ring|apply psd_rank1]. Qed.
  Lemma bil_plus K K' L M : bil (fun a b => K a b + K' a b) L M = bil K L M + bil K' L M.
  Proof. unfold bil. rewrite <- SL_plus. apply SL_ext. intros a _. rewrite <- SL_plus. apply SL_ext. intros b _. ring. Qed.
  Lemma bil_scale c K L M : bil (fun a b => c * K a b) L M = c * bil K L M.
  Proof. unfold bil. rewrite <- SL_scale. apply SL_ext. intros a _. rewrite <- SL_scale. apply SL_ext. intros b _. ring. Qed.
  Lemma psd_plus K K' : psd K -> psd K' -> psd (fun a b => K a b + K' a b).
  Proof. intros H H' L. rewrite bil_plus. specialize (H L). specialize (H' L). lra. Qed.
  Lemma psd_scale c K : 0 <= c -> psd K -> psd (fun a b => c * K a b).
  Proof. intros Hc H L. rewrite bil_scale. apply Rmult_le_pos; [exact Hc|apply H]. Qed.
  Lemma psd_sum (K : nat -> A -> A -> R) n : (forall i, (i <= n)%nat -> psd (K i)) -> psd (fun a b => sum_f_R0 (fun i => K i a b) n).
  Proof.
    induction n as [|n IH]; intro H; [apply (H 0%nat); lia|]. apply (psd_plus (fun a b => sum_f_R0 (fun i => K i a b) n) (K (S n))); [apply IH; intros; apply H; lia|apply H; lia].
  Qed.
  Lemma psd_reweight f K : psd K -> psd (fun a b => f a * f b * K a b).
  Proof.
    intros H L. specialize (H (map (fun a => (fst a * f (snd a), snd a)) L)). unfold bil in *. rewrite SL_map in H.
    rewrite (SL_ext _ (fun a => SL (fun b => fst (fst a * f (snd a), snd a) * fst b * K (snd (fst a * f (snd a), snd a)) (snd b)) (map (fun a => (fst a * f (snd a), snd a)) L))); [exact H|].
    intros a _. rewrite SL_map. apply SL_ext. intros b _. cbn [fst snd]. ring.
  Qed.

  Lemma cv_const c : Un_cv (fun _ => c) c.
  Proof. intros e He. exists 0%nat. intros n _. unfold R_dist. rewrite Rminus_diag_eq, Rabs_R0 by reflexivity. exact He. Qed.
  Lemma cv_SL {B} (f : nat -> B -> R) (g : B -> R) l : (forall b, In b l -> Un_cv (fun n => f n b) (g b)) -> Un_cv (fun n => SL (f n) l) (SL g l).
  Proof.
    induction l as [|b l IH]; intro H; [exact (cv_const 0)|]. apply (CV_plus (fun n => f n b) (fun n => SL (f n) l)); [apply H; simpl; auto|apply IH; intros; apply H; simpl; auto].
  Qed.
  Lemma psd_limit (Kn : nat -> A -> A -> R) K : (forall n, psd (Kn n)) -> (forall a b, Un_cv (fun n => Kn n a b) (K a b)) -> psd K.
  Proof.
    intros H C L. apply (@Rle_cv_lim (fun _ => 0) (fun n => bil (Kn n) L L)); [intro n; apply H|apply cv_const|]. unfold bil.
    apply (cv_SL (fun n a => SL (fun b => fst a * fst b * Kn n (snd a) (snd b)) L)). intros a _. apply (cv_SL (fun n b => fst a * fst b * Kn n (snd a) (snd b))). intros b _. apply CV_mult; [apply cv_const|apply C].
  Qed.

  Lemma cauchy_schwarz K L M : (forall a b, K a b = K b a) -> psd K -> bil K L M * bil K L M <= bil K L L * bil K M M.
  Proof.
    intros HS HP. assert (Q : forall s, 0 <= bil K L L + 2 * s * bil K L M + s * s * bil K M M).
    { intro s. pose proof (HP (L ++ scaled s M)) as P. rewrite bil_app_l, !bil_app_r, !bil_scale_l, !bil_scale_r, (bil_sym K M L HS) in P. lra. }
    set (a := bil K L L) in *. set (b := bil K L M) in *. set (c := bil K M M) in *. pose proof (HP M) as Hc. fold c in Hc.
    destruct (Req_EM_T c 0) as [->|Hne].
    - assert (b = 0). { destruct (Req_EM_T b 0) as [E|N]; [exact E|exfalso]. specialize (Q (- (a + 1) / (2 * b))). assert (E : a + 2 * (- (a + 1) / (2 * b)) * b + - (a + 1) / (2 * b) * (- (a + 1) / (2 * b)) * 0 = -1) by (field; exact N). lra. }
      rewrite H. lra.
    - assert (Pc : 0 < c) by lra. specialize (Q (- b / c)). assert (E : a + 2 * (- b / c) * b + - b / c * (- b / c) * c = (a * c - b * b) / c) by (field; lra). rewrite E in Q.
      assert (0 <= a * c - b * b); [|lra]. replace (a * c - b * b) with ((a * c - b * b) / c * c) by (field; lra). apply Rmult_le_pos; lra.
  Qed.

  Lemma triangle K L M : (forall a b, K a b = K b a) -> psd K -> sqrt (bil K (L ++ M) (L ++ M)) <= sqrt (bil K L L) + sqrt (bil K M M).
  Proof.
    intros HS HP. pose proof (HP L) as Pl. pose proof (HP M) as Pm. pose proof (HP (L ++ M)) as Plm. pose proof (cauchy_schwarz K L M HS HP) as CS.
    pose proof (sqrt_pos (bil K L L)) as S1. pose proof (sqrt_pos (bil K M M)) as S2. pose proof (sqrt_sqrt _ Pl) as Q1. pose proof (sqrt_sqrt _ Pm) as Q2.
    assert (B : bil K L M <= sqrt (bil K L L) * sqrt (bil K M M)).
    { rewrite <- sqrt_mult by assumption. destruct (Rle_lt_dec (bil K L M) 0) as [N|P]; [pose proof (sqrt_pos (bil K L L * bil K M M)); lra|]. rewrite <- (sqrt_square (bil K L M)) by lra. apply sqrt_le_1_alt. exact CS. }
    rewrite <- (sqrt_square (sqrt (bil K L L) + sqrt (bil K M M))) by lra. apply sqrt_le_1_alt. rewrite bil_app_l, !bil_app_r, (bil_sym K M L HS). lra.
  Qed.
End KERNEL.

(** ** the Gaussian kernel in the plane *)
Definition dot (a b : R * R) : R := fst a * fst b + snd a * snd b.
Definition sq (a b : R * R) : R := (fst a - fst b) * (fst a - fst b) + (snd a - snd b) * (snd a - snd b).

Lemma binomial_nonneg n i : 0 <= C n i.
Proof. unfold C. apply Rmult_le_pos; [apply pos_INR|]. left. apply Rinv_0_lt_compat. apply Rmult_lt_0_compat; apply INR_fact_lt_0. Qed.

Lemma psd_dot_pow n : psd (fun a b => dot a b ^ n).
Proof.
  apply (psd_ext (fun a b => sum_f_R0 (fun i => C n i * ((fun x => fst x ^ i * snd x ^ (n - i)) a * (fun x => fst x ^ i * snd x ^ (n - i)) b)) n)).
  - intros a b. unfold dot. rewrite binomial. apply sum_eq. intros i Hi. rewrite !Rpow_mult_distr. ring.
  - apply (psd_sum (fun i a b => C n i * (fst a ^ i * snd a ^ (n - i) * (fst b ^ i * snd b ^ (n - i))))). intros i Hi. apply psd_scale; [apply binomial_nonneg|apply (psd_rank1 (fun x => fst x ^ i * snd x ^ (n - i)))].
Qed.

Lemma psd_exp_dot t : 0 <= t -> psd (fun a b => exp (t * dot a b)).
Proof.
  intro Ht. apply (psd_limit (fun n a b => E1 (t * dot a b) n)).
  - intro n. unfold E1. apply (psd_sum (fun k a b => / INR (fact k) * (t * dot a b) ^ k)). intros i _. apply (psd_ext (fun a b => (/ INR (fact i) * t ^ i) * dot a b ^ i)); [intros; rewrite Rpow_mult_distr; ring|]. apply psd_scale; [|apply psd_dot_pow]. apply Rmult_le_pos; [left; apply Rinv_0_lt_compat; apply INR_fact_lt_0|apply pow_le; exact Ht].
  - intros a b. apply E1_cvg.
Qed.

Lemma psd_gaussian c : 0 < c -> psd (fun a b => exp (- sq a b / c)).
Proof.
  intro Hc. apply (psd_ext (fun a b => exp (- dot a a / c) * exp (- dot b b / c) * exp (2 / c * dot a b))).
  - intros a b. rewrite <- !exp_plus. f_equal. unfold dot, sq. field. lra.
  - apply (psd_reweight (fun a => exp (- dot a a / c)) (fun a b => exp (2 / c * dot a b))). apply psd_exp_dot. unfold Rdiv. apply Rmult_le_pos; [lra|left; apply Rinv_0_lt_compat; exact Hc].
Qed.
