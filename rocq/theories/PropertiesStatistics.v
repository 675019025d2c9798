(** * C76: sample statistics *)

From Coq Require Import List Arith Bool ZArith QArith Lia Lqa Setoid Morphisms.
From Verif Require Import Base SpecStatistics Statistics.
Import ListNotations.
Local Open Scope Q_scope.

(** ** sums *)
Lemma total_cons f x l : total f (x :: l) = f x + total f l. Proof. reflexivity. Qed.
Lemma total_ext f g l : (forall x, In x l -> f x == g x) -> total f l == total g l.
Proof.
  induction l as [|x l IH]; intro H; [reflexivity|]. rewrite !total_cons, IH by (intros; apply H; right; auto).
  rewrite (H x (or_introl eq_refl)). reflexivity.
Qed.
Lemma total_plus f g l : total (fun x => f x + g x) l == total f l + total g l.
Proof. induction l as [|x l IH]; [reflexivity|]. rewrite !total_cons, IH. ring. Qed.
Lemma total_scale c f l : total (fun x => c * f x) l == c * total f l.
Proof. induction l as [|x l IH]; [unfold total; cbn [fold_right]; ring|]. rewrite !total_cons, IH. ring. Qed.
Lemma size_cons x l : size (x :: l) == 1 + size l.
Proof. unfold size. cbn [length]. rewrite Nat2Z.inj_succ. unfold Z.succ. rewrite inject_Z_plus. cbn [inject_Z]. ring. Qed.
Lemma total_const c l : total (fun _ => c) l == size l * c.
Proof. induction l as [|x l IH]; [unfold total, size; cbn; ring|]. rewrite total_cons, IH, size_cons. ring. Qed.
Lemma total_map f g l : total f (map g l) = total (fun x => f (g x)) l.
Proof. induction l as [|x l IH]; [reflexivity|]. cbn [map]. rewrite !total_cons, IH. reflexivity. Qed.
Lemma total_nonneg f l : (forall x, In x l -> 0 <= f x) -> 0 <= total f l.
Proof.
  induction l as [|x l IH]; intro H; [apply Qle_refl|]. rewrite total_cons. specialize (H x (or_introl eq_refl)) as H1.
  assert (0 <= total f l) by (apply IH; intros; apply H; right; auto). lra.
Qed.
Lemma total_zero f l : (forall x, In x l -> 0 <= f x) -> total f l == 0 -> forall x, In x l -> f x == 0.
Proof.
  induction l as [|y l IH]; intros H E x; [intros []|]. rewrite total_cons in E.
  assert (H1 := H y (or_introl eq_refl)). assert (H2 : 0 <= total f l) by (apply total_nonneg; intros; apply H; right; auto).
  intros [<-|Hx]; [lra|]. apply IH; auto; [intros; apply H; right; auto|lra].
Qed.

Lemma fold_total f l : forall s, fold_left (fun s x => s + f x) l s == s + total f l.
Proof. induction l as [|x l IH]; intro s; [unfold total; cbn; ring|]. cbn [fold_left]. rewrite IH, total_cons. ring. Qed.
Lemma fold_pair f g l : forall s t, exists s' t',
  fold_left (fun (p : Q * Q) x => (fst p + f x, snd p + g x)) l (s, t) = (s', t') /\ s' == s + total f l /\ t' == t + total g l.
Proof.
  induction l as [|x l IH]; intros s t; cbn [fold_left].
  - exists s, t. unfold total; cbn [fold_right]. repeat split; ring.
  - cbn [fst snd]. destruct (IH (s + f x) (t + g x)) as (s' & t' & -> & E1 & E2). exists s', t'. rewrite !total_cons.
    split; [reflexivity|]. split; [rewrite E1|rewrite E2]; ring.
Qed.

Lemma size_pos l : l <> [] -> 0 < size l.
Proof. intro H. unfold size. destruct l as [|x l]; [contradiction|]. unfold Qlt. cbn [length inject_Z Qnum Qden]. lia. Qed.
Lemma size_minus (l : list Q) : (2 <= length l)%nat -> 0 < inject_Z (Z.of_nat (length l) - 1).
Proof. intro H. unfold Qlt. cbn [inject_Z Qnum Qden]. lia. Qed.
Lemma size_eq (l : list Q) : inject_Z (Z.of_nat (length l) - 1) == size l - 1.
Proof. unfold size, Z.sub. rewrite inject_Z_plus. reflexivity. Qed.

(** ** the mean *)
Theorem C76_mean : forall l,
  (sampleMean l = None <-> l = []) /\
  forall m, sampleMean l = Some m -> is_mean l m /\ total (fun x => x - m) l == 0 /\ (forall m', is_mean l m' -> m' == m).
Proof.
  intro l. split; [destruct l; split; easy|]. intros m Hm.
  assert (N : l <> []) by (intros ->; easy). assert (P := size_pos l N).
  assert (E : size l * m == total (fun x => x) l).
  { destruct l as [|x l]; [contradiction|]. unfold sampleMean in Hm. injection Hm as <-. change (distance_of (x :: l)) with (size (x :: l)).
    rewrite (fold_total (fun x => x) (x :: l) 0). field. intro H. rewrite H in P. apply (Qlt_irrefl 0 P). }
  refine (conj E (conj _ _)).
  - rewrite (total_ext _ (fun x => x + (- m))) by (intros; ring). rewrite total_plus, total_const, <- E. ring.
  - intros m' Hm'. unfold is_mean in Hm'. apply (Qmult_inj_l _ _ (size l)); [intro H; rewrite H in P; apply (Qlt_irrefl 0 P)|].
    rewrite Hm', E. reflexivity.
Qed.

Lemma mean_exists l : l <> [] -> exists m, sampleMean l = Some m.
Proof. destruct l; [easy|]. eexists. reflexivity. Qed.

(** the mean lies between the smallest and the largest value *)
Theorem C76_mean_bounds : forall l m lo hi, sampleMean l = Some m -> (forall x, In x l -> lo <= x <= hi) -> lo <= m <= hi.
Proof.
  intros l m lo hi Hm H. destruct (proj2 (C76_mean l) m Hm) as (E & _ & _). unfold is_mean in E.
  assert (N : l <> []) by (intros ->; easy). assert (P := size_pos l N).
  assert (A : 0 <= total (fun x => x + - lo) l) by (apply total_nonneg; intros x Hx; specialize (H x Hx); lra).
  assert (B : 0 <= total (fun x => hi + - x) l) by (apply total_nonneg; intros x Hx; specialize (H x Hx); lra).
  rewrite total_plus, total_const, <- E in A.
  rewrite (total_ext _ (fun x => hi + (-1) * x)) in B by (intros; ring). rewrite total_plus, total_const, total_scale, <- E in B.
  split.
  - apply Qmult_le_l with (z := size l); [exact P|]. lra.
  - apply Qmult_le_l with (z := size l); [exact P|]. lra.
Qed.

(** ** the variance *)
Lemma variance_total l v : sampleVariance l = Some v -> (2 <= length l)%nat /\ exists m, sampleMean l = Some m /\
  v * (size l - 1) == total (fun x => (x - m) * (x - m)) l.
Proof.
  unfold sampleVariance. destruct (Nat.eqb_spec (length l) 0) as [|N0]; [easy|]. destruct (Nat.eqb_spec (length l) 1) as [|N1]; [easy|].
  assert (HL : (2 <= length l)%nat) by lia. assert (HP := size_minus l HL). cbn [orb].
  destruct (mean_exists l) as (m & Hm); [intros ->; cbn in HL; lia|]. rewrite Hm. intro E. injection E as <-. split; [exact HL|].
  exists m. split; [reflexivity|]. rewrite <- (size_eq l).
  assert (F := fold_total (fun d => (d - m) * (d - m)) l 0). cbv beta in F. rewrite F.
  field. intro H. rewrite H in HP. apply (Qlt_irrefl 0 HP).
Qed.

Lemma variance_exists l : (2 <= length l)%nat -> exists v, sampleVariance l = Some v.
Proof. destruct l as [|x [|y l]]; cbn [length]; try lia. intros _. unfold sampleVariance. cbn [length Nat.eqb orb]. eexists. reflexivity. Qed.

Lemma square_nonneg x : 0 <= x * x. Proof. nra. Qed.
Lemma square_zero x : x * x == 0 -> x == 0. Proof. intro H. nra. Qed.

(** NaN just for fewer than two values; nonnegative; 0 just for equal values;
    equal to the mean of the squares minus the square of the mean, up to the factor *)
Theorem C76_variance : forall l,
  (sampleVariance l = None <-> (length l < 2)%nat) /\
  forall v, sampleVariance l = Some v ->
    0 <= v /\ (v == 0 <-> constant l) /\
    forall m, sampleMean l = Some m -> v * (size l - 1) == total (fun x => (x - m) * (x - m)) l
                                       /\ v * (size l - 1) == total (fun x => x * x) l - size l * (m * m).
Proof.
  intro l. split.
  - split; [intro H|]. { destruct (le_lt_dec 2 (length l)) as [L|L]; [|exact L]. destruct (variance_exists l L) as (v & E). congruence. }
    destruct l as [|x [|y l]]; cbn [length]; try reflexivity. lia.
  - intros v Hv. destruct (variance_total l v Hv) as (HL & m & Hm & E).
    assert (P := size_minus l HL). rewrite size_eq in P.
    assert (T : 0 <= total (fun x => (x - m) * (x - m)) l) by (apply total_nonneg; intros; apply square_nonneg).
    refine (conj _ (conj _ _)).
    + apply Qmult_le_r with (z := size l - 1); [exact P|]. rewrite E. rewrite Qmult_0_l. exact T.
    + split; intro H.
      * assert (Z : forall x, In x l -> (x - m) * (x - m) == 0).
        { apply total_zero; [intros; apply square_nonneg|]. rewrite <- E, H. ring. }
        intros x y Hx Hy. apply Z in Hx, Hy. apply square_zero in Hx, Hy. lra.
      * assert (HM : forall x, In x l -> x == m).
        { intros x Hx. destruct (C76_mean_bounds l m x x Hm) as [A B]; [|apply Qle_antisym; auto].
          intros y Hy. specialize (H x y Hx Hy). lra. }
        apply (Qmult_inj_r _ _ (size l - 1)); [lra|]. rewrite E, Qmult_0_l.
        rewrite (total_ext _ (fun _ => 0)); [rewrite total_const; ring|]. intros x Hx. rewrite (HM x Hx). ring.
    + intros m' Hm'. rewrite Hm in Hm'. injection Hm' as <-. split; [exact E|]. rewrite E.
      destruct (proj2 (C76_mean l) m Hm) as (Em & _ & _). unfold is_mean in Em.
      rewrite (total_ext _ (fun x => x * x + ((-2 * m) * x + m * m))) by (intros; ring).
      rewrite total_plus, total_plus, total_scale, total_const, <- Em. ring.
Qed.

(** moving and scaling all values *)
Theorem C76_affine : forall l a b,
  (forall m, sampleMean l = Some m -> exists m', sampleMean (map (fun x => a * x + b) l) = Some m' /\ m' == a * m + b) /\
  (forall v, sampleVariance l = Some v -> exists v', sampleVariance (map (fun x => a * x + b) l) = Some v' /\ v' == a * a * v).
Proof.
  intros l a b.
  assert (SZ : size (map (fun x => a * x + b) l) = size l) by (unfold size; rewrite map_length; reflexivity).
  assert (M : forall m, sampleMean l = Some m -> exists m', sampleMean (map (fun x => a * x + b) l) = Some m' /\ m' == a * m + b).
  { intros m Hm. destruct (mean_exists (map (fun x => a * x + b) l)) as (m' & Hm'). { destruct l; easy. }
    exists m'. split; [exact Hm'|]. symmetry. apply (proj2 (C76_mean _) m' Hm'). unfold is_mean. rewrite SZ, total_map.
    destruct (proj2 (C76_mean l) m Hm) as (Em & _ & _). unfold is_mean in Em. rewrite total_plus, total_scale, total_const, <- Em. ring. }
  split; [exact M|]. intros v Hv. destruct (variance_total l v Hv) as (HL & m & Hm & E).
  destruct (variance_exists (map (fun x => a * x + b) l)) as (v' & Hv'); [rewrite map_length; exact HL|].
  exists v'. split; [exact Hv'|]. destruct (variance_total _ v' Hv') as (_ & m' & Hm' & E').
  destruct (M m Hm) as (m'' & Hm'' & Eq). rewrite Hm' in Hm''. injection Hm'' as <-.
  assert (P := size_minus l HL). rewrite size_eq in P. rewrite SZ, total_map in E'.
  apply (Qmult_inj_r _ _ (size l - 1)); [lra|]. rewrite E'.
  rewrite (total_ext _ (fun x => (a * a) * ((x - m) * (x - m)))) by (intros; rewrite Eq; ring). rewrite total_scale, <- E. ring.
Qed.

(** ** the covariance *)
Lemma total2_cons f x l y k : total2 f (x :: l) (y :: k) = f x y + total2 f l k. Proof. reflexivity. Qed.
Lemma covariance_total m1 m2 : forall l1 l2 s, covariance_sum m1 m2 l1 l2 s == s + total2 (fun x y => (x - m1) * (y - m2)) l1 l2.
Proof.
  induction l1 as [|x l1 IH]; intros [|y l2] s; try (unfold total2; cbn; ring). cbn [covariance_sum]. rewrite IH, total2_cons. ring.
Qed.
Lemma total2_swap f g : (forall x y, f x y == g y x) -> forall l k, total2 f l k == total2 g k l.
Proof.
  intro H. induction l as [|x l IH]; intros [|y k]; try reflexivity. rewrite !total2_cons, IH, H. reflexivity.
Qed.
Lemma total2_diag f l : total2 f l l = total (fun x => f x x) l.
Proof. induction l as [|x l IH]; [reflexivity|]. rewrite total2_cons, IH. reflexivity. Qed.

Lemma covariance_value l1 l2 : length l1 = length l2 -> (2 <= length l1)%nat -> exists c m1 m2,
  sampleCovariance l1 l2 = Ok (Some c) /\ sampleMean l1 = Some m1 /\ sampleMean l2 = Some m2 /\
  c * (size l1 - 1) == total2 (fun x y => (x - m1) * (y - m2)) l1 l2.
Proof.
  intros E L. assert (P := size_minus l1 L). unfold sampleCovariance. rewrite <- E.
  destruct (Nat.eqb_spec (length l1) 0) as [H0|_]; [lia|]. destruct (Nat.eqb_spec (length l1) 1) as [H1|_]; [lia|].
  rewrite Nat.eqb_refl. cbn [orb negb].
  destruct (mean_exists l1) as (m1 & Hm1); [intros ->; cbn in L; lia|].
  destruct (mean_exists l2) as (m2 & Hm2); [intros ->; cbn in E; lia|]. rewrite Hm1, Hm2.
  eexists _, m1, m2. split; [reflexivity|]. split; [reflexivity|]. split; [reflexivity|].
  rewrite covariance_total, <- size_eq. field. intro H. rewrite H in P. apply (Qlt_irrefl 0 P).
Qed.

(** ranges of different sizes are rejected, but only if both have at least two
    elements: otherwise the result is NaN *)
Theorem C76_covariance_sizes : forall l1 l2,
  ((length l1 < 2)%nat \/ (length l2 < 2)%nat -> sampleCovariance l1 l2 = Ok None) /\
  ((2 <= length l1)%nat -> (2 <= length l2)%nat -> length l1 <> length l2 -> sampleCovariance l1 l2 = Throw RuntimeError) /\
  ((2 <= length l1)%nat -> length l1 = length l2 -> exists c, sampleCovariance l1 l2 = Ok (Some c)).
Proof.
  intros l1 l2. refine (conj _ (conj _ _)).
  - intro H. unfold sampleCovariance. destruct (Nat.eqb_spec (length l1) 0), (Nat.eqb_spec (length l2) 0), (Nat.eqb_spec (length l1) 1), (Nat.eqb_spec (length l2) 1); try reflexivity. lia.
  - intros A B N. unfold sampleCovariance. destruct (Nat.eqb_spec (length l1) 0), (Nat.eqb_spec (length l2) 0), (Nat.eqb_spec (length l1) 1), (Nat.eqb_spec (length l2) 1); try lia.
    destruct (Nat.eqb_spec (length l1) (length l2)); [contradiction|]. reflexivity.
  - intros A E. destruct (covariance_value l1 l2 E A) as (c & _ & _ & H & _). eauto.
Qed.

Lemma cauchy_zip : forall (f g : Q -> Q) l k,
  total2 (fun x y => f x * g y) l k * total2 (fun x y => f x * g y) l k
  <= total2 (fun x _ => f x * f x) l k * total2 (fun _ y => g y * g y) l k.
Proof.
  intros f g l k.
  set (A := total2 (fun x _ => f x * f x) l k). set (B := total2 (fun _ y => g y * g y) l k). set (S := total2 (fun x y => f x * g y) l k).
  assert (G : forall t u, 0 <= t * t * A + (2 * t * u) * S + u * u * B).
  { intros t u. assert (E : t * t * A + (2 * t * u) * S + u * u * B == total2 (fun x y => (t * f x + u * g y) * (t * f x + u * g y)) l k).
    { unfold A, B, S. clear. revert k. induction l as [|x l IH]; intros [|y k]; try (unfold total2; cbn; ring).
      rewrite !total2_cons, <- IH. ring. }
    rewrite E. clear. revert k. induction l as [|x l IH]; intros [|y k]; try apply Qle_refl. rewrite total2_cons.
    assert (0 <= (t * f x + u * g y) * (t * f x + u * g y)) by apply square_nonneg. specialize (IH k). lra. }
  assert (NB : 0 <= B) by (specialize (G 0 1); lra).
  destruct (Qlt_le_dec 0 B) as [PB|ZB].
  - specialize (G B (- S)). assert (H : B * (S * S) <= B * (A * B)) by lra. apply Qmult_le_l in H; auto.
  - assert (EB : B == 0) by lra. assert (GA := G 1 (- (A + 1) * S)). assert (NA : 0 <= A) by (specialize (G 1 0); lra).
    assert (H : 0 <= A - 2 * (A + 1) * (S * S)) by (rewrite EB in GA; lra).
    specialize (G 1). rewrite EB. destruct (Qeq_dec S 0) as [ES|NS]; [rewrite ES; lra|]. exfalso.
    assert (PS : 0 < S * S). { destruct (Qlt_le_dec 0 (S * S)) as [X|X]; [exact X|]. exfalso. apply NS, square_zero. assert (0 <= S * S) by apply square_nonneg. lra. }
    specialize (G (- ((A + 1) / (S * S)) * S)). rewrite EB in G.
    assert (F : 1 * 1 * A + 2 * 1 * (- ((A + 1) / (S * S)) * S) * S == A - 2 * (A + 1)) by (field; intro H0; rewrite H0 in NS; apply NS; reflexivity).
    lra.
Qed.

Lemma total2_left f l k : length l = length k -> total2 (fun x _ => f x) l k == total f l.
Proof. revert k. induction l as [|x l IH]; intros [|y k]; cbn [length]; try easy. intro H. injection H as H. rewrite total2_cons, total_cons, IH by exact H. reflexivity. Qed.

(** symmetric, equal to the variance for equal ranges, and bounded by Cauchy-Schwarz *)
Theorem C76_covariance : forall l1 l2 c, sampleCovariance l1 l2 = Ok (Some c) ->
  (exists c', sampleCovariance l2 l1 = Ok (Some c') /\ c' == c) /\
  (exists v, sampleCovariance l1 l1 = Ok (Some v) /\ exists v', sampleVariance l1 = Some v' /\ v == v') /\
  (forall v1 v2, sampleVariance l1 = Some v1 -> sampleVariance l2 = Some v2 -> c * c <= v1 * v2) /\
  (forall m1 m2, sampleMean l1 = Some m1 -> sampleMean l2 = Some m2 ->
     c * (size l1 - 1) == total2 (fun x y => (x - m1) * (y - m2)) l1 l2).
Proof.
  intros l1 l2 c Hc. destruct (C76_covariance_sizes l1 l2) as (S1 & S2 & _).
  assert (L1 : (2 <= length l1)%nat). { destruct (le_lt_dec 2 (length l1)); auto. rewrite S1 in Hc by auto. easy. }
  assert (L2 : (2 <= length l2)%nat). { destruct (le_lt_dec 2 (length l2)); auto. rewrite S1 in Hc by auto. easy. }
  assert (E : length l1 = length l2). { destruct (Nat.eq_dec (length l1) (length l2)); auto. rewrite S2 in Hc by auto. easy. }
  assert (P := size_minus l1 L1). rewrite size_eq in P.
  assert (SZ : size l2 = size l1) by (unfold size; rewrite E; reflexivity).
  destruct (covariance_value l1 l2 E L1) as (c0 & m1 & m2 & H0 & Hm1 & Hm2 & Ec). rewrite Hc in H0. injection H0 as <-.
  refine (conj _ (conj _ (conj _ _))).
  - destruct (covariance_value l2 l1 (eq_sym E) L2) as (c' & n2 & n1 & H' & Hn2 & Hn1 & Ec').
    rewrite Hm1 in Hn1. injection Hn1 as <-. rewrite Hm2 in Hn2. injection Hn2 as <-. exists c'. split; [exact H'|].
    rewrite SZ in Ec'. apply (Qmult_inj_r _ _ (size l1 - 1)); [lra|]. rewrite Ec', Ec. apply total2_swap. intros; ring.
  - destruct (covariance_value l1 l1 eq_refl L1) as (v & n1 & n2 & H' & Hn1 & Hn2 & Ev).
    rewrite Hm1 in Hn1, Hn2. injection Hn1 as <-. injection Hn2 as <-. exists v. split; [exact H'|].
    destruct (variance_exists l1 L1) as (v' & Hv'). exists v'. split; [exact Hv'|].
    destruct (variance_total l1 v' Hv') as (_ & m & Hm & Ev'). rewrite Hm1 in Hm. injection Hm as <-.
    apply (Qmult_inj_r _ _ (size l1 - 1)); [lra|]. rewrite Ev, Ev', total2_diag. reflexivity.
  - intros v1 v2 Hv1 Hv2. destruct (variance_total l1 v1 Hv1) as (_ & m & Hm & E1). rewrite Hm1 in Hm. injection Hm as <-.
    destruct (variance_total l2 v2 Hv2) as (_ & m & Hm & E2). rewrite Hm2 in Hm. injection Hm as <-. rewrite SZ in E2.
    assert (C := cauchy_zip (fun x => x - m1) (fun y => y - m2) l1 l2). cbv beta in C. rewrite <- Ec in C.
    rewrite (total2_left (fun x => (x - m1) * (x - m1)) l1 l2 E), <- E1 in C.
    rewrite (total2_swap (fun _ y => (y - m2) * (y - m2)) (fun y _ => (y - m2) * (y - m2)) (fun x y => Qeq_refl _) l1 l2) in C.
    rewrite (total2_left (fun x => (x - m2) * (x - m2)) l2 l1 (eq_sym E)), <- E2 in C.
    assert (PP : 0 < (size l1 - 1) * (size l1 - 1)) by nra.
    apply Qmult_le_l with (z := (size l1 - 1) * (size l1 - 1)); [exact PP|]. lra.
  - intros n1 n2 Hn1 Hn2. rewrite Hm1 in Hn1. injection Hn1 as <-. rewrite Hm2 in Hn2. injection Hn2 as <-. exact Ec.
Qed.

(** ** skewness and kurtosis *)
Lemma divide_some x y q : divide x y = Some q -> ~ y == 0 /\ q == x / y.
Proof. unfold divide. destruct (Qeq_bool y 0) eqn:E; [easy|]. intro H. injection H as <-. split; [apply Qeq_bool_neq; exact E|reflexivity]. Qed.
Lemma divide_none x y : divide x y = None <-> y == 0.
Proof. unfold divide. destruct (Qeq_bool y 0) eqn:E; [apply Qeq_bool_iff in E; tauto|]. apply Qeq_bool_neq in E. split; [easy|contradiction]. Qed.

(** the central moments *)
Definition moment (k : Z) (l : list Q) (m : Q) : Q := total (fun x => (x - m) ^ k) l / size l.

Theorem C76_kurtosis : forall l,
  (sampleKurtosis l = None <-> constant l) /\
  forall q m, sampleKurtosis l = Some q -> sampleMean l = Some m ->
    q == moment 4 l m / (moment 2 l m * moment 2 l m) - 3 /\ -2 <= q.
Proof.
  intro l. unfold sampleKurtosis. destruct l as [|x0 l0]; [split; [|intros q m H; easy]; split; [intros _ x y []|reflexivity]|].
  set (l := x0 :: l0). destruct (mean_exists l) as (m & Hm); [easy|]. rewrite Hm.
  assert (P : 0 < size l) by (apply size_pos; easy). assert (NZ : ~ size l == 0) by (intro H; rewrite H in P; apply (Qlt_irrefl 0 P)).
  destruct (fold_pair (fun x => (x - m) ^ 4) (fun x => (x - m) ^ 2) l 0 0) as (s & t & Ef & Es & Et). rewrite Ef. cbn [fst snd].
  change (distance_of l) with (size l). rewrite Qplus_0_l in Es, Et.
  assert (M4 : s / size l == moment 4 l m) by (unfold moment; rewrite Es; reflexivity).
  assert (M2 : t / size l == moment 2 l m) by (unfold moment; rewrite Et; reflexivity).
  assert (Et' : t == total (fun x => (x - m) * (x - m)) l) by (rewrite Et; apply total_ext; intros; ring).
  assert (Es' : s == total (fun x => ((x - m) * (x - m)) * ((x - m) * (x - m))) l) by (rewrite Es; apply total_ext; intros; ring).
  split.
  - assert (K : t == 0 <-> constant l).
    { rewrite Et'. split; intro H.
      - assert (Z : forall x, In x l -> (x - m) * (x - m) == 0) by (apply total_zero; [intros; apply square_nonneg|exact H]).
        intros x y Hx Hy. apply Z in Hx, Hy. apply square_zero in Hx, Hy. lra.
      - assert (HM : forall x, In x l -> x == m).
        { intros x Hx. destruct (C76_mean_bounds l m x x Hm) as [A B]; [|apply Qle_antisym; auto].
          intros y Hy. specialize (H x y Hx Hy). lra. }
        rewrite (total_ext _ (fun _ => 0)); [rewrite total_const; ring|]. intros x Hx. rewrite (HM x Hx). ring. }
    rewrite <- K. destruct (divide (s / size l) (t / size l * (t / size l))) as [q|] eqn:D.
    + apply divide_some in D as [D _]. split; [easy|]. intro H. exfalso. apply D. rewrite H. unfold Qdiv. ring.
    + apply divide_none in D. split; [intros _|reflexivity]. apply square_zero in D.
      apply (Qmult_inj_r _ _ (/ size l)); [|unfold Qdiv in D; rewrite D; ring]. intro H.
      apply NZ. rewrite <- (Qinv_involutive (size l)), H. reflexivity.
  - intros q m' Hq Hm'. injection Hm' as <-. destruct (divide (s / size l) (t / size l * (t / size l))) as [d|] eqn:D; [|easy].
    injection Hq as <-. apply divide_some in D as [D1 D2]. split; [rewrite D2, M4, M2; reflexivity|].
    assert (C := cauchy_zip (fun x => (x - m) * (x - m)) (fun _ => 1) l l). cbv beta in C. rewrite !total2_diag in C.
    rewrite (total_ext (fun x => (x - m) * (x - m) * 1) (fun x => (x - m) * (x - m))) in C by (intros; ring).
    rewrite (total_ext (fun _ => 1 * 1) (fun _ => 1)) in C by (intros; ring). rewrite total_const, <- Es', <- Et' in C.
    assert (NT : ~ t == 0) by (intro H; apply D1; rewrite H; unfold Qdiv; ring).
    assert (PT : 0 < t * t). { destruct (Qlt_le_dec 0 (t * t)) as [X|X]; [exact X|]. exfalso. apply NT, square_zero. assert (0 <= t * t) by apply square_nonneg. lra. }
    assert (Ed : d == s * size l / (t * t)) by (rewrite D2; field; split; assumption).
    assert (G : 1 <= d). { rewrite Ed. apply Qle_shift_div_l; [exact PT|]. lra. }
    lra.
Qed.

(** [pow32] is [std::pow( x, 3/2 )], which is 0 at 0 only *)
Theorem C76_skewness : forall pow32 l, (forall x y, x == y -> pow32 x == pow32 y) -> (forall x, 0 <= x -> (pow32 x == 0 <-> x == 0)) ->
  (sampleSkewness pow32 l = None <-> constant l) /\
  forall q m, sampleSkewness pow32 l = Some q -> sampleMean l = Some m -> q * pow32 (moment 2 l m) == moment 3 l m.
Proof.
  intros pow32 l Hx Hp. unfold sampleSkewness. destruct l as [|x0 l0]; [split; [|intros q m H; easy]; split; [intros _ x y []|reflexivity]|].
  set (l := x0 :: l0). destruct (mean_exists l) as (m & Hm); [easy|]. rewrite Hm.
  assert (P : 0 < size l) by (apply size_pos; easy). assert (NZ : ~ size l == 0) by (intro H; rewrite H in P; apply (Qlt_irrefl 0 P)).
  destruct (fold_pair (fun x => (x - m) ^ 3) (fun x => (x - m) * (x - m)) l 0 0) as (s & t & Ef & Es & Et). rewrite Ef. cbn [fst snd].
  change (distance_of l) with (size l). rewrite Qplus_0_l in Es, Et.
  assert (M3 : s / size l == moment 3 l m) by (unfold moment; rewrite Es; reflexivity).
  assert (M2 : t / size l == moment 2 l m).
  { unfold moment. rewrite (total_ext (fun x => (x - m) ^ 2) (fun x => (x - m) * (x - m))) by (intros; ring). rewrite Et. reflexivity. }
  assert (NT : 0 <= t) by (rewrite Et; apply total_nonneg; intros; apply square_nonneg).
  assert (ND : 0 <= t / size l) by (apply Qle_shift_div_l; [exact P|rewrite Qmult_0_l; exact NT]).
  assert (K : t / size l == 0 <-> constant l).
  { assert (K0 : t / size l == 0 <-> t == 0).
    { split; intro H; [|rewrite H; unfold Qdiv; ring]. apply (Qmult_inj_r _ _ (/ size l)); [|unfold Qdiv in H; rewrite H; ring].
      intro H0. apply NZ. rewrite <- (Qinv_involutive (size l)), H0. reflexivity. }
    rewrite K0, Et. split; intro H.
    - assert (Z : forall x, In x l -> (x - m) * (x - m) == 0) by (apply total_zero; [intros; apply square_nonneg|exact H]).
      intros x y Hx0 Hy. apply Z in Hx0, Hy. apply square_zero in Hx0, Hy. lra.
    - assert (HM : forall x, In x l -> x == m).
      { intros x Hx0. destruct (C76_mean_bounds l m x x Hm) as [A B]; [|apply Qle_antisym; auto].
        intros y Hy. specialize (H x y Hx0 Hy). lra. }
      rewrite (total_ext _ (fun _ => 0)); [rewrite total_const; ring|]. intros x Hx0. rewrite (HM x Hx0). ring. }
  split.
  - rewrite divide_none, Hp by exact ND. exact K.
  - intros q m' Hq Hm'. injection Hm' as <-. apply divide_some in Hq as [D1 D2].
    rewrite <- (Hx _ _ M2), D2, M3. field. exact D1.
Qed.

Theorem C76_covariance_sizes_refuted : exists l1 l2, length l1 <> length l2 /\ sampleCovariance l1 l2 = Ok None.
Proof. exists [1], [1; 2]. split; [easy|reflexivity]. Qed.

Definition st_l : list Q := [2; 4; 4; 4; 5; 5; 7; 9].
Example C76_example :
  option_map Qred (sampleMean st_l) = Some 5 /\ option_map Qred (sampleVariance st_l) = Some (32 # 7) /\
  option_map Qred (sampleKurtosis st_l) = Some (-7 # 32) /\
  (exists c, sampleCovariance st_l [1; 2; 3; 4; 5; 6; 7; 8] = Ok (Some c) /\ Qred c = 34 # 7) /\
  sampleCovariance st_l [1; 2; 3] = Throw RuntimeError /\
  sampleMean [] = None /\ sampleVariance [3] = None /\ sampleKurtosis [2; 2] = None.
Proof. do 3 (split; [vm_compute; reflexivity|]). split; [eexists; split; [reflexivity|vm_compute; reflexivity]|]. vm_compute. repeat split; reflexivity. Qed.

Print Assumptions C76_mean.
Print Assumptions C76_mean_bounds.
Print Assumptions C76_variance.
Print Assumptions C76_affine.
Print Assumptions C76_covariance_sizes.
Print Assumptions C76_covariance.
Print Assumptions C76_kurtosis.
Print Assumptions C76_skewness.
Print Assumptions C76_covariance_sizes_refuted.
