(** * Samples of spheres and tori (C125) *)
From Coq Require Import Reals List Arith Bool Lia Lra Ratan Sorted.
From Verif Require Import Base BaseFacts PointCloud PropertiesPointCloud Sampling.
Import ListNotations.
Local Open Scope R_scope.

Lemma upd_middle {A} (a : list A) x b y : upd (a ++ x :: b) (length a) y = a ++ y :: b.
Proof. induction a as [|c a IH]; cbn [app length upd]; [reflexivity|]. f_equal. exact IH. Qed.

Lemma set_points_ok f angles : (forall a, length (f a) = 3%nat) -> exists P, set_points f angles = Ok P /\ pc_d P = 3%nat /\ has_points P (map f angles).
Proof.
  intro Hf. unfold set_points.
  assert (G : forall angles done P, has_points P (done ++ repeat (repeat 0 3) (length angles)) -> pc_d P = 3%nat ->
    exists Q, foldM (fun st a => let* P := pc_set (fst st) (snd st) (f a) in Ok (P, S (snd st))) angles (P, length done) = Ok (Q, length (done ++ map f angles)) /\ pc_d Q = 3%nat /\ has_points Q (done ++ map f angles)).
  { clear angles. induction angles as [|a angles IH]; intros done P HP Hd; cbn [foldM map].
    - exists P. cbn [length repeat] in HP. rewrite app_nil_r in HP |- *. auto.
    - destruct (C85_access R P _ (length done) HP) as [_ HS]. specialize (HS (f a)).
      assert (Hi : (length done <? pc_n P)%nat = true). { rewrite (proj1 HP), app_length. cbn [length repeat]. apply Nat.ltb_lt. lia. }
      rewrite Hi, Hf, Hd in HS. cbn [andb Nat.eqb] in HS. destruct HS as (Q & E & Hd' & HQ). cbn [fst snd]. rewrite E. cbn [bind].
      cbn [length] in HQ. change (repeat (repeat 0 3) (S (length angles))) with (repeat 0 3 :: repeat (repeat 0 3) (length angles)) in HQ. rewrite upd_middle in HQ.
      destruct (IH (done ++ [f a]) Q) as (Q' & E' & Hd'' & HQ'); [rewrite <- app_assoc; exact HQ|congruence|].
      rewrite app_length in E'. cbn [length] in E'. rewrite Nat.add_1_r in E'. rewrite E'. exists Q'. rewrite <- app_assoc in HQ' |- *. cbn [app] in HQ' |- *. auto. }
  destruct (G angles [] (pc_make 0 (length angles) 3)) as (Q & E & Hd & HQ); [cbn [app]; apply C85_storage|reflexivity|].
  cbn [length] in E. rewrite E. cbn [bind fst]. exists Q. auto.
Qed.

(** Points on the sphere *)
Theorem C125_sphere : forall angles r x0 y0 z0, exists P rows, makeSphere angles r x0 y0 z0 = Ok P /\ pc_d P = 3%nat /\ has_points P rows /\ length rows = length angles /\
  forall row, In row rows -> exists x y z, row = [x; y; z] /\ (x - x0) ^ 2 + (y - y0) ^ 2 + (z - z0) ^ 2 = r ^ 2.
Proof.
  intros angles r x0 y0 z0. unfold makeSphere. match goal with |- context [set_points ?g _] => set (f := g) end.
  destruct (set_points_ok f angles) as (P & E & Hd & HP); [intros [t p]; reflexivity|]. exists P, (map f angles).
  refine (conj E (conj Hd (conj HP (conj (map_length _ _) _)))). intros row Hr. apply in_map_iff in Hr. destruct Hr as ([t p] & <- & _). unfold f. do 3 eexists. split; [reflexivity|].
  pose proof (sin2_cos2 t) as T. pose proof (sin2_cos2 p) as Q. unfold Rsqr in T, Q.
  replace ((x0 + r * cos t * sin p - x0) ^ 2 + (y0 + r * sin t * sin p - y0) ^ 2 + (z0 + r * cos p - z0) ^ 2)
    with (r ^ 2 * ((sin t * sin t + cos t * cos t) * (sin p * sin p) + cos p * cos p)) by ring.
  rewrite T, Rmult_1_l, Q. ring.
Qed.

(** The angles are uniform in area: the height is an affine function of one of the draws, the
    longitude of the other one *)
Theorem C125_uniform : forall draw n r x0 y0 z0, (forall k, 0 < draw k < 1) -> exists P rows, makeSphere (sphereSampling draw n) r x0 y0 z0 = Ok P /\ has_points P rows /\ length rows = n /\
  forall i, (i < n)%nat -> exists x y, nth i rows [] = [x; y; z0 + r * (1 - 2 * draw (2 * i + 1)%nat)] /\
    exists rho, x - x0 = rho * cos (2 * PI * draw (2 * i)%nat) /\ y - y0 = rho * sin (2 * PI * draw (2 * i)%nat) /\ (0 <= r -> 0 <= rho).
Proof.
  intros draw n r x0 y0 z0 Hd. unfold makeSphere. match goal with |- context [set_points ?g _] => set (f := g) end.
  destruct (set_points_ok f (sphereSampling draw n)) as (P & E & _ & HP); [intros [t p]; reflexivity|]. exists P, (map f (sphereSampling draw n)).
  refine (conj E (conj HP (conj _ _))); [rewrite map_length; unfold sphereSampling; rewrite map_length, seq_length; reflexivity|].
  intros i Hi. unfold sphereSampling. rewrite map_map. rewrite nth_indep with (d' := f ((fun i => (2 * PI * draw (2 * i)%nat, acos (1 - 2 * draw (2 * i + 1)%nat))) 0%nat)) by (rewrite map_length, seq_length; exact Hi).
  rewrite (map_nth (fun x => f (2 * PI * draw (2 * x)%nat, acos (1 - 2 * draw (2 * x + 1)%nat)))). rewrite seq_nth by exact Hi. cbn [Nat.add]. unfold f. set (v := draw (2 * i + 1)%nat). pose proof (Hd (2 * i + 1)%nat) as Hv. fold v in Hv.
  rewrite cos_acos by lra. do 2 eexists. split; [reflexivity|]. exists (r * sin (acos (1 - 2 * v))). split; [ring|]. split; [ring|]. intro Hr. apply Rmult_le_pos; [exact Hr|].
  apply sin_ge_0; apply acos_bound.
Qed.

(** Points on the torus *)
Theorem C125_torus : forall angles R1 r, exists P rows, makeTorus angles R1 r = Ok P /\ pc_d P = 3%nat /\ has_points P rows /\ length rows = length angles /\
  forall row, In row rows -> exists x y z, row = [x; y; z] /\ (x ^ 2 + y ^ 2 + z ^ 2 + R1 ^ 2 - r ^ 2) ^ 2 = 4 * R1 ^ 2 * (x ^ 2 + y ^ 2) /\ Rabs z <= Rabs r.
Proof.
  intros angles R1 r. unfold makeTorus. match goal with |- context [set_points ?g _] => set (f := g) end.
  destruct (set_points_ok f angles) as (P & E & Hd & HP); [intros [t p]; reflexivity|]. exists P, (map f angles).
  refine (conj E (conj Hd (conj HP (conj (map_length _ _) _)))). intros row Hr. apply in_map_iff in Hr. destruct Hr as ([t p] & <- & _). unfold f. do 3 eexists. split; [reflexivity|].
  pose proof (sin2_cos2 t) as T. pose proof (sin2_cos2 p) as Q. unfold Rsqr in T, Q. set (a := R1 + r * cos t). split.
  - replace ((a * cos p) ^ 2 + (a * sin p) ^ 2) with (a ^ 2 * (sin p * sin p + cos p * cos p)) by ring. rewrite Q, Rmult_1_r.
    replace (a ^ 2 + (r * sin t) ^ 2 + R1 ^ 2 - r ^ 2) with (2 * R1 ^ 2 + 2 * R1 * r * cos t + r ^ 2 * (sin t * sin t + cos t * cos t) - r ^ 2) by (unfold a; ring). rewrite T. unfold a. ring.
  - rewrite Rabs_mult. rewrite <- (Rmult_1_r (Rabs r)) at 2. apply Rmult_le_compat_l; [apply Rabs_pos|]. apply Rabs_le. pose proof (SIN_bound t). lra.
Qed.

(** ** Rejection sampling *)
Section Rejection.
  Variables (R1 r : R) (n : nat) (xs ys psis : nat -> R).
  Definition accepted (i : nat) : Prop := ys i < torus_density R1 r (xs i).
  (** [is] are the accepted indices below [i], in order; the angles belong to them *)
  Definition state (i : nat) (is : list nat) (angles : list (R * R)) : Prop :=
    StronglySorted lt is /\ (forall j, In j is <-> (j < i)%nat /\ accepted j) /\
    angles = map (fun q => (xs (snd q), psis (fst q))) (combine (seq 0 (length is)) is).

  Lemma state_length i is angles : state i is angles -> length angles = length is.
  Proof. intros (_ & _ & ->). rewrite map_length, combine_length, seq_length. lia. Qed.
  Lemma sorted_snoc is i : StronglySorted lt is -> (forall j, In j is -> (j < i)%nat) -> StronglySorted lt (is ++ [i]).
  Proof.
    induction 1 as [|a l H IH F]; intro Hi; cbn [app]; [constructor; constructor|]. constructor; [apply IH; intros; apply Hi; simpl; auto|]. apply Forall_app. split; [exact F|]. constructor; [apply Hi; simpl; auto|constructor].
  Qed.
  Lemma combine_snoc {A B} (a : list A) (b : list B) x y : length a = length b -> combine (a ++ [x]) (b ++ [y]) = combine a b ++ [(x, y)].
  Proof. revert b. induction a as [|c a IH]; intros [|d b] H; try discriminate; [reflexivity|]. cbn [app combine]. f_equal. apply IH. cbn in H. lia. Qed.
  Lemma state_yes i is angles : state i is angles -> accepted i -> state (S i) (is ++ [i]) (angles ++ [(xs i, psis (length angles))]).
  Proof.
    intros HS Hi. pose proof (state_length _ _ _ HS) as L. destruct HS as (H1 & H2 & H3). refine (conj _ (conj _ _)).
    - apply sorted_snoc; [exact H1|]. intros j Hj. apply H2 in Hj. tauto.
    - intro j. rewrite in_app_iff, H2. cbn [In]. split.
      + intros [[Hj Ha]|[<-|[]]]; (split; [lia|assumption]).
      + intros [Hj Ha]. destruct (Nat.eq_dec j i) as [->|Hn]; [auto|left; split; [lia|assumption]].
    - rewrite L. rewrite app_length. cbn [length]. rewrite seq_app. cbn [seq Nat.add]. rewrite combine_snoc by apply seq_length. rewrite map_app. rewrite <- H3. reflexivity.
  Qed.
  Lemma state_no i is angles : state i is angles -> ~ accepted i -> state (S i) is angles.
  Proof.
    intros (H1 & H2 & H3) Hi. refine (conj H1 (conj _ H3)). intro j. rewrite H2. split; intros [Hj Ha]; (split; [|exact Ha]); [lia|]. destruct (Nat.eq_dec j i) as [->|]; [contradiction|lia].
  Qed.

  Lemma loop_ok fuel : forall i is angles, state i is angles -> (length is <= n)%nat -> forall res, rejection_loop fuel R1 r n xs ys psis i angles = Ok res ->
    exists i' is', state i' is' res /\ length is' = n.
  Proof.
    induction fuel as [|f IH]; intros i is angles HS Hl res; cbn [rejection_loop]; pose proof (state_length _ _ _ HS) as L.
    - destruct (Nat.leb_spec n (length angles)); [|discriminate]. intro E. injection E as <-. exists i, is. split; [exact HS|lia].
    - destruct (Nat.leb_spec n (length angles)); [intro E; injection E as <-; exists i, is; split; [exact HS|lia]|].
      destruct (Rlt_dec (ys i) (torus_density R1 r (xs i))) as [Y|N]; intro E.
      + apply (IH (S i) (is ++ [i]) _ (state_yes i is angles HS Y)); [rewrite app_length; cbn [length]; lia|exact E].
      + apply (IH (S i) is angles (state_no i is angles HS N) Hl). exact E.
  Qed.

  Lemma loop_terminates k : forall i angles, (n <= k + length angles)%nat -> (forall j, exists m, (j <= m)%nat /\ accepted m) -> exists N, forall fuel, (N <= fuel)%nat -> exists res, rejection_loop fuel R1 r n xs ys psis i angles = Ok res.
  Proof.
    induction k as [|k IH]; intros i angles Hk Hinf.
    - exists 0%nat. intros fuel _. exists angles. destruct fuel; cbn [rejection_loop]; rewrite (proj2 (Nat.leb_le _ _)) by lia; reflexivity.
    - destruct (Hinf i) as (m & Hm & Ha). assert (G : forall d i, (m - i <= d)%nat -> (i <= m)%nat -> exists N, forall fuel, (N <= fuel)%nat -> exists res, rejection_loop fuel R1 r n xs ys psis i angles = Ok res).
      { induction d as [|d IHd]; intros i' Hd Hi'.
        - replace i' with m by lia. destruct (IH (S m) (angles ++ [(xs m, psis (length angles))])) as (N & HN); [rewrite app_length; cbn [length]; lia|exact Hinf|].
          exists (S N). intros [|f] Hf; [lia|]. cbn [rejection_loop]. destruct (n <=? length angles)%nat; [eauto|]. destruct (Rlt_dec _ _) as [Y|Nn]; [apply HN; lia|contradiction].
        - destruct (Nat.eq_dec i' m) as [->|Hne]; [apply IHd; lia|].
          destruct (IHd (S i')) as (N1 & HN1); [lia|lia|]. destruct (IH (S i') (angles ++ [(xs i', psis (length angles))])) as (N2 & HN2); [rewrite app_length; cbn [length]; lia|exact Hinf|].
          exists (S (Nat.max N1 N2)). intros [|f] Hf; [lia|]. cbn [rejection_loop]. destruct (n <=? length angles)%nat; [eauto|]. destruct (Rlt_dec _ _); [apply HN2; lia|apply HN1; lia]. }
      apply (G (m - i)%nat i); lia.
  Qed.
End Rejection.

(** The result consists of the first [n] accepted candidates *)
Theorem C125_rejection : forall R1 r n xs ys psis,
  (forall fuel res, torusRejectionSampling fuel R1 r n xs ys psis = Ok res -> exists i is, length is = n /\ StronglySorted lt is /\
     (forall j, In j is <-> (j < i)%nat /\ ys j < (1 + r / R1 * cos (xs j)) / (2 * PI)) /\
     res = map (fun q => (xs (snd q), psis (fst q))) (combine (seq 0 n) is)) /\
  ((forall k, exists m, (k <= m)%nat /\ ys m < (1 + r / R1 * cos (xs m)) / (2 * PI)) -> exists N, forall fuel, (N <= fuel)%nat -> exists res, torusRejectionSampling fuel R1 r n xs ys psis = Ok res).
Proof.
  intros R1 r n xs ys psis. split.
  - intros fuel res E. destruct (loop_ok R1 r n xs ys psis fuel 0 [] []) with (res := res) as (i & is & (H1 & H2 & H3) & L); [|cbn; lia|exact E|].
    + refine (conj _ (conj _ eq_refl)); [constructor|]. intro j. split; [intros []|lia].
    + exists i, is. rewrite <- L at 2. auto.
  - intro H. apply (loop_terminates R1 r n xs ys psis n 0 []); [cbn; lia|exact H].
Qed.

(** If the small radius does not exceed the large one, the density never exceeds the range of the
    second draw, as rejection sampling requires; it is proportional to the area at this angle *)
Theorem C125_density : forall R1 r, 0 <= r <= R1 -> 0 < R1 -> (forall x, 0 <= torus_density R1 r x <= 1 / PI) /\
  forall x, torus_density R1 r x = (R1 + r * cos x) * (1 / (2 * PI * R1)).
Proof.
  intros R1 r Hr HR. pose proof PI_RGT_0 as Hpi. assert (Hq : 0 <= r / R1 <= 1).
  { split; [apply Rmult_le_pos; [lra|left; apply Rinv_0_lt_compat; lra]|]. apply (Rmult_le_reg_r R1); [exact HR|]. unfold Rdiv. rewrite Rmult_assoc, Rinv_l by lra. lra. }
  split.
  - intro x. unfold torus_density. pose proof (COS_bound x) as [C1 C2]. set (q := r / R1) in *.
    assert (B : 0 <= 1 + q * cos x <= 2). { split; [assert (0 <= q * (1 + cos x)) by (apply Rmult_le_pos; lra); lra|assert (0 <= q * (1 - cos x)) by (apply Rmult_le_pos; lra); lra]. }
    replace (1 / PI) with (2 / (2 * PI)) by (field; lra). unfold Rdiv. assert (0 < / (2 * PI)) by (apply Rinv_0_lt_compat; lra).
    split; [apply Rmult_le_pos; lra|apply Rmult_le_compat_r; lra].
  - intro x. unfold torus_density. field. lra.
Qed.
(** Otherwise some angles are never accepted, and for others the density is cut off *)
Theorem C125_density_refuted : forall R1 r, 0 < R1 < r -> torus_density R1 r PI < 0 /\ 1 / PI < torus_density R1 r 0.
Proof.
  intros R1 r Hr. pose proof PI_RGT_0 as Hpi. assert (Hq : 1 < r / R1). { apply (Rmult_lt_reg_r R1); [lra|]. unfold Rdiv. rewrite Rmult_assoc, Rinv_l by lra. lra. }
  unfold torus_density. rewrite cos_PI, cos_0. assert (0 < / (2 * PI)) by (apply Rinv_0_lt_compat; lra). unfold Rdiv at 1 3 4. fold (r / R1). split.
  - apply Ropp_lt_cancel. rewrite Ropp_0, <- Ropp_mult_distr_l_reverse || idtac. assert (0 < (- (1 + r / R1 * -1)) * / (2 * PI)) by (apply Rmult_lt_0_compat; lra). lra.
  - replace (1 * / PI) with (2 * / (2 * PI)) by (field; lra). apply Rmult_lt_compat_r; lra.
Qed.

Example C125_example : exists P, makeSphere [(0, PI / 2); (PI / 2, PI / 2); (0, PI)] 2 1 0 0 = Ok P /\ has_points P [[3; 0; 0]; [1; 2; 0]; [1; 0; -2]] /\
  torusRejectionSampling 3 2 1 1 (fun i => INR i * PI) (fun i => if (i =? 0)%nat then 1 else 0) (fun _ => 5) = Ok [(PI, 5)].
Proof.
  unfold makeSphere. match goal with |- context [set_points ?g _] => set (f := g) end. destruct (set_points_ok f [(0, PI / 2); (PI / 2, PI / 2); (0, PI)]) as (P & E & _ & HP); [intros [t p]; reflexivity|]. exists P. refine (conj E (conj _ _)).
  - cbn [map] in HP. unfold f in HP. rewrite ?cos_0, ?sin_0, ?cos_PI2, ?sin_PI2, ?cos_PI, ?sin_PI in HP.
    replace [[3; 0; 0]; [1; 2; 0]; [1; 0; -2]] with [[1 + 2 * 1 * 1; 0 + 2 * 0 * 1; 0 + 2 * 0]; [1 + 2 * 0 * 1; 0 + 2 * 1 * 1; 0 + 2 * 0]; [1 + 2 * 1 * 0; 0 + 2 * 0 * 0; 0 + 2 * -1]]; [exact HP|].
    repeat f_equal; ring.
  - pose proof PI_RGT_0 as Hpi. unfold torusRejectionSampling. cbn [rejection_loop length Nat.leb].
    destruct (Rlt_dec _ _) as [Y|_].
    + exfalso. cbn [Nat.eqb] in Y. destruct (C125_density 2 1) as [D _]; [lra|lra|]. specialize (D (INR 0 * PI)). assert (1 / PI < 1). { apply (Rmult_lt_reg_r PI); [exact Hpi|]. unfold Rdiv. rewrite Rmult_assoc, Rinv_l by lra. pose proof PI2_3_2. lra. } lra.
    + destruct (Rlt_dec _ _) as [_|N]; cbn [app length Nat.leb].
      * change (INR 1) with 1; rewrite Rmult_1_l. reflexivity.
      * exfalso. apply N. cbn [Nat.eqb]. change (INR 1) with 1; rewrite Rmult_1_l. unfold torus_density. rewrite cos_PI. apply Rmult_lt_0_compat; [lra|apply Rinv_0_lt_compat; lra].
Qed.

Print Assumptions C125_sphere.
Print Assumptions C125_uniform.
Print Assumptions C125_torus.
Print Assumptions C125_rejection.
