(** * Maximum-likelihood estimates of the dimensionality. *)
From Coq Require Import Reals List Arith Bool Lia Lra.
From Verif Require Import Base BaseFacts HeatKernel PropertiesHeat RealDescriptors PropertiesRealDescriptors.
Import ListNotations.
Local Open Scope R_scope.

(** the sum of [f] over [a, …, a + n - 1] *)
Definition sum_from (a n : nat) (f : nat -> R) : R := fold_right Rplus 0 (map f (seq a n)).

(** the estimator of Levina and Bickel for [k] neighbours: the inverse of the mean of the
    logarithms of the ratios, or 0 if all distances are equal *)
Definition hill (row : list R) (k : nat) : R :=
  let s := sum_from 1 (k - 1) (fun j => ln (nth k row 0 / nth j row 0)) in
  if Req_EM_T s 0 then 0 else INR (k - 1) / s.

(** the distances of a point to itself and to its nearest neighbours, which are different *)
Definition neighbour_row (kMax : nat) (row : list R) : Prop :=
  (kMax <= length row)%nat /\ nth 0 row 0 = 0 /\ (forall j, (0 < j < kMax)%nat -> 0 < nth j row 0) /\ (forall i j, (i <= j < kMax)%nat -> nth i row 0 <= nth j row 0).

Lemma foldM_append {A B} (f : A -> outcome B) (g : A -> B) : forall l acc, (forall a, In a l -> f a = Ok (g a)) -> foldM (fun r a => let* b := f a in Ok (r ++ [b])) l acc = Ok (acc ++ map g l).
Proof. induction l as [|a l IH]; intros acc H; cbn [foldM map bind]; [rewrite app_nil_r; reflexivity|]. rewrite H by (simpl; auto). cbn [bind]. rewrite IH by (intros; apply H; simpl; auto). rewrite <- app_assoc. reflexivity. Qed.
Lemma foldM_ext_in {A S} (f g : S -> A -> outcome S) : forall l s, (forall s a, In a l -> f s a = g s a) -> foldM f l s = foldM g l s.
Proof. induction l as [|a l IH]; intros s H; cbn [foldM]; [reflexivity|]. rewrite H by (simpl; auto). destruct (g s a); cbn [bind]; try reflexivity. apply IH. intros; apply H; simpl; auto. Qed.

Definition log_term (row : list R) (k j : nat) : R := if Rlt_dec 0 (nth j row 0) then if Rlt_dec 0 (nth k row 0) then ln (nth k row 0 / nth j row 0) else 0 else 0.

Lemma mle_local_ok row k : (k < length row)%nat ->
  mle_local row k = Ok (let mk := if (1 <? k)%nat then 1 / INR (k - 1) * sum_from 0 k (log_term row k) else 0 in if Rlt_dec 0 mk then 1 / mk else 0).
Proof.
  intros Hk. unfold mle_local. rewrite (foldM_ext_in _ (fun l j => let* b := Ok (log_term row k j) in Ok (l ++ [b]))).
  - rewrite (foldM_append _ (log_term row k)) by reflexivity. cbn [bind app]. rewrite kahanR_all_sum. reflexivity.
  - intros s j Hj. apply in_seq in Hj. unfold get_, at_, log_term. rewrite (@nth_error_nth' _ row j 0 ltac:(lia)), (@nth_error_nth' _ row k 0 ltac:(lia)). cbn [bind]. destruct (Rlt_dec 0 (nth j row 0)); reflexivity.
Qed.

Lemma mle_local_hill kMax row k : neighbour_row kMax row -> (2 <= k < kMax)%nat -> mle_local row k = Ok (hill row k) /\ 0 <= hill row k.
Proof.
  intros (L & Z & P & M) Hk. rewrite mle_local_ok by lia. cbn zeta. destruct (Nat.ltb_spec 1 k); [|lia].
  assert (E : sum_from 0 k (log_term row k) = sum_from 1 (k - 1) (fun j => ln (nth k row 0 / nth j row 0))).
  { unfold sum_from. assert (Es : seq 0 k = 0%nat :: seq 1 (k - 1)) by (destruct k; [lia|cbn; rewrite Nat.sub_0_r; reflexivity]). rewrite Es. cbn [map fold_right]. unfold log_term at 1. rewrite Z. destruct (Rlt_dec 0 0); [lra|]. rewrite Rplus_0_l. f_equal. apply map_ext_in. intros j Hj. apply in_seq in Hj. unfold log_term. destruct (Rlt_dec 0 (nth j row 0)) as [_|N]; [|exfalso; apply N, P; lia]. destruct (Rlt_dec 0 (nth k row 0)) as [_|N]; [reflexivity|exfalso; apply N, P; lia]. }
  rewrite E. assert (Hs : 0 <= sum_from 1 (k - 1) (fun j => ln (nth k row 0 / nth j row 0))).
  { unfold sum_from. assert (G : forall j, In j (seq 1 (k - 1)) -> 0 <= ln (nth k row 0 / nth j row 0)).
    { intros j Hj. apply in_seq in Hj. assert (Pj : 0 < nth j row 0) by (apply P; lia). assert (Mj : nth j row 0 <= nth k row 0) by (apply M; lia). assert (1 <= nth k row 0 / nth j row 0) by (apply (Rmult_le_reg_r (nth j row 0)); [exact Pj|]; unfold Rdiv; rewrite Rmult_assoc, Rinv_l by lra; lra). destruct (Rle_lt_or_eq_dec _ _ H0) as [Lt|Eq]; [pose proof (ln_increasing 1 _ Rlt_0_1 Lt) as I; rewrite ln_1 in I; lra|rewrite <- Eq, ln_1; lra]. }
    induction (seq 1 (k - 1)) as [|j l IH]; cbn [map fold_right]; [lra|]. pose proof (G j (or_introl eq_refl)). assert (0 <= fold_right Rplus 0 (map (fun j => ln (nth k row 0 / nth j row 0)) l)) by (apply IH; intros; apply G; simpl; auto). lra. }
  unfold hill. set (s := sum_from 1 (k - 1) (fun j => ln (nth k row 0 / nth j row 0))) in *. assert (Pk : 0 < INR (k - 1)) by (apply lt_0_INR; lia). assert (Pi : 0 < 1 / INR (k - 1)) by (apply Rmult_lt_0_compat; [lra|apply Rinv_0_lt_compat; exact Pk]).
  destruct (Req_EM_T s 0) as [S0|S0].
  - rewrite S0, Rmult_0_r. destruct (Rlt_dec 0 0); [lra|]. split; [reflexivity|lra].
  - assert (0 < s) by lra. destruct (Rlt_dec 0 (1 / INR (k - 1) * s)) as [_|N]; [|exfalso; apply N; apply Rmult_lt_0_compat; assumption]. split; [f_equal; field; split; lra|]. left. apply Rmult_lt_0_compat; [exact Pk|apply Rinv_0_lt_compat; assumption].
Qed.

Lemma sum_from_nonneg a n f : (forall j, (a <= j < a + n)%nat -> 0 <= f j) -> 0 <= sum_from a n f.
Proof. revert a. induction n as [|n IH]; intros a H; unfold sum_from; cbn [seq map fold_right]; [lra|]. pose proof (H a ltac:(lia)). assert (0 <= sum_from (S a) n f) by (apply IH; intros; apply H; lia). unfold sum_from in *. lra. Qed.

(** the local estimates of one row *)
Lemma row_estimates kMax row a : neighbour_row kMax row -> (2 <= a <= kMax)%nat ->
  foldM (fun l k => if (k =? 0)%nat then Ok l else let* m := mle_local row k in Ok (l ++ [m])) (seq a (kMax - a)) [] = Ok (map (hill row) (seq a (kMax - a))).
Proof.
  intros HR Ha. rewrite (foldM_ext_in _ (fun l k => let* m := mle_local row k in Ok (l ++ [m]))).
  - rewrite (foldM_append (mle_local row) (hill row)); [reflexivity|]. intros k Hk. apply in_seq in Hk. apply (mle_local_hill kMax); [exact HR|lia].
  - intros l k Hk. apply in_seq in Hk. destruct (Nat.eqb_spec k 0); [lia|reflexivity].
Qed.

(** The estimate of a point is the mean of the estimators for [kMin - 1, …, kMax - 1]
    neighbours other than the point itself; it is not negative. *)
Theorem C116_mle : forall n kMin kMax distances, length distances = n -> (forall row, In row distances -> neighbour_row kMax row) -> (3 <= kMin <= kMax)%nat ->
  exists e, dimensionalityMLE n kMin kMax distances = Ok e /\ length e = n /\
    forall i, (i < n)%nat -> 0 <= nth i e 0 /\ INR (kMax - kMin + 1) * nth i e 0 = sum_from (kMin - 1) (kMax - kMin + 1) (hill (nth i distances [])).
Proof.
  intros n kMin kMax distances Hn HR Hk. unfold dimensionalityMLE. destruct (Nat.ltb_spec kMax kMin); [lia|]. destruct (Nat.eqb_spec kMax 0); [lia|]. destruct (Nat.eqb_spec kMin 0); [lia|]. cbn [orb].
  set (g := fun i => sum_from (kMin - 1) (kMax - kMin + 1) (hill (nth i distances [])) / INR (kMax - kMin + 1)). exists (map g (seq 0 n)).
  assert (Pk : 0 < INR (kMax - kMin + 1)) by (apply lt_0_INR; lia).
  assert (E : forall i, In i (seq 0 n) -> In (nth i distances []) distances) by (intros i Hi; apply in_seq in Hi; apply nth_In; lia).
  refine (conj _ (conj _ _)).
  - rewrite (foldM_ext_in _ (fun r i => let* b := Ok (g i) in Ok (r ++ [b]))).
    + rewrite (foldM_append _ g) by reflexivity. reflexivity.
    + intros r i Hi. pose proof (E i Hi) as Hin. apply in_seq in Hi. unfold at_ at 1. rewrite (@nth_error_nth' _ distances i [] ltac:(lia)). cbn [bind]. rewrite (row_estimates kMax) by (try apply HR; try exact Hin; lia). cbn [bind]. rewrite kahanR_all_sum. replace (kMax - (kMin - 1))%nat with (kMax - kMin + 1)%nat by lia. reflexivity.
  - rewrite map_length. apply seq_length.
  - intros i Hi. assert (N : nth i (map g (seq 0 n)) 0 = g i). { rewrite (nth_indep _ 0 (g 0%nat)) by (rewrite map_length, seq_length; exact Hi). rewrite map_nth, seq_nth by exact Hi. reflexivity. }
    rewrite N. unfold g. split.
    + unfold Rdiv. apply Rmult_le_pos; [|left; apply Rinv_0_lt_compat; exact Pk]. apply sum_from_nonneg. intros j Hj. apply (mle_local_hill kMax); [|lia]. apply HR, E, in_seq. lia.
    + field. lra.
Qed.

(** Multiplying all distances by a positive number changes nothing. *)
Theorem C116_scale : forall n kMin kMax distances c, 0 < c -> dimensionalityMLE n kMin kMax (map (map (Rmult c)) distances) = dimensionalityMLE n kMin kMax distances.
Proof.
  intros n kMin kMax distances c Hc.
  assert (P : forall d, (if Rlt_dec 0 (c * d) then true else false) = if Rlt_dec 0 d then true else false).
  { intro d. destruct (Rlt_dec 0 (c * d)), (Rlt_dec 0 d); try reflexivity; exfalso; nra. }
  assert (L : forall row k, mle_local (map (Rmult c) row) k = mle_local row k).
  { intros row k. unfold mle_local. assert (F : forall l acc, foldM (fun l j => let* d := get_ (map (Rmult c) row) j in if Rlt_dec 0 d then let* dk := at_ (map (Rmult c) row) k in Ok (l ++ [if Rlt_dec 0 dk then ln (dk / d) else 0]) else Ok (l ++ [0])) l acc
        = foldM (fun l j => let* d := get_ row j in if Rlt_dec 0 d then let* dk := at_ row k in Ok (l ++ [if Rlt_dec 0 dk then ln (dk / d) else 0]) else Ok (l ++ [0])) l acc).
    { intros l acc. apply foldM_ext_in. intros s j _. unfold get_, at_. rewrite !nth_error_map. destruct (nth_error row j) as [d|]; cbn [option_map bind]; [|reflexivity]. pose proof (P d) as Pd. destruct (Rlt_dec 0 (c * d)), (Rlt_dec 0 d); try discriminate; [|reflexivity].
      destruct (nth_error row k) as [dk|]; cbn [option_map bind]; [|reflexivity]. pose proof (P dk) as Pdk. destruct (Rlt_dec 0 (c * dk)), (Rlt_dec 0 dk); try discriminate; [|reflexivity]. replace (c * dk / (c * d)) with (dk / d) by (field; split; lra). reflexivity. }
    rewrite F. reflexivity. }
  unfold dimensionalityMLE. destruct (if (kMax <? kMin)%nat then (kMax, kMin) else (kMin, kMax)) as [a b]. destruct ((b =? 0) || (a =? 0))%nat; [reflexivity|]. apply foldM_ext_in. intros r i _. unfold at_. rewrite nth_error_map. destruct (nth_error distances i) as [row|]; cbn [option_map bind]; [|reflexivity].
  rewrite (foldM_ext_in _ (fun l k => if (k =? 0)%nat then Ok l else let* m := mle_local row k in Ok (l ++ [m]))); [reflexivity|]. intros s k _. rewrite L. reflexivity.
Qed.

(** The order of the two numbers is irrelevant; 0 is rejected. *)
Theorem C116_order : forall n kMin kMax distances, dimensionalityMLE n kMin kMax distances = dimensionalityMLE n kMax kMin distances.
Proof.
  intros n a b ds. unfold dimensionalityMLE. destruct (Nat.ltb_spec b a), (Nat.ltb_spec a b); try lia; try reflexivity. assert (a = b) by lia. subst. reflexivity.
Qed.
Theorem C116_throws : forall n k distances, dimensionalityMLE n k 0 distances = Throw RuntimeError.
Proof. intros n k ds. unfold dimensionalityMLE. destruct (0 <? k)%nat; cbn [Nat.eqb orb]; [rewrite Bool.orb_true_r|]; reflexivity. Qed.

(** FINDING: for [kMin = 1], nothing is estimated for 0 neighbours, and 0 is used for a single
    neighbour, but both are counted in the denominator: the estimate is too small by the factor
    [(kMax - 2) / kMax]. *)
Theorem C116_small_refuted : forall n kMax distances, length distances = n -> (forall row, In row distances -> neighbour_row kMax row) -> (3 <= kMax)%nat ->
  exists e1 e3, dimensionalityMLE n 1 kMax distances = Ok e1 /\ dimensionalityMLE n 3 kMax distances = Ok e3 /\ length e1 = n /\ length e3 = n /\
    forall i, (i < n)%nat -> INR kMax * nth i e1 0 = INR (kMax - 2) * nth i e3 0.
Proof.
  intros n kMax distances Hn HR Hk. destruct (C116_mle n 3 kMax distances Hn HR ltac:(lia)) as (e3 & E3 & L3 & V3).
  set (g := fun i => sum_from 2 (kMax - 2) (hill (nth i distances [])) / INR kMax). assert (Pk : 0 < INR kMax) by (apply lt_0_INR; lia).
  exists (map g (seq 0 n)), e3. refine (conj _ (conj E3 (conj _ (conj L3 _)))).
  - unfold dimensionalityMLE. destruct (Nat.ltb_spec kMax 1); [lia|]. destruct (Nat.eqb_spec kMax 0); [lia|]. cbn [orb Nat.eqb]. rewrite (foldM_ext_in _ (fun r i => let* b := Ok (g i) in Ok (r ++ [b]))).
    + rewrite (foldM_append _ g) by reflexivity. reflexivity.
    + intros r i Hi. apply in_seq in Hi. assert (Hin : In (nth i distances []) distances) by (apply nth_In; lia). unfold at_ at 1. rewrite (@nth_error_nth' _ distances i [] ltac:(lia)). cbn [bind]. set (row := nth i distances []) in *. pose proof (HR row Hin) as HRr.
      change (1 - 1)%nat with 0%nat. rewrite Nat.sub_0_r. assert (Es : seq 0 kMax = 0%nat :: 1%nat :: seq 2 (kMax - 2)) by (destruct kMax as [|[|m]]; [lia|lia|cbn; rewrite Nat.sub_0_r; reflexivity]). rewrite Es. cbn [foldM Nat.eqb bind].
      assert (M1 : mle_local row 1 = Ok 0). { destruct HRr as (Lr & _). rewrite mle_local_ok by lia. cbn zeta. cbn [Nat.ltb Nat.leb]. destruct (Rlt_dec 0 0); [lra|reflexivity]. }
      rewrite M1. cbn [bind app]. rewrite (foldM_ext_in _ (fun l k => let* m := mle_local row k in Ok (l ++ [m]))) by (intros l k Hk'; apply in_seq in Hk'; destruct (Nat.eqb_spec k 0); [lia|reflexivity]).
      rewrite (foldM_append (mle_local row) (hill row)) by (intros k Hk'; apply in_seq in Hk'; apply (mle_local_hill kMax); [exact HRr|lia]). cbn [bind]. rewrite kahanR_all_sum. cbn [app fold_right]. rewrite Rplus_0_l. replace (kMax - 1 + 1)%nat with kMax by lia. reflexivity.
  - rewrite map_length. apply seq_length.
  - intros i Hi. destruct (V3 i Hi) as [_ V]. replace (kMax - 3 + 1)%nat with (kMax - 2)%nat in V by lia. change (3 - 1)%nat with 2%nat in V. rewrite V. rewrite (nth_indep _ 0 (g 0%nat)) by (rewrite map_length, seq_length; exact Hi). rewrite map_nth, seq_nth by exact Hi. unfold g. cbn [Nat.add]. field. lra.
Qed.

(** two neighbours at distances 1 and [e]: the estimate is 1 *)
Example C116_example : exists e, dimensionalityMLE 1 3 3 [[0; 1; exp 1]] = Ok e /\ nth 0 e 0 = 1.
Proof.
  assert (H1 : 1 < exp 1) by (rewrite <- exp_0 at 1; apply exp_increasing; lra).
  destruct (C116_mle 1 3 3 [[0; 1; exp 1]] eq_refl) as (e & E & _ & V).
  - intros row [<-|[]]. refine (conj _ (conj _ (conj _ _))); [cbn; lia|reflexivity| |].
    + intros j Hj. destruct j as [|[|[|j]]]; try lia; cbn; lra.
    + intros i j Hij. destruct j as [|[|[|j]]]; try lia; destruct i as [|[|[|i]]]; try lia; cbn; lra.
  - lia.
  - exists e. split; [exact E|]. destruct (V 0%nat ltac:(lia)) as [_ W]. change (3 - 3 + 1)%nat with 1%nat in W. change (INR 1) with 1 in W. rewrite Rmult_1_l in W. rewrite W. unfold sum_from at 1. cbn [seq map fold_right Nat.sub nth]. unfold hill, sum_from. cbn [seq map fold_right Nat.sub nth]. assert (A : ln (exp 1 / 1) + 0 = 1) by (unfold Rdiv; rewrite Rinv_1, Rmult_1_r, ln_exp; lra). rewrite A. destruct (Req_EM_T 1 0); [lra|]. cbn [INR]. field.
Qed.

Print Assumptions C116_mle.
Print Assumptions C116_scale.
Print Assumptions C116_order.
Print Assumptions C116_throws.
Print Assumptions C116_small_refuted.
