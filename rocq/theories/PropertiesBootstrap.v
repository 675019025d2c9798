(** * C103: bootstrap estimates. *)
From Coq Require Import List Arith Bool ZArith QArith Qround Lia Lqa Sorted Permutation.
From Verif Require Import Base BaseFacts Curvature SpecCurvature PropertiesCurvature Bootstrap.
Import ListNotations.
Local Open Scope nat_scope.

(** numbers of values that are at most [v], that are smaller than [v], and in an interval *)
Definition count_le (v : Q) (l : list Q) : nat := length (filter (fun x => Qle_bool x v) l).
Definition count_lt (v : Q) (l : list Q) : nat := length (filter (fun x => negb (Qle_bool v x)) l).
Definition count_in (a b : Q) (l : list Q) : nat := length (filter (fun x => Qle_bool a x && Qle_bool x b) l).
Definition qn (n : nat) : Q := inject_Z (Z.of_nat n).
(** [v] is the [a]-quantile: at least [a] of the values are at most [v], less than [a] are smaller *)
Definition quantile (l : list Q) (a v : Q) : Prop :=
  In v l /\ (a * qn (length l) <= qn (count_le v l))%Q /\ (qn (count_lt v l) < a * qn (length l))%Q.

Lemma filter_perm {A} (f : A -> bool) l l' : Permutation l l' -> length (filter f l) = length (filter f l').
Proof.
  induction 1 as [|x l l' _ IH|x y l|l1 l2 l3 _ IH1 _ IH2]; cbn [filter]; [reflexivity| | |congruence].
  - destruct (f x); cbn [length]; lia.
  - destruct (f x); destruct (f y); reflexivity.
Qed.

Lemma Qltb_swo : swo Qltb.
Proof.
  unfold swo, Qltb. split.
  - intros x y H. apply negb_true_iff in H. apply negb_false_iff. apply Qle_bool_iff. destruct (Qlt_le_dec x y) as [L|L]; [lra|]. apply Qle_bool_iff in L. congruence.
  - intros x y z H1 H2. apply negb_false_iff in H1, H2. apply negb_false_iff. apply Qle_bool_iff in H1, H2. apply Qle_bool_iff. lra.
Qed.

Lemma sorted_Q l : StronglySorted Qle (cpp_sort Qltb l).
Proof.
  assert (H := cpp_sort_sorted Qltb l Qltb_swo). induction H as [|x m Hs IH HF]; constructor; auto.
  apply Forall_forall. intros y Hy. rewrite Forall_forall in HF. specialize (HF y Hy). unfold Qltb in HF. apply negb_false_iff in HF. apply Qle_bool_iff. exact HF.
Qed.

Lemma sorted_counts l : StronglySorted Qle l -> forall i v, nth_error l i = Some v -> i < count_le v l /\ count_lt v l <= i.
Proof.
  unfold count_le, count_lt. induction 1 as [|x l Hs IH HF]; intros [|i] v E; try discriminate; cbn [nth_error filter] in *.
  - injection E as <-. assert (R : Qle_bool x x = true) by (apply Qle_bool_iff; lra). rewrite R. cbn [negb length]. split; [lia|].
    replace (filter (fun y => negb (Qle_bool x y)) l) with (@nil Q); [cbn; lia|]. symmetry. rewrite Forall_forall in HF.
    clear -HF. induction l as [|y l IH]; [reflexivity|]. cbn [filter]. rewrite (proj2 (Qle_bool_iff x y)) by (apply HF; simpl; auto). cbn [negb]. apply IH. intros; apply HF; simpl; auto.
  - destruct (IH i v E) as [A B]. rewrite Forall_forall in HF. assert (L : (x <= v)%Q) by (apply HF; eapply nth_error_In; exact E).
    rewrite (proj2 (Qle_bool_iff x v) L). cbn [length]. split; [lia|]. destruct (Qle_bool v x); cbn [negb length]; lia.
Qed.

Lemma qn_le a b : a <= b <-> (qn a <= qn b)%Q.
Proof. unfold qn. rewrite <- Zle_Qle. lia. Qed.
Lemma qn_lt a b : a < b <-> (qn a < qn b)%Q.
Proof. unfold qn. rewrite <- Zlt_Qlt. lia. Qed.
Lemma qn_plus a b : (qn (a + b) == qn a + qn b)%Q.
Proof. unfold qn. rewrite Nat2Z.inj_add, inject_Z_plus. reflexivity. Qed.

Lemma index_spec umax N a : (0 < N)%nat -> (Z.of_nat N <= umax)%Z -> (0 < a)%Q -> (a <= 1)%Q ->
  exists i, index umax N a = Ok (Z.of_nat i) /\ i < N /\ (qn i < a * qn N)%Q /\ (a * qn N <= qn (S i))%Q.
Proof.
  intros HN HU H0 H1. unfold index. set (x := (inject_Z (Z.of_nat N) * a)%Q). assert (Hx : (x == a * qn N)%Q) by (unfold x, qn; ring).
  assert (PN : (0 < qn N)%Q) by (apply (qn_lt 0); lia).
  pose proof (Qle_ceiling x) as C1. pose proof (Qceiling_lt x) as C2. set (z := Qceiling x) in *.
  assert (Z1 : (0 < z)%Z). { rewrite Zlt_Qlt. change (inject_Z 0) with 0%Q. assert (0 < x)%Q by (rewrite Hx; nra). lra. }
  assert (Z2 : (z <= Z.of_nat N)%Z). { assert (inject_Z (z - 1) < inject_Z (Z.of_nat N))%Q; [|rewrite <- Zlt_Qlt in *; lia]. assert (x <= qn N)%Q by (rewrite Hx; nra). unfold qn in *. lra. }
  destruct (Z.ltb_spec z 0); [lia|]. destruct (Z.ltb_spec umax z); [lia|]. cbn [orb]. exists (Z.to_nat (z - 1)).
  rewrite Z.mod_small by lia. unfold qn in *. rewrite Nat2Z.inj_succ, Z2Nat.id by lia. refine (conj eq_refl (conj _ (conj _ _))); [lia|lra|].
  replace (Z.succ (z - 1)) with z by lia. lra.
Qed.

Section Draws.
  Context {A : Type}.
  Variables (draw : nat -> nat -> nat) (umax : Z) (functor : list A -> Q) (data : list A) (dflt : A).
  Hypothesis Hdraw : forall k i, draw k i < length data.

  Definition sample_of (k : nat) : list A := map (fun i => nth (draw k i) data dflt) (seq 0 (length data)).

  Lemma makeSample_ok k : makeSample draw data k = Ok (sample_of k).
  Proof.
    unfold makeSample, sample_of. assert (G : forall l acc, foldM (fun sample i => let* x := at_ data (draw k i) in Ok (sample ++ [x])) l acc = Ok (acc ++ map (fun i => nth (draw k i) data dflt) l)).
    { induction l as [|i l IH]; intro acc; cbn [foldM map]; [rewrite app_nil_r; reflexivity|]. unfold at_ at 1. rewrite (nth_error_nth' data dflt) by apply Hdraw. cbn [bind]. rewrite IH, <- app_assoc. reflexivity. }
    apply (G _ []).
  Qed.

  Lemma makeReplicates_ok N : data <> [] -> makeReplicates draw functor N data = Ok (map (fun k => functor (sample_of k)) (seq 0 N)).
  Proof.
    intro Hne. unfold makeReplicates. destruct data as [|a l] eqn:E; [easy|]. rewrite <- E in *. clear E a l.
    assert (G : forall l acc, foldM (fun replicates k => let* sample := makeSample draw data k in Ok (replicates ++ [functor sample])) l acc = Ok (acc ++ map (fun k => functor (sample_of k)) l)).
    { induction l as [|i l IH]; intro acc; cbn [foldM map]; [rewrite app_nil_r; reflexivity|]. rewrite makeSample_ok. cbn [bind]. rewrite IH, <- app_assoc. reflexivity. }
    apply (G _ []).
  Qed.
End Draws.

(** Every replicate is the statistic of as many elements of the data as there are. *)
Theorem C103_replicates : forall {A} draw (functor : list A -> Q) data N, data <> [] -> (forall k i, draw k i < length data) ->
  exists rs, makeReplicates draw functor N data = Ok rs /\ length rs = N /\
    forall k v, nth_error rs k = Some v -> exists sample, v = functor sample /\ length sample = length data /\
      forall i x, nth_error sample i = Some x -> nth_error data (draw k i) = Some x.
Proof.
  intros A draw functor data N Hne Hd. destruct data as [|a0 l0] eqn:E; [easy|]. rewrite <- E in *.
  exists (map (fun k => functor (sample_of draw data a0 k)) (seq 0 N)). refine (conj (makeReplicates_ok draw functor data a0 Hd N Hne) (conj _ _)); [rewrite map_length, seq_length; reflexivity|].
  intros k v Hk. assert (Hlt : k < N) by (rewrite <- (seq_length N 0), <- (map_length (fun k => functor (sample_of draw data a0 k))); apply nth_error_Some; congruence).
  rewrite nth_error_map in Hk. rewrite (nth_error_nth' _ 0) in Hk by (rewrite seq_length; exact Hlt). rewrite seq_nth in Hk by exact Hlt. cbn [option_map Nat.add] in Hk. injection Hk as <-.
  exists (sample_of draw data a0 k). split; [reflexivity|]. unfold sample_of. split; [rewrite map_length, seq_length; reflexivity|].
  intros i x Hi. assert (Hilt : i < length data) by (rewrite <- (seq_length (length data) 0), <- (map_length (fun i => nth (draw k i) data a0)); apply nth_error_Some; congruence).
  rewrite nth_error_map in Hi. rewrite (nth_error_nth' _ 0) in Hi by (rewrite seq_length; exact Hilt). rewrite seq_nth in Hi by exact Hilt. cbn [option_map Nat.add] in Hi. injection Hi as <-.
  apply nth_error_nth'. apply Hd.
Qed.

Theorem C103_empty : forall {A} draw (functor : list A -> Q) N, makeReplicates draw functor N [] = Ok [].
Proof. reflexivity. Qed.

Lemma quantile_at es umax a : 0 < length es -> (Z.of_nat (length es) <= umax)%Z -> (0 < a)%Q -> (a <= 1)%Q ->
  exists i v, index umax (length es) a = Ok i /\ at_ (cpp_sort Qltb es) (Z.to_nat i) = Ok v /\ quantile es a v.
Proof.
  intros H1 H2 H3 H4. destruct (index_spec umax (length es) a H1 H2 H3 H4) as (i & Ei & Hi & I1 & I2).
  destruct (nth_error (cpp_sort Qltb es) i) as [v|] eqn:Ev; [|apply nth_error_None in Ev; rewrite cpp_sort_length in Ev; lia].
  exists (Z.of_nat i), v. refine (conj Ei (conj _ _)); [unfold at_; rewrite Nat2Z.id, Ev; reflexivity|].
  destruct (sorted_counts _ (sorted_Q es) i v Ev) as [C1 C2]. unfold count_le, count_lt in C1, C2. rewrite (filter_perm _ _ _ (cpp_sort_perm Qltb es)) in C1. rewrite (filter_perm _ _ _ (cpp_sort_perm Qltb es)) in C2.
  refine (conj _ (conj _ _)).
  - apply (cpp_sort_In Qltb). eapply nth_error_In. exact Ev.
  - apply Qle_trans with (qn (S i)); [exact I2|]. apply qn_le. exact C1.
  - apply Qle_lt_trans with (qn i); [|exact I1]. apply qn_le. exact C2.
Qed.

Lemma count_split a b es : (a <= b)%Q -> count_le b es = count_lt a es + count_in a b es.
Proof.
  intro H. unfold count_le, count_lt, count_in. induction es as [|x es IH]; [reflexivity|]. cbn [filter].
  destruct (Qle_bool x b) eqn:E1; destruct (Qle_bool a x) eqn:E2; cbn [negb andb length]; try lia.
  exfalso. destruct (Qlt_le_dec x a) as [L|L]; [|apply Qle_bool_iff in L; congruence]. assert (x <= b)%Q by lra. apply Qle_bool_iff in H0. congruence.
Qed.
Lemma count_mono a b es : (a < b)%Q -> count_le a es <= count_lt b es.
Proof.
  intro H. unfold count_le, count_lt. induction es as [|x es IH]; cbn [filter length]; [lia|].
  destruct (Qle_bool x a) eqn:E1; destruct (Qle_bool b x) eqn:E2; cbn [negb length]; try lia. apply Qle_bool_iff in E1, E2. lra.
Qed.

(** The limits are quantiles of the replicates; the interval contains more than the fraction [1 - alpha] of them. *)
Theorem C103_percentile : forall {A} draw umax (functor : list A -> Q) data N alpha, data <> [] -> (forall k i, draw k i < length data) ->
  0 < N -> (Z.of_nat N <= umax)%Z -> (0 < alpha)%Q -> (alpha < 2)%Q ->
  exists es lo up, makeReplicates draw functor N data = Ok es /\ length es = N /\
    percentileConfidenceInterval draw umax functor N alpha data = Ok (lo, up) /\
    basicConfidenceInterval draw umax functor N alpha data = Ok (2 * functor data - up, 2 * functor data - lo)%Q /\
    quantile es (alpha / 2) lo /\ quantile es (1 - alpha / 2) up /\
    ((alpha <= 1)%Q -> (lo <= up)%Q /\ ((1 - alpha) * qn N < qn (count_in lo up es))%Q).
Proof.
  intros A draw umax functor data N alpha Hne Hd HN HU H0 H2. destruct (C103_replicates draw functor data N Hne Hd) as (es & Es & Ls & _).
  assert (A0 : (0 < alpha / 2)%Q) by (apply Qlt_shift_div_l; lra). assert (A1 : (alpha / 2 < 1)%Q) by (apply Qlt_shift_div_r; lra).
  destruct (quantile_at es umax (alpha / 2)%Q) as (i & lo & Ei & El & Ql); [lia|lia|exact A0|lra|].
  destruct (quantile_at es umax (1 - alpha / 2)%Q) as (j & up & Ej & Eu & Qu); [lia|lia|lra|lra|]. rewrite Ls in Ei, Ej.
  exists es, lo, up. refine (conj Es (conj Ls (conj _ (conj _ (conj Ql (conj Qu _)))))).
  - unfold percentileConfidenceInterval. rewrite Es. cbn [bind]. rewrite Ei. cbn [bind]. rewrite El. cbn [bind]. rewrite Ej. cbn [bind]. rewrite Eu. reflexivity.
  - unfold basicConfidenceInterval. rewrite Es. cbn [bind]. rewrite Ei. cbn [bind]. rewrite El. cbn [bind]. rewrite Ej. cbn [bind]. rewrite Eu. reflexivity.
  - intro H1. destruct Ql as (_ & L1 & L2). destruct Qu as (_ & U1 & U2). rewrite Ls in *. assert (PN : (0 < qn N)%Q) by (apply (qn_lt 0); lia).
    assert (Hh : (alpha / 2 <= 1 - alpha / 2)%Q) by (assert (alpha / 2 + alpha / 2 == alpha)%Q by field; lra).
    assert (Hle : (lo <= up)%Q).
    { destruct (Qlt_le_dec up lo) as [L|L]; [|exact L]. exfalso. apply (count_mono up lo es) in L. apply qn_le in L. assert (alpha / 2 * qn N <= (1 - alpha / 2) * qn N)%Q by nra. lra. }
    split; [exact Hle|]. pose proof (count_split lo up es Hle) as E. assert (Q1 : (qn (count_le up es) == qn (count_lt lo es) + qn (count_in lo up es))%Q) by (rewrite E; apply qn_plus).
    assert (D : ((1 - alpha) * qn N == (1 - alpha / 2) * qn N - alpha / 2 * qn N)%Q) by field. lra.
Qed.

(** Without replicates, or for [alpha = 0], there is no such value: the functions throw. *)
Theorem C103_throws : forall {A} draw umax (functor : list A -> Q) data N alpha, (0 < umax)%Z -> (forall k i, data <> [] -> draw k i < length data) -> (Z.of_nat N <= umax)%Z ->
  (0 <= alpha)%Q -> (alpha <= 2)%Q -> N = 0 \/ data = [] \/ (alpha == 0)%Q ->
  percentileConfidenceInterval draw umax functor N alpha data = Throw OutOfRange /\ basicConfidenceInterval draw umax functor N alpha data = Throw OutOfRange.
Proof.
  intros A draw umax functor data N alpha HP Hd HU H0 H2 Hc.
  assert (R : exists es, makeReplicates draw functor N data = Ok es /\ length es <= N /\ (N = 0 \/ data = [] -> es = [])).
  { destruct data as [|a l] eqn:E; [exists []; repeat split; simpl; lia|]. rewrite <- E in *. assert (Hne : data <> []) by (rewrite E; discriminate).
    destruct (C103_replicates draw functor data N Hne (fun k i => Hd k i Hne)) as (es & Es & Ls & _). exists es. refine (conj Es (conj _ _)); [lia|]. intros [->|F]; [destruct es; [reflexivity|discriminate]|contradiction]. }
  destruct R as (es & Es & Ls & Ne).
  assert (A0 : (0 <= alpha / 2)%Q) by (apply Qle_shift_div_l; lra). assert (A1 : (alpha / 2 <= 1)%Q) by (apply Qle_shift_div_r; lra).
  assert (I : exists i, index umax N (alpha / 2) = Ok i /\ (0 <= i)%Z /\ ((alpha == 0)%Q -> i = umax)).
  { unfold index. set (x := (inject_Z (Z.of_nat N) * (alpha / 2))%Q). assert (PN : (0 <= qn N)%Q) by (apply (qn_le 0); lia). unfold qn in PN.
    assert (X0 : (0 <= x)%Q) by (unfold x; nra). assert (X1 : (x <= inject_Z (Z.of_nat N))%Q) by (unfold x; nra).
    apply Qceiling_resp_le in X0, X1. rewrite Qceiling_Z in X1. change (Qceiling 0) with 0%Z in X0.
    destruct (Z.ltb_spec (Qceiling x) 0); [lia|]. destruct (Z.ltb_spec umax (Qceiling x)); [lia|]. cbn [orb]. eexists. split; [reflexivity|]. split; [apply Z.mod_pos_bound; lia|].
    intro Ha. assert (E : (x == 0)%Q) by (unfold x; rewrite Ha; field). rewrite E. change (Qceiling 0) with 0%Z. change (0 - 1)%Z with (-1)%Z.
    replace (-1)%Z with (umax + (-1) * (umax + 1))%Z by ring. rewrite Z.mod_add by lia. apply Z.mod_small. lia. }
  destruct I as (i & Ei & Hi0 & Hi).
  assert (T : at_ (cpp_sort Qltb es) (Z.to_nat i) = Throw OutOfRange).
  { unfold at_. rewrite (proj2 (nth_error_None _ _)); [reflexivity|]. rewrite cpp_sort_length. destruct Hc as [H|[H|H]]; [rewrite Ne by auto; simpl; lia|rewrite Ne by auto; simpl; lia|]. rewrite (Hi H). lia. }
  unfold percentileConfidenceInterval, basicConfidenceInterval. rewrite Es. cbn [bind]. rewrite Ei. cbn [bind]. rewrite T. auto.
Qed.

(** FINDING: for a negative [alpha], the conversion to [unsigned] may be undefined. *)
Theorem C103_conversion_refuted : percentileConfidenceInterval (fun _ _ => 0) 4294967295 (fun l : list Q => nth 0 l 0%Q) 10 (-1) [1%Q] = UB.
Proof. vm_compute. reflexivity. Qed.

Lemma Qdiv_zero (s k : Q) : (0 < k)%Q -> (s / k == 0)%Q -> (s == 0)%Q.
Proof. intros H E. assert (Hs : (s / k * k == s)%Q) by (field; lra). rewrite E in Hs. lra. Qed.
Lemma Qsquare_nonneg (y : Q) : (0 <= y * y)%Q.
Proof. nra. Qed.

(** The square of the standard error is the unbiased sample variance of the replicates. *)
Theorem C103_standard_error : forall {A} draw (functor : list A -> Q) data N, data <> [] -> (forall k i, draw k i < length data) -> 2 <= N ->
  exists es v, makeReplicates draw functor N data = Ok es /\ standardError_sq draw functor N data = Ok v /\
    let mean := (sumQ (fun x => x) es / qn N)%Q in
    (v == sumQ (fun x => (x - mean) * (x - mean)) es / (qn N - 1))%Q /\ (0 <= v)%Q /\ (v == 0 <-> forall x y, In x es -> In y es -> x == y)%Q.
Proof.
  intros A draw functor data N Hne Hd HN. destruct (C103_replicates draw functor data N Hne Hd) as (es & Es & Ls & _). exists es.
  unfold standardError_sq. rewrite Es. cbn [bind]. eexists. split; [reflexivity|]. split; [reflexivity|]. cbv zeta. set (mean := (sumQ (fun x => x) es / qn N)%Q).
  assert (PN : (1 < qn N)%Q) by (change 1%Q with (qn 1); apply qn_lt; lia).
  assert (V : (kahanQ_sorted (map (fun estimate : Q => ((fst (fold_left kahanQ_add es (0, 0)) / inject_Z (Z.of_nat N) - estimate) * (fst (fold_left kahanQ_add es (0, 0)) / inject_Z (Z.of_nat N) - estimate))%Q) es) /
      inject_Z (Z.of_nat N - 1) == sumQ (fun x => (x - mean) * (x - mean)) es / (qn N - 1))%Q).
  { rewrite kahanQ_sum, sumQ_map. assert (D : (inject_Z (Z.of_nat N - 1) == qn N - 1)%Q) by (unfold qn, Z.sub; rewrite inject_Z_plus; reflexivity). rewrite D.
    assert (E : (sumQ (fun x : Q => (fst (fold_left kahanQ_add es (0, 0)) / inject_Z (Z.of_nat N) - x) * (fst (fold_left kahanQ_add es (0, 0)) / inject_Z (Z.of_nat N) - x)) es == sumQ (fun x => (x - mean) * (x - mean)) es)%Q); [|rewrite E; reflexivity].
    apply sumQ_ext. intros x _. rewrite (kahanQ_exact es 0 0) by reflexivity. unfold mean, qn. field. unfold qn in PN. lra. }
  assert (NN : forall l, (0 <= sumQ (fun x => (x - mean) * (x - mean)) l)%Q).
  { induction l as [|x l IH]; [rewrite sumQ_nil; lra|]. rewrite sumQ_cons. pose proof (Qsquare_nonneg (x - mean)). lra. }
  refine (conj V (conj _ _)).
  - rewrite V. apply Qle_shift_div_l; [lra|]. rewrite Qmult_0_l. apply NN.
  - rewrite V. split.
    + intro H. assert (S0 : (sumQ (fun x => (x - mean) * (x - mean)) es == 0)%Q).
      { apply (Qdiv_zero _ (qn N - 1)); [lra|exact H]. }
      assert (G : forall l, (sumQ (fun x => (x - mean) * (x - mean)) l == 0)%Q -> forall x, In x l -> (x == mean)%Q).
      { induction l as [|y l IH]; intros HS x []; rewrite sumQ_cons in HS; specialize (NN l); pose proof (Qsquare_nonneg (y - mean)) as S1.
        - subst y. assert (Hx : ((x - mean) * (x - mean) == 0)%Q) by lra. apply Qmult_integral in Hx. lra.
        - apply IH; [lra|assumption]. }
      intros x y Hx Hy. rewrite (G es S0 x Hx), (G es S0 y Hy). reflexivity.
    + intro H. assert (M : forall x, In x es -> (x == mean)%Q).
      { intros x Hx. unfold mean. assert (G : forall l, incl l es -> (sumQ (fun y => y) l == x * qn (length l))%Q).
        { induction l as [|y l IH]; intro Hl; [rewrite sumQ_nil; unfold qn; simpl; ring|]. rewrite sumQ_cons, IH by (intros z Hz; apply Hl; simpl; auto). assert (Hyx : (y == x)%Q) by (apply H; [apply Hl; left; reflexivity|exact Hx]). 
          change (length (y :: l)) with (1 + length l). rewrite qn_plus. change (qn 1) with 1%Q. rewrite Hyx. ring. }
        rewrite G by apply incl_refl. rewrite Ls. field. lra. }
      assert (S0 : (sumQ (fun x => (x - mean) * (x - mean)) es == 0)%Q).
      { rewrite (sumQ_ext _ (fun _ => 0%Q)); [clear; induction es as [|x l IH]; [reflexivity|rewrite sumQ_cons, IH; ring]|]. intros x Hx. rewrite (M x Hx) at 1. rewrite (M x Hx). ring. }
      rewrite S0. field. lra.
Qed.

Definition qmean (l : list Q) : Q := Qred (fold_right Qplus 0%Q l / qn (length l)).
(** five samples of three numbers *)
Example C103_example :
  let draw k i := (k * i * i + k) mod 3 in
  let data := [1; 2; 6]%Q in
  makeReplicates draw qmean 5 data = Ok [1; 14 # 3; 10 # 3; 1; 14 # 3]%Q /\
  percentileConfidenceInterval draw 4294967295 qmean 5 (1 # 2) data = Ok (1, 14 # 3)%Q /\
  basicConfidenceInterval draw 4294967295 qmean 5 (1 # 2) data = Ok (2 * 3 - (14 # 3), 2 * 3 - 1)%Q.
Proof. vm_compute. repeat split; reflexivity. Qed.

Print Assumptions C103_replicates.
Print Assumptions C103_percentile.
Print Assumptions C103_throws.
Print Assumptions C103_conversion_refuted.
Print Assumptions C103_standard_error.
