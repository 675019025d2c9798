(** * Estimators of the local dimensionality. *)
From Coq Require Import List Arith Bool ZArith QArith Qabs Lia Lqa Sorted.
From Verif Require Import Base BaseFacts FloydFacts PropertiesWitness SpecCurvature Curvature PropertiesCurvature Statistics PropertiesStatistics PropertiesMeanShift Descriptors.
Import ListNotations.
Local Open Scope nat_scope.

(** the sum of the first [k] distances *)
Definition sum_first (row : list Q) (k : nat) : Q := fold_right Qplus 0%Q (firstn k row).
Definition q_of (n : nat) : Q := inject_Z (Z.of_nat n).

Lemma kahanQ_all_sum l : (kahanQ_all l == fold_right Qplus 0 l)%Q.
Proof. unfold kahanQ_all. rewrite kahanQ_exact by reflexivity. induction l as [|a l IH]; [reflexivity|]. rewrite sumQ_cons. cbn [fold_right]. lra. Qed.
Lemma sum_first_S row k : k < length row -> (sum_first row (S k) == sum_first row k + nth k row 0)%Q.
Proof.
  revert k. induction row as [|a row IH]; intros k Hk; [cbn in Hk; lia|]. unfold sum_first in *. destruct k as [|k]; cbn [firstn fold_right nth]; [destruct row; cbn; ring|]. cbn in Hk. specialize (IH k ltac:(lia)). cbn [firstn] in IH. rewrite IH. ring.
Qed.
Lemma q_of_S n : (q_of (n + 1) == q_of n + 1)%Q.
Proof. unfold q_of. rewrite Nat2Z.inj_add, inject_Z_plus. reflexivity. Qed.
Lemma q_of_pos n : 1 <= n -> (1 <= q_of n)%Q.
Proof. intro H. unfold q_of. change 1%Q with (inject_Z 1). rewrite <- Zle_Qle. lia. Qed.

Lemma sum_first_bound row k : StronglySorted Qle row -> k < length row -> (sum_first row k <= q_of k * nth k row 0)%Q /\ (sum_first row k == q_of k * nth k row 0 -> forall j, (j < k)%nat -> nth j row 0 == nth k row 0)%Q.
Proof.
  intros HS Hk. assert (B : forall m, m <= k -> (sum_first row m <= q_of m * nth k row 0)%Q /\ (sum_first row m == q_of m * nth k row 0 -> forall j, (j < m)%nat -> nth j row 0 == nth k row 0)%Q).
  { assert (Mono : forall i j, i <= j -> j < length row -> (nth i row 0 <= nth j row 0)%Q).
    { clear k Hk. induction HS as [|a l HS IH HF]; intros i j Hij Hj; [cbn in Hj; lia|]. destruct i as [|i], j as [|j]; cbn [nth]; [apply Qle_refl| |lia|apply IH; cbn in Hj; lia]. rewrite Forall_forall in HF. apply HF. apply nth_In. cbn in Hj. lia. }
    induction m as [|m IH]; intro Hm; [change (sum_first row 0) with 0%Q; change (q_of 0) with 0%Q; split; [lra|intros; lia]|]. destruct (IH ltac:(lia)) as [I1 I2]. pose proof (Mono m k ltac:(lia) Hk) as M. pose proof (sum_first_S row m ltac:(lia)) as E. replace (S m) with (m + 1) in * by lia. pose proof (q_of_S m) as EQ. split.
    - rewrite E, EQ. lra.
    - intros Z j Hj. rewrite E, EQ in Z. assert (nth m row 0 == nth k row 0)%Q by lra. destruct (Nat.eq_dec j m) as [->|Hne]; [assumption|]. apply I2; [lra|lia]. }
  apply B. lia.
Qed.

(** The estimate for a point with ascending distances [row]: with the sum [s] of the first [k]
    distances and the next distance [d], it is [( k + 1 ) s / ( k ( k d - s ) )]; it is not
    finite exactly if all the distances are equal. *)
Theorem C114_nn : forall n k distances, 1 <= k -> n <= length distances -> (forall row, In row distances -> k + 1 <= length row /\ StronglySorted Qle row) ->
  exists estimates, dimensionalityNN n k distances = Ok estimates /\ length estimates = n /\
  forall i, i < n -> let row := nth i distances [] in let s := sum_first row k in let d := nth k row 0%Q in
    (nth i estimates None = None /\ forall j, (j < k)%nat -> (nth j row 0 == d)%Q) \/
    exists e, nth i estimates None = Some e /\ (s < q_of k * d)%Q /\ (e == q_of (k + 1) * s / (q_of k * (q_of k * d - s)))%Q /\ ((0 <= s)%Q -> (0 <= e)%Q).
Proof.
  intros n k distances Hk Hn Hrow. unfold dimensionalityNN.
  set (g := fun i => let row := nth i distances [] in match divide (kahanQ_all (firstn k row)) (inject_Z (Z.of_nat k)) with
    | Some r1 => divide r1 ((kahanQ_all (firstn (k + 1) row) / inject_Z (Z.of_nat (k + 1)) - r1) * inject_Z (Z.of_nat k))%Q | None => None end).
  assert (F : forall l, (forall i, In i l -> i < n) -> forall acc, foldM (fun estimates i =>
    let* row := at_ distances i in let* p1 := prefix row k in let* p2 := prefix row (k + 1) in
    let r1 := divide (kahanQ_all p1) (inject_Z (Z.of_nat k)) in let r2 := (kahanQ_all p2 / inject_Z (Z.of_nat (k + 1)))%Q in
    Ok (estimates ++ [match r1 with Some r1 => divide r1 ((r2 - r1) * inject_Z (Z.of_nat k))%Q | None => None end])) l acc = Ok (acc ++ map g l)).
  { induction l as [|i l IH]; intros Hl acc; cbn [foldM map]; [rewrite app_nil_r; reflexivity|]. assert (Hi : i < length distances) by (assert (i < n) by (apply Hl; simpl; auto); lia).
    rewrite (proj2 (at_ok _ _ _) (@nth_error_nth' _ distances i [] Hi)). cbn [bind]. destruct (Hrow (nth i distances []) (nth_In _ _ Hi)) as [L _]. unfold prefix. destruct (Nat.leb_spec k (length (nth i distances []))); [|lia]. cbn [bind]. destruct (Nat.leb_spec (k + 1) (length (nth i distances []))); [|lia]. cbn [bind].
    rewrite IH by (intros; apply Hl; simpl; auto). rewrite <- app_assoc. reflexivity. }
  exists (map g (seq 0 n)). rewrite (F (seq 0 n)) by (intros i Hi; apply in_seq in Hi; lia). refine (conj eq_refl (conj _ _)); [rewrite map_length, seq_length; reflexivity|].
  intros i Hi. cbn zeta. assert (N : nth i (map g (seq 0 n)) None = g i) by (rewrite (nth_indep _ None (g 0)) by (rewrite map_length, seq_length; exact Hi); rewrite (map_nth g), seq_nth by exact Hi; reflexivity). rewrite N. unfold g. cbn zeta.
  destruct (Hrow (nth i distances []) (nth_In _ _ (Nat.lt_le_trans _ _ _ Hi Hn))) as [L SS]. set (row := nth i distances []) in *. clear N. destruct (sum_first_bound row k SS ltac:(lia)) as [B1 B2].
  pose proof (sum_first_S row k ltac:(lia)) as ES. pose proof (q_of_pos k Hk) as Pk. pose proof (q_of_S k) as EQ.
  pose proof (kahanQ_all_sum (firstn k row)) as K1. fold (sum_first row k) in K1. pose proof (kahanQ_all_sum (firstn (k + 1) row)) as K2. fold (sum_first row (k + 1)) in K2. replace (S k) with (k + 1) in ES by lia. rewrite ES in K2.
  fold (q_of k). fold (q_of (k + 1)). set (s := sum_first row k) in *. set (d := nth k row 0%Q) in *. 
  set (x := kahanQ_all (firstn k row)) in *. set (y := kahanQ_all (firstn (k + 1) row)) in *.
  assert (D1 : divide x (q_of k) = Some (x / q_of k)%Q) by (unfold divide; destruct (Qeq_bool (q_of k) 0) eqn:Z; [apply Qeq_bool_iff in Z; lra|reflexivity]). rewrite D1.
  assert (Df : ((y / q_of (k + 1) - x / q_of k) * q_of k == (q_of k * d - s) / q_of (k + 1))%Q). { rewrite K1, K2, EQ. field. split; lra. }
  assert (Pk1 : (0 < q_of (k + 1))%Q) by lra.
  destruct (Qlt_le_dec s (q_of k * d)) as [Lt|Ge].
  - right. unfold divide. destruct (Qeq_bool _ 0) eqn:Z2; [|]. 1: { exfalso. apply Qeq_bool_iff in Z2. idtac. assert (X : (q_of k * d - s == 0)%Q); [|lra]. pose proof (Qeq_trans _ _ _ (Qeq_sym _ _ Df) Z2) as X. rewrite <- (Qmult_0_l (q_of (k + 1))), <- X. field. lra. }
    assert (Ee : (x / q_of k / ((y / q_of (k + 1) - x / q_of k) * q_of k) == q_of (k + 1) * s / (q_of k * (q_of k * d - s)))%Q).
    { rewrite Df, K1. field. refine (conj _ (conj _ _)); lra. }
    eexists. refine (conj eq_refl (conj Lt (conj Ee _))). intro Ps. rewrite Ee. apply Qle_shift_div_l; [nra|]. rewrite Qmult_0_l. nra.
  - left. assert (Eq : (s == q_of k * d)%Q) by lra. split; [|apply B2; exact Eq]. unfold divide. destruct (Qeq_bool _ 0) eqn:Z2; [reflexivity|]. apply Qeq_bool_neq in Z2. exfalso. apply Z2. rewrite Df, Eq. field. lra.
Qed.

(** FINDING: without neighbours, no estimate is finite. *)
Theorem C114_zero_refuted : forall n distances, n <= length distances -> (forall row, In row distances -> row <> []) -> dimensionalityNN n 0 distances = Ok (repeat None n).
Proof.
  intros n distances Hn Hr. unfold dimensionalityNN. assert (F : forall l, (forall i, In i l -> i < n) -> forall acc, foldM (fun estimates i =>
    let* row := at_ distances i in let* p1 := prefix row 0 in let* p2 := prefix row (0 + 1) in
    let r1 := divide (kahanQ_all p1) (inject_Z (Z.of_nat 0)) in let r2 := (kahanQ_all p2 / inject_Z (Z.of_nat (0 + 1)))%Q in
    Ok (estimates ++ [match r1 with Some r1 => divide r1 ((r2 - r1) * inject_Z (Z.of_nat 0))%Q | None => None end])) l acc = Ok (acc ++ repeat None (length l))).
  { induction l as [|i l IH]; intros Hl acc; cbn [foldM repeat length]; [rewrite app_nil_r; reflexivity|]. assert (Hi : i < length distances) by (assert (i < n) by (apply Hl; simpl; auto); lia).
    rewrite (proj2 (at_ok _ _ _) (@nth_error_nth' _ distances i [] Hi)). cbn [bind]. pose proof (Hr _ (nth_In _ [] Hi)) as Ne. destruct (nth i distances []) as [|a row]; [contradiction|]. cbn [prefix length Nat.leb bind Nat.add].
    change (divide (kahanQ_all (firstn 0 (a :: row))) (inject_Z (Z.of_nat 0))) with (@None Q). cbn [bind prefix Nat.leb]. rewrite IH by (intros; apply Hl; simpl; auto). rewrite <- app_assoc. reflexivity. }
  rewrite (F (seq 0 n)) by (intros i Hi; apply in_seq in Hi; lia). rewrite seq_length. reflexivity.
Qed.

Example C114_example : exists e, dimensionalityNN 1 2 [[0; 1; 2]]%Q = Ok [Some e] /\ (e == 1 # 2)%Q.
Proof. eexists. split; reflexivity. Qed.

(** *** the estimator for a range *)
Definition mean_first (row : list Q) (k : nat) : Q := (sum_first row k / q_of k)%Q.

Theorem C114_range : forall n kMin kMax distances, 1 <= kMin <= kMax -> n <= length distances -> (forall row, In row distances -> kMax - 1 <= length row) ->
  exists estimates, dimensionalityRange n kMin kMax distances = Ok estimates /\ length estimates = n /\
  forall i, i < n -> let r := mean_first (nth i distances []) in
    let numerator := sumQ (fun k => (r (S k) - r k) * r k / q_of k)%Q (seq kMin (kMax - 1 - kMin)) in
    let denominator := sumQ (fun k => (r (S k) - r k) * (r (S k) - r k))%Q (seq kMin (kMax - 1 - kMin)) in
    (denominator == 0 /\ nth i estimates None = None)%Q \/ (~ denominator == 0 /\ exists e, nth i estimates None = Some e /\ e == numerator / denominator)%Q.
Proof.
  intros n kMin kMax distances Hk Hn Hrow. unfold dimensionalityRange. destruct (Nat.ltb_spec kMax kMin); [lia|]. destruct (Nat.eqb_spec kMax 0); [lia|]. destruct (Nat.eqb_spec kMin 0); [lia|]. cbn [orb].
  set (le := fun row k => (kahanQ_all (firstn k row) / inject_Z (Z.of_nat k))%Q).
  set (t1 := fun row k => ((le row (S k) - le row k) * le row k / inject_Z (Z.of_nat k))%Q). set (t2 := fun row k => ((le row (S k) - le row k) * (le row (S k) - le row k))%Q).
  set (g := fun i => let row := nth i distances [] in divide (kahanQ_all (map (t1 row) (seq kMin (kMax - 1 - kMin)))) (kahanQ_all (map (t2 row) (seq kMin (kMax - 1 - kMin))))).
  match goal with |- context [foldM ?f _ _] => set (step := f) end.
  assert (ST : forall acc i, i < n -> step acc i = Ok (acc ++ [g i])).
  { intros acc i Hi. unfold step. assert (Hd : i < length distances) by lia. rewrite (proj2 (at_ok _ _ _) (@nth_error_nth' _ distances i [] Hd)). cbn [bind]. pose proof (Hrow _ (nth_In _ [] Hd)) as L. set (row := nth i distances []) in *.
    assert (F1 : forall l, (forall k, In k l -> k < kMax) -> forall acc, foldM (fun l k => let* p := prefix row k in Ok (l ++ [(kahanQ_all p / inject_Z (Z.of_nat k))%Q])) l acc = Ok (acc ++ map (le row) l)).
    { induction l as [|k l IH]; intros Hl acc'; cbn [foldM map]; [rewrite app_nil_r; reflexivity|]. assert (k < kMax) by (apply Hl; simpl; auto). unfold prefix at 1. destruct (Nat.leb_spec k (length row)); [|lia]. cbn [bind]. rewrite IH by (intros; apply Hl; simpl; auto). rewrite <- app_assoc. reflexivity. }
    rewrite F1 by (intros k Hk'; apply in_seq in Hk'; lia). cbn [bind app].
    assert (A : forall k, kMin <= k < kMax -> at_ (map (le row) (seq kMin (kMax - kMin))) (k - kMin) = Ok (le row k)).
    { intros k Hk'. apply at_ok. rewrite nth_error_map, (nth_error_nth' _ 0) by (rewrite seq_length; lia). rewrite seq_nth by lia. cbn [option_map]. f_equal. f_equal. lia. }
    assert (F2 : forall l, (forall k, In k l -> kMin <= k < kMax - 1) -> forall a b, foldM (fun (t : list Q * list Q) k =>
      let index := k - kMin in
      let* r1 := at_ (map (le row) (seq kMin (kMax - kMin))) index in
      let* r2 := at_ (map (le row) (seq kMin (kMax - kMin))) (index + 1) in
      Ok (fst t ++ [((r2 - r1) * r1 / inject_Z (Z.of_nat k))%Q], snd t ++ [((r2 - r1) * (r2 - r1))%Q])) l (a, b) = Ok (a ++ map (t1 row) l, b ++ map (t2 row) l)).
    { induction l as [|k l IH]; intros Hl a b; cbn [foldM map]; [rewrite !app_nil_r; reflexivity|]. assert (kMin <= k < kMax - 1) by (apply Hl; simpl; auto). rewrite A by lia. cbn [bind]. replace (k - kMin + 1) with (S k - kMin) by lia. rewrite A by lia. cbn [bind fst snd]. rewrite IH by (intros; apply Hl; simpl; auto). rewrite <- !app_assoc. reflexivity. }
    rewrite F2 by (intros k Hk'; apply in_seq in Hk'; lia). reflexivity. }
  assert (F : forall l, (forall i, In i l -> i < n) -> forall acc, foldM step l acc = Ok (acc ++ map g l)).
  { induction l as [|i l IH]; intros Hl acc; cbn [foldM map]; [rewrite app_nil_r; reflexivity|]. rewrite ST by (apply Hl; simpl; auto). cbn [bind]. rewrite IH by (intros; apply Hl; simpl; auto). rewrite <- app_assoc. reflexivity. }
  exists (map g (seq 0 n)). rewrite (F (seq 0 n)) by (intros i Hi; apply in_seq in Hi; lia). refine (conj eq_refl (conj _ _)); [rewrite map_length, seq_length; reflexivity|].
  intros i Hi. cbn zeta. assert (N : nth i (map g (seq 0 n)) None = g i) by (rewrite (nth_indep _ None (g 0)) by (rewrite map_length, seq_length; exact Hi); rewrite (map_nth g), seq_nth by exact Hi; reflexivity). rewrite N. unfold g. cbn zeta. clear N F ST.
  set (row := nth i distances []). assert (LE : forall k, (le row k == mean_first row k)%Q) by (intro k; unfold le, mean_first, sum_first, q_of; rewrite kahanQ_all_sum; reflexivity).
  assert (SM : forall (f h : nat -> Q) l, (forall k, f k == h k)%Q -> (kahanQ_all (map f l) == sumQ h l)%Q).
  { intros f h l E. rewrite kahanQ_all_sum. induction l as [|k l IH]; [reflexivity|]. cbn [map fold_right]. rewrite sumQ_cons, IH, E. reflexivity. }
  assert (E1 : forall k, (t1 row k == (mean_first row (S k) - mean_first row k) * mean_first row k / q_of k)%Q) by (intro k; unfold t1; rewrite !LE; reflexivity).
  assert (E2 : forall k, (t2 row k == (mean_first row (S k) - mean_first row k) * (mean_first row (S k) - mean_first row k))%Q) by (intro k; unfold t2; rewrite !LE; reflexivity).
  pose proof (SM _ _ (seq kMin (kMax - 1 - kMin)) E1) as S1. pose proof (SM _ _ (seq kMin (kMax - 1 - kMin)) E2) as S2. unfold divide. destruct (Qeq_bool _ 0) eqn:Z.
  - left. apply Qeq_bool_iff in Z. split; [rewrite <- S2; exact Z|reflexivity].
  - right. apply Qeq_bool_neq in Z. split; [rewrite <- S2; exact Z|]. eexists. split; [reflexivity|]. rewrite S1, S2. reflexivity.
Qed.

(** The order of the two numbers does not matter, and 0 is rejected. *)
Theorem C114_order : forall n a b distances, dimensionalityRange n a b distances = dimensionalityRange n b a distances.
Proof. intros n a b distances. unfold dimensionalityRange. destruct (Nat.ltb_spec b a), (Nat.ltb_spec a b); try lia; try reflexivity. assert (a = b) by lia. subst. reflexivity. Qed.
Theorem C114_throws : forall n a b distances, a = 0 \/ b = 0 -> dimensionalityRange n a b distances = Throw RuntimeError.
Proof. intros n a b distances H. unfold dimensionalityRange. destruct (Nat.ltb_spec b a); destruct (Nat.eqb_spec a 0), (Nat.eqb_spec b 0); try lia; reflexivity. Qed.

(** FINDING: two numbers that differ by at most 1 give no finite estimate. *)
Theorem C114_narrow_refuted : forall n kMin kMax distances, 1 <= kMin <= kMax -> kMax <= kMin + 1 -> n <= length distances -> (forall row, In row distances -> kMax - 1 <= length row) ->
  exists estimates, dimensionalityRange n kMin kMax distances = Ok estimates /\ forall i, i < n -> nth i estimates None = None.
Proof.
  intros n kMin kMax distances Hk Hn Hl Hr. destruct (C114_range n kMin kMax distances Hk Hl Hr) as (estimates & E & _ & H). exists estimates. split; [exact E|]. intros i Hi. specialize (H i Hi). cbn zeta in H.
  replace (kMax - 1 - kMin) with 0 in H by lia. destruct H as [[_ H]|[H _]]; [exact H|]. exfalso. apply H. reflexivity.
Qed.

(** FINDING: although [kMax] neighbours are searched, the last of them has no influence. *)
Theorem C114_last_refuted : forall n kMin kMax distances distances', 1 <= kMin <= kMax -> n <= length distances -> n <= length distances' ->
  (forall row, In row distances -> kMax <= length row) -> (forall row, In row distances' -> kMax <= length row) ->
  (forall i, i < n -> firstn (kMax - 1) (nth i distances []) = firstn (kMax - 1) (nth i distances' [])) ->
  exists e e', dimensionalityRange n kMin kMax distances = Ok e /\ dimensionalityRange n kMin kMax distances' = Ok e' /\
    forall i, i < n -> match nth i e None, nth i e' None with Some x, Some y => (x == y)%Q | None, None => True | _, _ => False end.
Proof.
  intros n kMin kMax D D' Hk Hl Hl' Hr Hr' HP.
  destruct (C114_range n kMin kMax D Hk Hl) as (e & E & _ & H); [intros row R; specialize (Hr row R); lia|].
  destruct (C114_range n kMin kMax D' Hk Hl') as (e' & E' & _ & H'); [intros row R; specialize (Hr' row R); lia|].
  exists e, e'. refine (conj E (conj E' _)). intros i Hi. specialize (H i Hi). specialize (H' i Hi). cbn zeta in H, H'.
  assert (M : forall k, k < kMax -> mean_first (nth i D []) k = mean_first (nth i D' []) k).
  { intros k Hkk. unfold mean_first, sum_first. f_equal. f_equal. replace k with (Nat.min k (kMax - 1)) by lia. rewrite <- !firstn_firstn. rewrite (HP i Hi). reflexivity. }
  assert (Sx : forall (f : Q -> Q -> nat -> Q), sumQ (fun k => f (mean_first (nth i D []) (S k)) (mean_first (nth i D []) k) k) (seq kMin (kMax - 1 - kMin)) = sumQ (fun k => f (mean_first (nth i D' []) (S k)) (mean_first (nth i D' []) k) k) (seq kMin (kMax - 1 - kMin))).
  { intro f. assert (G : forall l, (forall k, In k l -> S k < kMax) -> sumQ (fun k => f (mean_first (nth i D []) (S k)) (mean_first (nth i D []) k) k) l = sumQ (fun k => f (mean_first (nth i D' []) (S k)) (mean_first (nth i D' []) k) k) l).
    { induction l as [|k l IH]; intro Hkl; [reflexivity|]. rewrite !sumQ_cons. assert (S k < kMax) by (apply Hkl; simpl; auto). rewrite !M by lia. rewrite IH by (intros; apply Hkl; simpl; auto). reflexivity. }
    apply G. intros k Hkk. apply in_seq in Hkk. lia. }
  rewrite (Sx (fun a b k => (a - b) * b / q_of k)%Q), (Sx (fun a b k => (a - b) * (a - b))%Q) in H.
  destruct H as [[Z H]|[Z (x & H & X)]], H' as [[Z' H']|[Z' (y & H' & Y)]]; try contradiction; rewrite H, H'; [exact I|]. rewrite X, Y. reflexivity.
Qed.

Example C114_range_example : exists e, dimensionalityRange 1 1 4 [[0; 1; 5; 7]]%Q = Ok [Some e] /\ (e == 3 # 20)%Q.
Proof. eexists. split; reflexivity. Qed.

(** ** C115: the largest spectral gap *)
Definition gap (l : list Q) (j : nat) : Q := Qabs (nth j l 0%Q - nth (S j) l 0%Q).

Lemma skipn_succ {A} : forall (l : list A) i x r, skipn i l = x :: r -> skipn (S i) l = r.
Proof. induction l as [|a l IH]; intros [|i] x r H; cbn in *; try discriminate; [injection H as _ <-; reflexivity|]. apply (IH i x r H). Qed.

Lemma spectral_gap_spec all : forall l prev position best index, all <> [] ->
  skipn position all = prev :: l ->
  (match best with
   | None => position = 0
   | Some h => 1 <= index <= position /\ h = gap all (index - 1) /\ (forall j, j < position -> (gap all j <= h)%Q) /\ (forall j, j < index - 1 -> (gap all j < h)%Q)
   end) -> 2 <= length all ->
  let r := spectral_gap prev l position best index in
  1 <= r < length all /\ (forall j, S j < length all -> (gap all j <= gap all (r - 1))%Q) /\ (forall j, j < r - 1 -> (gap all j < gap all (r - 1))%Q).
Proof.
  induction l as [|curr l IH]; intros prev position best index Hne Hs HB H2; cbn [spectral_gap].
  - assert (Hlen : length all = S position) by (pose proof (f_equal (@length Q) Hs) as L; rewrite skipn_length in L; cbn in L; lia).
    destruct best as [h|]; [|lia]. destruct HB as (B1 & -> & B2 & B3). refine (conj _ (conj _ _)); [lia| |exact B3]. intros j Hj. apply B2. lia.
  - assert (Np : nth position all 0%Q = prev) by (rewrite <- (firstn_skipn position all), app_nth2; rewrite firstn_length_le; try (pose proof (f_equal (@length Q) Hs) as L; rewrite skipn_length in L; cbn in L; lia); rewrite Nat.sub_diag, Hs; reflexivity).
    assert (Nc : nth (S position) all 0%Q = curr) by (rewrite <- (firstn_skipn position all), app_nth2; rewrite firstn_length_le; try (pose proof (f_equal (@length Q) Hs) as L; rewrite skipn_length in L; cbn in L; lia); replace (S position - position) with 1 by lia; rewrite Hs; reflexivity).
    assert (Hs' : skipn (S position) all = curr :: l) by (apply (skipn_succ _ _ _ _ Hs)).
    assert (G : Qabs (prev - curr) = gap all position) by (unfold gap; rewrite Np, Nc; reflexivity).
    assert (New : forall h, (forall j, j < position -> (gap all j <= h)%Q) -> (h < gap all position)%Q -> 1 <= position + 1 <= S position /\ gap all position = gap all (position + 1 - 1) /\ (forall j, j < S position -> (gap all j <= gap all position)%Q) /\ (forall j, j < position + 1 - 1 -> (gap all j < gap all position)%Q)).
    { intros h H1 Hlt. replace (position + 1 - 1) with position by lia. refine (conj _ (conj eq_refl (conj _ _))); [lia| |].
      - intros j Hj. destruct (Nat.eq_dec j position) as [->|Hj']; [apply Qle_refl|]. specialize (H1 j ltac:(lia)). lra.
      - intros j Hj. specialize (H1 j Hj). lra. }
    cbv zeta. rewrite G. destruct best as [h|].
    + destruct HB as (B1 & B0 & B2 & B3). unfold Qltb. destruct (Qle_bool (gap all position) h) eqn:Q; cbn [negb].
      * apply Qle_bool_iff in Q. apply IH; auto. refine (conj _ (conj B0 (conj _ B3))); [lia|]. intros j Hj. destruct (Nat.eq_dec j position) as [->|Hj']; [exact Q|apply B2; lia].
      * assert (Lt : (h < gap all position)%Q) by (apply Qnot_le_lt; intro F; apply Qle_bool_iff in F; congruence). apply IH; auto. apply (New h); assumption.
    + subst position. apply IH; auto. apply (New (gap all 0 - 1)%Q); [intros; lia|lra].
Qed.

(** The estimate is the number of singular values before the first of the largest gaps. *)
Theorem C115_gap : forall spectra, exists used, used = filter (fun s => 2 <=? length s) spectra /\
  length (dimensionalityPCA spectra) = length used /\
  forall i s, nth_error used i = Some s -> exists r, nth_error (dimensionalityPCA spectra) i = Some r /\
    1 <= r < length s /\ (forall j, S j < length s -> (gap s j <= gap s (r - 1))%Q) /\ (forall j, j < r - 1 -> (gap s j < gap s (r - 1))%Q).
Proof.
  intro spectra. exists (filter (fun s => 2 <=? length s) spectra). refine (conj eq_refl _).
  assert (E : forall l acc, fold_left (fun estimates s => match s with prev :: curr :: t => estimates ++ [spectral_gap prev (curr :: t) 0 None 0] | _ => estimates end) l acc
    = acc ++ map (fun s => match s with prev :: t => spectral_gap prev t 0 None 0 | [] => 0 end) (filter (fun s => 2 <=? length s) l)).
  { induction l as [|s l IH]; intro acc; cbn [fold_left filter map]; [rewrite app_nil_r; reflexivity|]. rewrite IH. destruct s as [|a [|b s]]; cbn [length Nat.leb map]; try reflexivity. rewrite <- app_assoc. reflexivity. }
  unfold dimensionalityPCA. rewrite E. cbn [app]. rewrite map_length. refine (conj eq_refl _). intros i s Hi. rewrite nth_error_map, Hi. cbn [option_map]. eexists. refine (conj eq_refl _).
  pose proof (nth_error_In _ _ Hi) as Hin. apply filter_In in Hin. destruct Hin as [_ Hin]. apply Nat.leb_le in Hin. destruct s as [|a s]; [cbn in Hin; lia|]. apply (spectral_gap_spec (a :: s)); [discriminate|reflexivity|reflexivity|exact Hin].
Qed.

(** FINDING: points with fewer than two singular values have no estimate, so that the
    estimates do not belong to the points in order. *)
Theorem C115_missing_refuted : exists spectra, length spectra = 2 /\ dimensionalityPCA spectra = [1].
Proof. exists [[1]; [3; 1]]%Q. split; reflexivity. Qed.

Example C115_example : dimensionalityPCA [[9; 8; 3; 2]; [5; 4; 3]]%Q = [2; 1].
Proof. reflexivity. Qed.

Print Assumptions C114_nn.
Print Assumptions C114_zero_refuted.
Print Assumptions C114_range.
Print Assumptions C114_order.
Print Assumptions C114_throws.
Print Assumptions C114_narrow_refuted.
Print Assumptions C114_last_refuted.
Print Assumptions C115_gap.
Print Assumptions C115_missing_refuted.
