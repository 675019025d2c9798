(** * C74: distances of vectors and points *)

From Coq Require Import List Arith Bool ZArith Lia.
From Verif Require Import Base BaseFacts SpecVector VectorDistances.
Import ListNotations.

Lemma sum_app (f : nat -> Z) l m : fold_right Z.add 0%Z (map f (l ++ m)) = (fold_right Z.add 0 (map f l) + fold_right Z.add 0 (map f m))%Z.
Proof. induction l as [|x l IH]; cbn [app map fold_right]; [reflexivity|]. rewrite IH. lia. Qed.
Lemma sum_S n f : sum_below (S n) f = (sum_below n f + f n)%Z.
Proof. unfold sum_below. rewrite seq_S, sum_app. cbn [map fold_right plus]. lia. Qed.
Lemma sum_ext n f g : (forall i, i < n -> f i = g i) -> sum_below n f = sum_below n g.
Proof. induction n as [|n IH]; intro H; [reflexivity|]. rewrite !sum_S, IH, H; auto. Qed.
Lemma sum_le n f g : (forall i, i < n -> (f i <= g i)%Z) -> (sum_below n f <= sum_below n g)%Z.
Proof. induction n as [|n IH]; intro H; [unfold sum_below; simpl; lia|]. rewrite !sum_S. specialize (IH ltac:(auto)). specialize (H n ltac:(lia)). lia. Qed.
Lemma sum_plus n f g : sum_below n (fun i => f i + g i)%Z = (sum_below n f + sum_below n g)%Z.
Proof. induction n as [|n IH]; [reflexivity|]. rewrite !sum_S, IH. lia. Qed.
Lemma sum_nonneg n f : (forall i, i < n -> (0 <= f i)%Z) -> (0 <= sum_below n f)%Z.
Proof. induction n as [|n IH]; intro H; [unfold sum_below; simpl; lia|]. rewrite sum_S. specialize (IH ltac:(auto)). specialize (H n ltac:(lia)). lia. Qed.
Lemma sum_zero n f : (forall i, i < n -> (0 <= f i)%Z) -> sum_below n f = 0%Z -> forall i, i < n -> f i = 0%Z.
Proof.
  induction n as [|n IH]; intros H E i Hi; [lia|]. rewrite sum_S in E. pose proof (sum_nonneg n f ltac:(auto)). pose proof (H n ltac:(lia)).
  destruct (Nat.eq_dec i n) as [->|]; [lia|]. apply IH; auto; lia.
Qed.
Lemma sum_mono n m f : n <= m -> (forall i, i < m -> (0 <= f i)%Z) -> (sum_below n f <= sum_below m f)%Z.
Proof. induction 1 as [|m H IH]; intro P; [lia|]. rewrite sum_S. specialize (IH ltac:(auto)). specialize (P m ltac:(lia)). lia. Qed.

Section Loop.
  Variable diff : Z -> Z -> Z.
  Variables a b : list Z.
  Variable n : nat.
  Hypothesis La : n <= length a.
  Hypothesis Lb : n <= length b.
  Let f (i : nat) : Z := diff (entry a i) (entry b i).

  Lemma diff_at_ok i : i < n -> diff_at diff a b i = Ok (f i).
  Proof.
    intro H. unfold diff_at, get_, f, entry. rewrite (nth_error_nth' a 0%Z) by lia. rewrite (nth_error_nth' b 0%Z) by lia. reflexivity.
  Qed.
  Lemma rest_ok : forall fuel i, n - i < fuel -> i <= n -> rest_loop diff a b fuel i n (sum_below i f) = Ok (sum_below n f).
  Proof.
    induction fuel as [|fuel IH]; intros i Hf Hi; [lia|]. cbn [rest_loop]. destruct (Nat.ltb_spec i n) as [L|L].
    - rewrite (diff_at_ok i L). cbn [bind]. rewrite <- sum_S. replace (i + 1) with (S i) by lia. apply IH; lia.
    - replace i with n by lia. reflexivity.
  Qed.
  Lemma group_ok lastGroup worst : (lastGroup <= Z.of_nat n - 3)%Z -> forall fuel i, n - i < fuel -> i <= n ->
    exists early j, group_loop diff a b fuel i lastGroup worst (sum_below i f) = Ok (early, j, sum_below j f) /\ j <= n /\
      (early = true -> (0 < worst < sum_below j f)%Z) .
  Proof.
    intro Hg. induction fuel as [|fuel IH]; intros i Hf Hi; [lia|]. cbn [group_loop]. destruct (Z.ltb_spec (Z.of_nat i) lastGroup) as [L|L].
    - rewrite !diff_at_ok by lia. cbn [bind].
      replace (sum_below i f + (f i + f (i + 1)%nat + f (i + 2)%nat + f (i + 3)%nat))%Z with (sum_below (i + 4) f).
      2:{ replace (i + 4) with (S (S (S (S i)))) by lia. rewrite !sum_S. replace (i + 1) with (S i) by lia. replace (i + 2) with (S (S i)) by lia. replace (i + 3) with (S (S (S i))) by lia. lia. }
      destruct (Z.ltb_spec 0 worst), (Z.ltb_spec worst (sum_below (i + 4) f)); cbn [andb]; try (apply IH; lia).
      exists true, (i + 4). split; [reflexivity|]. split; [lia|]. auto.
    - exists false, i. split; [reflexivity|]. split; [exact Hi|discriminate].
  Qed.
  Lemma distance_ok lastGroup worst : (lastGroup <= Z.of_nat n - 3)%Z -> (forall x y, (0 <= diff x y)%Z) ->
    exists r, distance_loop diff a b n lastGroup worst = Ok r /\ (r <= sum_below n f)%Z /\ (r = sum_below n f \/ (0 < worst < r)%Z).
  Proof.
    intros Hg Hp. unfold distance_loop. change 0%Z with (sum_below 0 f) at 1. destruct (group_ok lastGroup worst Hg (S n) 0 ltac:(lia) ltac:(lia)) as (early & j & E & Hj & He). rewrite E. cbn [bind].
    destruct early.
    - exists (sum_below j f). split; [reflexivity|]. split; [apply sum_mono; [exact Hj|intros i _; apply Hp]|]. right. apply He. reflexivity.
    - exists (sum_below n f). split; [apply rest_ok; lia|]. split; [lia|auto].
  Qed.
End Loop.

(** With no bound ([worst <= 0], the default), the sum of the absolute differences;
    with a bound, possibly a smaller number that is larger than the bound. *)
Theorem C74_manhattan : forall a b n worst, n <= length a -> n <= length b ->
  exists r, manhattan a b n worst = Ok r /\ (r <= l1_distance n a b)%Z /\ (r = l1_distance n a b \/ (0 < worst < r)%Z).
Proof. intros a b n worst La Lb. unfold manhattan. apply distance_ok; auto; [lia|]. intros. lia. Qed.

Lemma differing_sum n a b : differing n a b = sum_below n (fun i => if (entry a i =? entry b i)%Z then 0%Z else 1%Z).
Proof.
  unfold differing. induction n as [|n IH]; [reflexivity|]. rewrite seq_S, filter_app, app_length, sum_S. cbn [filter plus]. rewrite Nat2Z.inj_add, IH.
  destruct (entry a n =? entry b n)%Z; reflexivity.
Qed.
Theorem C74_hamming : forall a b n worst, n <= length a -> n <= length b ->
  exists r, hamming a b n worst = Ok r /\ (r <= differing n a b)%Z /\ (r = differing n a b \/ (0 < worst < r)%Z).
Proof. intros a b n worst La Lb. unfold hamming. rewrite differing_sum. apply distance_ok; auto; [lia|]. intros x y. destruct (x =? y)%Z; lia. Qed.

(** FINDING: the bound is ignored by the Euclidean distance. *)
Theorem C74_euclidean : forall a b n worst, n <= length a -> n <= length b ->
  euclidean a b n worst = Ok (square_distance n a b).
Proof.
  intros a b n worst La Lb. unfold euclidean, distance_loop. cbn [group_loop]. destruct (Z.ltb_spec (Z.of_nat 0) (-3)); [lia|]. cbn [bind].
  change 0%Z with (sum_below 0 (fun i => (entry a i - entry b i) * (entry a i - entry b i))%Z). rewrite (rest_ok (fun x y => (x - y) * (x - y))%Z a b n La Lb) by lia.
  f_equal. apply sum_ext. intros i _. rewrite Z.pow_2_r. reflexivity.
Qed.

(** Fewer entries than the given size: undefined behaviour *)
Theorem C74_short : forall a b n worst, length a < n \/ length b < n ->
  euclidean a b n worst = UB /\ ((worst <= 0)%Z -> manhattan a b n worst = UB /\ hamming a b n worst = UB).
Proof.
  assert (RB : forall diff a b n, length a < n \/ length b < n -> forall fuel i r, n - i < fuel -> i <= length a -> i <= length b -> rest_loop diff a b fuel i n r = UB).
  { intros diff a b n H. induction fuel as [|fuel IH]; intros i r Hf Ha Hb; [lia|]. cbn [rest_loop]. destruct (Nat.ltb_spec i n); [|lia]. unfold diff_at, get_.
    destruct (nth_error a i) eqn:Ea; [|reflexivity]. cbn [bind]. destruct (nth_error b i) eqn:Eb; [|reflexivity]. cbn [bind].
    assert (i < length a) by (apply nth_error_Some; congruence). assert (i < length b) by (apply nth_error_Some; congruence). apply IH; lia. }
  assert (DA : forall diff a b i, (exists d, diff_at diff a b i = Ok d /\ i < length a /\ i < length b) \/ diff_at diff a b i = UB).
  { intros diff a b i. unfold diff_at, get_. destruct (nth_error a i) eqn:Ea; [|right; reflexivity]. destruct (nth_error b i) eqn:Eb; [|right; reflexivity]. left. eexists. split; [reflexivity|]. split; apply nth_error_Some; congruence. }
  assert (GB : forall diff a b n g worst, length a < n \/ length b < n -> (worst <= 0)%Z -> (g <= Z.of_nat n - 3)%Z -> forall fuel i r, n - i < fuel -> i <= length a -> i <= length b ->
    group_loop diff a b fuel i g worst r = UB \/ exists j r', group_loop diff a b fuel i g worst r = Ok (false, j, r') /\ j <= length a /\ j <= length b).
  { intros diff a b n g worst H Hw Hg. induction fuel as [|fuel IH]; intros i r Hf Ha Hb; [lia|]. cbn [group_loop]. destruct (Z.ltb_spec (Z.of_nat i) g); [|right; exists i, r; auto].
    destruct (DA diff a b i) as [(d0 & -> & A0 & B0)| ->]; [|left; reflexivity]. destruct (DA diff a b (i + 1)) as [(d1 & -> & A1 & B1)| ->]; [|left; reflexivity].
    destruct (DA diff a b (i + 2)) as [(d2 & -> & A2 & B2)| ->]; [|left; reflexivity]. destruct (DA diff a b (i + 3)) as [(d3 & -> & A3 & B3)| ->]; [|left; reflexivity].
    cbn [bind]. destruct (Z.ltb_spec 0 worst); [lia|]. cbn [andb]. apply IH; lia. }
  intros a b n worst H. split.
  - unfold euclidean, distance_loop. cbn [group_loop]. destruct (Z.ltb_spec (Z.of_nat 0) (-3)); [lia|]. cbn [bind]. apply RB; auto; lia.
  - intro Hw. assert (X : forall diff, distance_loop diff a b n (Z.of_nat n - 3) worst = UB).
    { intro diff. unfold distance_loop. destruct (GB diff a b n (Z.of_nat n - 3)%Z worst H Hw ltac:(lia) (S n) 0 0%Z ltac:(lia) ltac:(lia) ltac:(lia)) as [->|(j & r' & -> & A & B)]; [reflexivity|]. cbn [bind]. apply RB; auto; lia. }
    split; apply X.
Qed.

(** Manhattan and Hamming distance are metrics *)
Theorem C74_metric : forall n a b c,
  (l1_distance n a b = l1_distance n b a /\ (l1_distance n a b = 0%Z <-> forall i, i < n -> entry a i = entry b i) /\ (l1_distance n a c <= l1_distance n a b + l1_distance n b c)%Z) /\
  (differing n a b = differing n b a /\ (differing n a b = 0%Z <-> forall i, i < n -> entry a i = entry b i) /\ (differing n a c <= differing n a b + differing n b c)%Z).
Proof.
  intros n a b c. rewrite !differing_sum. unfold l1_distance. refine (conj (conj _ (conj _ _)) (conj _ (conj _ _))).
  - apply sum_ext. intros. lia.
  - split.
    + intros E i Hi. pose proof (sum_zero n _ (fun i _ => Z.abs_nonneg _) E i Hi). cbv beta in H. lia.
    + intro H. rewrite (sum_ext n _ (fun _ => 0%Z)); [|intros i Hi; rewrite (H i Hi); lia]. clear. induction n; [reflexivity|]. rewrite sum_S, IHn. reflexivity.
  - rewrite <- sum_plus. apply sum_le. intros. lia.
  - apply sum_ext. intros i _. rewrite Z.eqb_sym. reflexivity.
  - split.
    + intros E i Hi. assert (P : forall j, j < n -> (0 <= (fun j => if (entry a j =? entry b j)%Z then 0 else 1)%Z j)%Z) by (intros j _; cbv beta; destruct (entry a j =? entry b j)%Z; lia).
      pose proof (sum_zero n _ P E i Hi) as Q. cbv beta in Q. destruct (Z.eqb_spec (entry a i) (entry b i)); [auto|discriminate].
    + intro H. rewrite (sum_ext n _ (fun _ => 0%Z)); [|intros i Hi; rewrite (H i Hi), Z.eqb_refl; reflexivity]. clear. induction n; [reflexivity|]. rewrite sum_S, IHn. reflexivity.
  - rewrite <- sum_plus. apply sum_le. intros i _. destruct (Z.eqb_spec (entry a i) (entry c i)), (Z.eqb_spec (entry a i) (entry b i)), (Z.eqb_spec (entry b i) (entry c i)); try lia; try congruence.
Qed.

(** component-wise evaluation, as the kd-trees of FLANN use it *)
Theorem C74_accum : forall a b n,
  sum_below n (fun i => manhattan_accum (entry a i) (entry b i)) = l1_distance n a b /\
  sum_below n (fun i => euclidean_accum (entry a i) (entry b i)) = square_distance n a b.
Proof. intros a b n. split; apply sum_ext; intros i _; [reflexivity|]. unfold euclidean_accum. rewrite Z.pow_2_r. reflexivity. Qed.

(** FINDING: [Hamming::accum_dist] is the Manhattan distance. *)
Theorem C74_hamming_accum_refuted : exists a b, hamming [a] [b] 1 (-1) = Ok 1%Z /\ hamming_accum a b = 5%Z.
Proof. exists 0%Z, 5%Z. split; reflexivity. Qed.

(** FINDING: Manhattan stops when the bound is passed, Euclidean does not. *)
Theorem C74_bound_refuted : exists a b n worst, manhattan a b n worst = Ok 4%Z /\ l1_distance n a b = 8%Z /\
  (0 < worst)%Z /\ euclidean a b n worst = Ok 8%Z.
Proof. exists [0; 0; 0; 0; 0; 0; 0; 0]%Z, [1; 1; 1; 1; 1; 1; 1; 1]%Z, 8, 3%Z. repeat split. Qed.

(** points *)
Theorem C74_points : forall p q,
  euclidean_points p q = ((fst p - fst q) ^ 2 + (snd p - snd q) ^ 2)%Z /\
  infinity_points p q = Z.max (Z.abs (fst p - fst q)) (Z.abs (snd p - snd q)).
Proof.
  intros [x y] [u v]. unfold euclidean_points, infinity_points. cbn [fst snd]. split.
  - rewrite !Z.pow_2_r. destruct (Z.ltb_spec u x), (Z.ltb_spec v y); ring.
  - destruct (Z.leb_spec u x), (Z.leb_spec v y); lia.
Qed.

Example C74_example : manhattan [1; 2; 3; 4; 5]%Z [5; 4; 3; 2; 1]%Z 5 (-1) = Ok 12%Z /\ hamming [1; 2; 3; 4; 5]%Z [5; 4; 3; 2; 1]%Z 5 (-1) = Ok 4%Z /\
  euclidean [1; 2; 3; 4; 5]%Z [5; 4; 3; 2; 1]%Z 5 (-1) = Ok 40%Z.
Proof. repeat split. Qed.

Print Assumptions C74_manhattan.
Print Assumptions C74_hamming.
Print Assumptions C74_euclidean.
Print Assumptions C74_short.
Print Assumptions C74_metric.
Print Assumptions C74_accum.
Print Assumptions C74_hamming_accum_refuted.
Print Assumptions C74_bound_refuted.
Print Assumptions C74_points.
