(** * The matrix of pairwise distances. *)
From Coq Require Import Reals List Arith Bool ZArith Lia Lra Permutation.
From Verif Require Import Base BaseFacts DualFacts DistanceMatrix.
Import ListNotations.

(** ** specification *)
(** all pairs of positions below [n], each once, in lexicographic order *)
Definition pairs (n : nat) : list (nat * nat) := flat_map (fun i => map (fun j => (i, j)) (seq (S i) (n - S i))) (seq 0 n).
Definition entry (M : list (list R)) (i j : nat) : R := nth j (nth i M []) 0%R.
Definition square (n : nat) (M : list (list R)) : Prop := length M = n /\ forall row, In row M -> length row = n.
(** the numbers of all iterations of the loop, in any order *)
Definition iterations (n : nat) (order : list Z) : Prop := Permutation order (map Z.of_nat (seq 0 (n * (n - 1) / 2))).

(** ** positions of pairs *)
Lemma In_pairs n i j : In (i, j) (pairs n) <-> i < j < n.
Proof.
  unfold pairs. rewrite in_flat_map. split.
  - intros (x & Hx & Hy). apply in_map_iff in Hy. destruct Hy as (y & E & Hy). injection E as -> ->. apply in_seq in Hx, Hy. lia.
  - intros H. exists i. split; [apply in_seq; lia|]. apply in_map_iff. exists j. split; [reflexivity|apply in_seq; lia].
Qed.

Lemma nth_pairs_gen n i j : i < j < n -> forall m s, s + m = n -> s <= i ->
  exists p, nth_error (flat_map (fun i => map (fun j => (i, j)) (seq (S i) (n - S i))) (seq s m)) p = Some (i, j) /\
    2 * p + s * (2 * n - s - 1) = i * (2 * n - i - 1) + 2 * (j - i - 1).
Proof.
  intros H. induction m as [|m IH]; intros s Hs Hi; [lia|]. cbn [seq flat_map].
  assert (L : length (map (fun j => (s, j)) (seq (S s) (n - S s))) = n - S s) by (rewrite map_length, seq_length; reflexivity).
  destruct (Nat.eq_dec s i) as [->|Ne].
  - exists (j - i - 1). rewrite nth_error_app1 by lia. split; [|lia]. rewrite nth_error_map. rewrite (nth_error_nth' _ 0) by (rewrite seq_length; lia). cbn [option_map]. rewrite seq_nth by lia. do 2 f_equal. lia.
  - destruct (IH (S s) ltac:(lia) ltac:(lia)) as (p & Hp & E). exists (n - S s + p). rewrite nth_error_app2 by lia. rewrite L. replace (n - S s + p - (n - S s)) with p by lia. split; [exact Hp|].
    assert (Q : 2 * (n - S s) + s * (2 * n - s - 1) = S s * (2 * n - S s - 1)).
    { destruct (le_lt_dec n (S s)) as [B|B]; [lia|]. replace (2 * n - s - 1) with (S (2 * n - S s - 1)) by lia. rewrite Nat.mul_succ_r. cbn [Nat.mul]. lia. }
    lia.
Qed.
Lemma nth_pairs n i j p : i < j < n -> 2 * p = i * (2 * n - i - 1) + 2 * (j - i - 1) -> nth_error (pairs n) p = Some (i, j).
Proof.
  intros H E. destruct (nth_pairs_gen n i j H n 0 eq_refl ltac:(lia)) as (q & Hq & Eq). unfold pairs. replace p with q by lia. exact Hq.
Qed.
Lemma pairs_length_gen n : forall m s, s + m = n -> 2 * length (flat_map (fun i => map (fun j => (i, j)) (seq (S i) (n - S i))) (seq s m)) = m * (m - 1).
Proof.
  induction m as [|m IH]; intros s Hs; [reflexivity|]. cbn [seq flat_map]. rewrite app_length, map_length, seq_length, Nat.mul_add_distr_l, IH by lia. replace (n - S s) with m by lia. replace (S m - 1) with m by lia. destruct m as [|m]; [lia|]. replace (S m - 1) with m by lia. cbn [Nat.mul]. lia.
Qed.
Lemma pairs_length n : length (pairs n) = n * (n - 1) / 2.
Proof. pose proof (pairs_length_gen n n 0 eq_refl) as H. fold (pairs n) in H. rewrite <- H, Nat.mul_comm, Nat.div_mul by lia. reflexivity. Qed.

(** ** the formula for the row and the column *)
Local Open Scope Z_scope.
Lemma wrap_small x : 0 <= x < size_limit -> wrap x = x.
Proof. apply Z.mod_small. Qed.

Lemma floor_triangular t : 0 <= t -> let j := Int_part (sqrt (IZR (8 * t + 1)) / 2 - 1 / 2) in 0 <= j /\ j * (j + 1) <= 2 * t < (j + 1) * (j + 2).
Proof.
  intros Ht j. destruct (base_Int_part (sqrt (IZR (8 * t + 1)) / 2 - 1 / 2)) as [A B]. fold j in A, B.
  set (s := sqrt (IZR (8 * t + 1))) in *.
  assert (P : (0 <= IZR (8 * t + 1))%R) by (apply IZR_le; lia). assert (S2 : (s * s = IZR (8 * t + 1))%R) by (apply sqrt_sqrt; exact P). assert (S0 : (0 <= s)%R) by apply sqrt_pos.
  assert (S1 : (1 <= s)%R). { rewrite <- sqrt_1. apply sqrt_le_1_alt. apply IZR_le. lia. }
  assert (J0 : 0 <= j). { assert (-1 < j); [|lia]. apply lt_IZR. lra. }
  assert (J0' : (0 <= IZR j)%R) by (apply IZR_le; exact J0).
  split; [exact J0|]. rewrite plus_IZR, mult_IZR in S2. split.
  - assert (G : (IZR j * (IZR j + 1) <= 2 * IZR t)%R).
    { assert (L : (2 * IZR j + 1 <= s)%R) by lra. assert (Q : ((2 * IZR j + 1) * (2 * IZR j + 1) <= s * s)%R) by (apply Rmult_le_compat; lra). lra. }
    apply le_IZR. rewrite !mult_IZR, plus_IZR. exact G.
  - assert (G : (2 * IZR t < (IZR j + 1) * (IZR j + 2))%R).
    { assert (L : (s < 2 * IZR j + 3)%R) by lra. assert (Q : (s * s < (2 * IZR j + 3) * (2 * IZR j + 3))%R) by (apply Rmult_le_0_lt_compat; lra). lra. }
    apply lt_IZR. rewrite !mult_IZR, !plus_IZR. exact G.
Qed.

Lemma even_pred n : exists h, n * (n - 1) = 2 * h.
Proof. destruct (Z.Even_or_Odd n) as [[q ->]|[q ->]]; [exists (q * (2 * q - 1)); ring|exists ((2 * q + 1) * q); ring]. Qed.

Lemma unrank n k : 2 <= n -> 4 * (n * n) < size_limit -> 0 <= k < n * (n - 1) / 2 ->
  exists row, unrank_row n k = Ok row /\ 0 <= row /\ row < unrank_col n k row < n /\ 2 * k = row * (2 * n - row - 1) + 2 * (unrank_col n k row - row - 1).
Proof.
  intros Hn Hs Hk. destruct (even_pred n) as [h Eh]. rewrite Eh in Hk. rewrite Z.mul_comm, Z.div_mul in Hk by lia.
  assert (Hnn : n * n = n * (n - 1) + n) by ring.
  set (t := h - 1 - k). assert (Ht : 0 <= t) by lia. destruct (floor_triangular t Ht) as (J0 & J1 & J2). set (j := Int_part _) in *.
  assert (Jn : j <= n - 2). { destruct (Z_le_gt_dec j (n - 2)) as [L|G]; [exact L|]. exfalso. assert (n * (n - 1) <= j * (j + 1)) by (rewrite (Z.mul_comm n); apply Z.mul_le_mono_nonneg; lia). lia. }
  assert (W1 : wrap (wrap (4 * n) * wrap (n - 1)) = 8 * h).
  { assert (n <= n * n) by (pose proof (Z.mul_le_mono_nonneg_l 1 n n); lia). rewrite (wrap_small (4 * n)) by lia. rewrite (wrap_small (n - 1)) by lia. replace (4 * n * (n - 1)) with (8 * h) by lia. apply wrap_small. lia. }
  assert (Wn : n <= n * n) by (pose proof (Z.mul_le_mono_nonneg_l 1 n n); lia).
  exists (n - 2 - j).
  assert (Erow : unrank_row n k = Ok (n - 2 - j)).
  { unfold unrank_row. rewrite W1. replace (- (8) * IZR k + IZR (8 * h) - 7)%R with (IZR (8 * t + 1)) by (unfold t; rewrite !plus_IZR, !mult_IZR, !minus_IZR; lra).
    destruct (Rlt_dec (IZR (8 * t + 1)) 0) as [L|_]; [apply lt_IZR in L; lia|]. rewrite wrap_small by lia. fold j. destruct (Z.ltb_spec (n - 2 - j) 0); [lia|reflexivity]. }
  destruct (even_pred (j + 2)) as [g Eg]. replace (j + 2 - 1) with (j + 1) in Eg by ring.
  assert (Ecol : unrank_col n k (n - 2 - j) = k + (n - 2 - j) + 1 - h + g).
  { unfold unrank_col. replace (n - (n - 2 - j)) with (j + 2) by ring. rewrite (wrap_small (n - 1)) by lia. rewrite (wrap_small (j + 2)) by lia. replace (j + 2 - 1) with (j + 1) by ring. rewrite (wrap_small (j + 1)) by lia.
    assert (Gs : (j + 2) * (j + 1) <= n * (n - 1)) by (apply Z.mul_le_mono_nonneg; lia).
    rewrite Eh, Eg. rewrite (wrap_small (2 * h)) by lia. rewrite (wrap_small (2 * g)) by lia. rewrite !(Z.mul_comm 2), !Z.div_mul by lia. apply wrap_small. unfold t in *. lia. }
  rewrite Ecol. refine (conj Erow (conj _ (conj _ _))); [lia| |].
  - unfold t in *. replace ((j + 1) * (j + 2)) with ((j + 2) * (j + 1)) in J2 by ring. replace (j * (j + 1)) with ((j + 2) * (j + 1) - 2 * (j + 1)) in J1 by ring. lia.
  - replace ((n - 2 - j) * (2 * n - (n - 2 - j) - 1)) with (n * (n - 1) - (j + 2) * (j + 1)) by ring. lia.
Qed.

(** ** C147 *)
(** The iteration with number [k] belongs to the [k]-th pair. *)
Theorem C147_pairs : forall n k, 4 * (Z.of_nat n * Z.of_nat n) < size_limit -> (k < n * (n - 1) / 2)%nat ->
  exists row, unrank_row (Z.of_nat n) (Z.of_nat k) = Ok row /\ 0 <= row /\ 0 <= unrank_col (Z.of_nat n) (Z.of_nat k) row /\
    nth_error (pairs n) k = Some (Z.to_nat row, Z.to_nat (unrank_col (Z.of_nat n) (Z.of_nat k) row)).
Proof.
  intros n k Hs Hk. assert (H2 : (2 <= n)%nat). { destruct n as [|[|n]]; [cbn in Hk; lia|cbn in Hk; lia|lia]. }
  destruct (unrank (Z.of_nat n) (Z.of_nat k)) as (row & E & R0 & C & Q); [lia|exact Hs| |].
  { split; [lia|]. apply Nat2Z.inj_lt in Hk. rewrite Nat2Z.inj_div, Nat2Z.inj_mul, Nat2Z.inj_sub in Hk by lia. exact Hk. }
  exists row. set (c := unrank_col _ _ _) in *. refine (conj E (conj R0 (conj _ _))); [lia|]. apply nth_pairs; [lia|].
  apply Nat2Z.inj. rewrite Nat2Z.inj_add, !Nat2Z.inj_mul. rewrite !Nat2Z.inj_sub by lia. rewrite Nat2Z.inj_mul, !Z2Nat.id by lia. change (Z.of_nat 2) with 2. change (Z.of_nat 1) with 1. exact Q.
Qed.
Theorem C147_number : forall n, Z.of_nat n * Z.of_nat n < size_limit -> number_of_pairs (Z.of_nat n) = Z.of_nat (length (pairs n)).
Proof.
  intros n Hs. rewrite pairs_length. destruct n as [|n]; [reflexivity|]. unfold number_of_pairs. assert (Z.of_nat (S n) <= Z.of_nat (S n) * Z.of_nat (S n)) by (pose proof (Z.mul_le_mono_nonneg_l 1 (Z.of_nat (S n)) (Z.of_nat (S n))); lia).
  rewrite (wrap_small (Z.of_nat (S n) - 1)) by lia. rewrite wrap_small by (pose proof (Z.mul_nonneg_nonneg (Z.of_nat (S n)) (Z.of_nat (S n) - 1)); lia). rewrite Nat2Z.inj_div, Nat2Z.inj_mul, Nat2Z.inj_sub by lia. reflexivity.
Qed.

Local Open Scope nat_scope.
Section Proof.
  Context {A : Type} (measure : A -> A -> outcome R) (ck ue : bool) (sigma : R) (l : list A) (v : nat -> nat -> R) (n : nat).
  Hypothesis Hn : length l = n.
  Hypothesis Hs : (4 * (Z.of_nat n * Z.of_nat n) < size_limit)%Z.
  Hypothesis Hv : forall i j x y, i < j -> nth_error l i = Some x -> nth_error l j = Some y -> exists d, measure x y = Ok d /\ v i j = kernel_value ck ue sigma d.

  Lemma entry_upd M i j d a b : square n M -> i < n -> j < n -> entry (upd M i (upd (nth i M []) j d)) a b = if (a =? i) && (b =? j) then d else entry M a b.
  Proof.
    intros [L R] Hi Hj. unfold entry. rewrite nth_upd, L. destruct (Nat.ltb_spec i n); [|lia]. rewrite andb_true_r. destruct (Nat.eqb_spec a i) as [->|Ne]; [|reflexivity]. cbn [andb]. rewrite nth_upd. rewrite (R (nth i M [])) by (apply nth_In; lia). destruct (Nat.ltb_spec j n); [|lia]. rewrite andb_true_r. reflexivity.
  Qed.
  Lemma square_upd M i j d : square n M -> i < n -> square n (upd M i (upd (nth i M []) j d)).
  Proof.
    intros [L R] Hi. split; [rewrite upd_length; exact L|]. intros row Hr. apply In_nth_error in Hr. destruct Hr as [k Hk]. destruct (Nat.eq_dec k i) as [->|Ne].
    - rewrite nth_error_upd_eq in Hk by lia. injection Hk as <-. rewrite upd_length. apply R. apply nth_In. lia.
    - rewrite nth_error_upd_neq in Hk by congruence. apply R. apply nth_error_In with k. exact Hk.
  Qed.
  Lemma set_entry_ok M i j d : square n M -> i < n -> j < n -> set_entry M i j d = Ok (upd M i (upd (nth i M []) j d)).
  Proof.
    intros [L R] Hi Hj. unfold set_entry, get_. rewrite (nth_error_nth' M []) by lia. cbn [bind]. rewrite (nth_error_nth' (nth i M []) 0%R) by (rewrite (R (nth i M [])) by (apply nth_In; lia); exact Hj). reflexivity.
  Qed.

  (** one iteration writes the value of its pair *)
  Lemma step_spec M k : square n M -> k < n * (n - 1) / 2 -> exists i j M', nth_error (pairs n) k = Some (i, j) /\ i < j < n /\
    matrix_step measure ck ue sigma l M (Z.of_nat k) = Ok M' /\ square n M' /\
    forall a b, entry M' a b = if (a =? i) && (b =? j) || (a =? j) && (b =? i) then v i j else entry M a b.
  Proof.
    intros SM Hk. destruct (C147_pairs n k Hs Hk) as (row & E & R0 & C0 & N). set (c := unrank_col _ _ _) in *. exists (Z.to_nat row), (Z.to_nat c).
    assert (B : Z.to_nat row < Z.to_nat c < n) by (apply In_pairs; apply nth_error_In with k; exact N). set (i := Z.to_nat row) in *. set (j := Z.to_nat c) in *.
    destruct (nth_error l i) as [x|] eqn:Ex; [|apply nth_error_None in Ex; lia]. destruct (nth_error l j) as [y|] eqn:Ey; [|apply nth_error_None in Ey; lia]. destruct (Hv i j x y ltac:(lia) Ex Ey) as (d & Ed & Ev).
    assert (S1 : square n (upd M i (upd (nth i M []) j (v i j)))) by (apply square_upd; [exact SM|lia]).
    eexists. refine (conj N (conj B (conj _ (conj _ _)))).
    - unfold matrix_step. rewrite Hn, E. cbn [bind]. fold c. fold i j. unfold at_. rewrite Ex. cbn [bind]. rewrite Ey. cbn [bind]. rewrite Ed. cbn [bind]. rewrite <- Ev. rewrite set_entry_ok by (try exact SM; lia). cbn [bind]. apply set_entry_ok; [exact S1|lia|lia].
    - apply square_upd; [exact S1|lia].
    - intros a b. rewrite entry_upd by (try exact S1; lia). rewrite entry_upd by (try exact SM; lia). destruct ((a =? i) && (b =? j)), ((a =? j) && (b =? i)); reflexivity.
  Qed.

  Lemma fold_spec : forall ks M, square n M -> (forall k, In k ks -> k < n * (n - 1) / 2) -> exists M', foldM (matrix_step measure ck ue sigma l) (map Z.of_nat ks) M = Ok M' /\ square n M' /\
    (forall a, entry M' a a = entry M a a) /\
    (forall i j, i < j -> (exists k, In k ks /\ nth_error (pairs n) k = Some (i, j)) -> entry M' i j = v i j /\ entry M' j i = v i j) /\
    (forall i j, i < j -> entry M i j = v i j -> entry M j i = v i j -> entry M' i j = v i j /\ entry M' j i = v i j).
  Proof.
    induction ks as [|k ks IH]; intros M SM Hk; cbn [map foldM].
    - exists M. refine (conj eq_refl (conj SM (conj (fun a => eq_refl) (conj _ _)))); [intros i j _ (k & [] & _)|auto].
    - destruct (step_spec M k SM (Hk k (or_introl eq_refl))) as (i & j & M1 & N & B & E & S1 & En). rewrite E. cbn [bind]. destruct (IH M1 S1 (fun q Hq => Hk q (or_intror Hq))) as (M' & E' & S' & D' & V' & K'). exists M'. refine (conj E' (conj S' (conj _ (conj _ _)))).
      + intro a. rewrite D', En. destruct (Nat.eqb_spec a i) as [->|Ni]; cbn [andb orb]; [destruct (Nat.eqb_spec i j); [lia|]; cbn [andb orb]; reflexivity|]. rewrite andb_false_r. reflexivity.
      + intros a b Hab (q & [<-|Hq] & Nq); [|apply V'; [exact Hab|exists q; auto]]. rewrite N in Nq. injection Nq as -> ->. apply K'; [exact Hab| |]; rewrite En, !Nat.eqb_refl; cbn [andb orb]; [reflexivity|]. rewrite orb_true_r. reflexivity.
      + intros a b Hab E1 E2. apply K'; [exact Hab| |]; rewrite En.
        * destruct ((a =? i) && (b =? j)) eqn:Z1; cbn [orb]; [apply andb_prop in Z1; destruct Z1 as [Z1 Z2]; apply Nat.eqb_eq in Z1, Z2; subst; reflexivity|]. destruct ((a =? j) && (b =? i)) eqn:Z3; [apply andb_prop in Z3; destruct Z3 as [Z3 Z4]; apply Nat.eqb_eq in Z3, Z4; lia|exact E1].
        * destruct ((b =? i) && (a =? j)) eqn:Z1; cbn [orb]; [apply andb_prop in Z1; destruct Z1 as [Z1 Z2]; apply Nat.eqb_eq in Z1, Z2; lia|]. destruct ((b =? j) && (a =? i)) eqn:Z3; [apply andb_prop in Z3; destruct Z3 as [Z3 Z4]; apply Nat.eqb_eq in Z3, Z4; subst; reflexivity|exact E2].
  Qed.

  Lemma zeros_square : square n (repeat (repeat 0%R n) n).
  Proof. split; [apply repeat_length|]. intros row Hr. apply repeat_spec in Hr. subst row. apply repeat_length. Qed.
  Lemma nth_repeat_any {B} (a d : B) : forall k i, nth i (repeat a k) d = a \/ nth i (repeat a k) d = d.
  Proof. induction k as [|k IH]; intros [|i]; cbn; auto. Qed.
  Lemma zeros_entry i j : entry (repeat (repeat 0%R n) n) i j = 0%R.
  Proof. unfold entry. destruct (nth_repeat_any (repeat 0%R n) [] n i) as [-> | ->]; [destruct (nth_repeat_any 0%R 0%R n j) as [-> | ->]; reflexivity|destruct j; reflexivity]. Qed.

  Lemma matrix_spec order : iterations n order -> exists M, distance_matrix measure ck ue sigma l order = Ok M /\ square n M /\ (forall i, entry M i i = 0%R) /\ forall i j, i < j < n -> entry M i j = v i j /\ entry M j i = v i j.
  Proof.
    intro P. assert (exists ks, order = map Z.of_nat ks /\ Permutation ks (seq 0 (n * (n - 1) / 2))) as (ks & -> & Pk).
    { apply Permutation_map_inv in P. destruct P as (ks & E & Pk). exists ks. split; [exact E|apply Permutation_sym; exact Pk]. }
    unfold distance_matrix. rewrite Hn. destruct (fold_spec ks _ zeros_square) as (M & E & SM & D & V & _).
    { intros k Hk. apply (Permutation_in _ Pk) in Hk. apply in_seq in Hk. lia. }
    exists M. refine (conj E (conj SM (conj _ _))).
    - intro i. rewrite D. apply zeros_entry.
    - intros i j B. apply V; [lia|]. apply In_pairs in B. apply In_nth_error in B. destruct B as [k Hk]. exists k. split; [|exact Hk]. apply (Permutation_in _ (Permutation_sym Pk)). apply in_seq. assert (k < length (pairs n)) by (apply nth_error_Some; rewrite Hk; discriminate). rewrite pairs_length in H. lia.
  Qed.
End Proof.

(** Whatever the order of the iterations, the matrix is symmetric, its diagonal is zero, and
    above the diagonal it has the values of the pairs of data sets. *)
Theorem C147_matrix : forall {A} (measure : A -> A -> outcome R) ck ue sigma l order (d : A -> A -> R),
  (4 * (Z.of_nat (length l) * Z.of_nat (length l)) < size_limit)%Z -> iterations (length l) order ->
  (forall x y, In x l -> In y l -> measure x y = Ok (d x y)) ->
  exists M, distance_matrix measure ck ue sigma l order = Ok M /\ square (length l) M /\
    (forall i, entry M i i = 0%R) /\
    forall i j x y, i < j -> nth_error l i = Some x -> nth_error l j = Some y ->
      entry M i j = kernel_value ck ue sigma (d x y) /\ entry M j i = kernel_value ck ue sigma (d x y).
Proof.
  intros A measure ck ue sigma l order d Hs P Hd.
  set (v := fun i j => match nth_error l i, nth_error l j with Some x, Some y => kernel_value ck ue sigma (d x y) | _, _ => 0%R end).
  destruct (matrix_spec measure ck ue sigma l v (length l) eq_refl Hs) with (order := order) as (M & E & SM & D & V); [|exact P|].
  - intros i j x y _ Ex Ey. exists (d x y). split; [apply Hd; [apply nth_error_In with i|apply nth_error_In with j]; assumption|]. unfold v. rewrite Ex, Ey. reflexivity.
  - exists M. refine (conj E (conj SM (conj D _))). intros i j x y Hij Ex Ey. assert (B : j < length l) by (apply nth_error_Some; rewrite Ey; discriminate). destruct (V i j ltac:(lia)) as [V1 V2]. unfold v in V1, V2. rewrite Ex, Ey in V1, V2. split; assumption.
Qed.

(** If no kernel is asked for, and the distance is symmetric and zero for equal data sets, then
    all entries are the distances. *)
Theorem C147_distances : forall {A} (measure : A -> A -> outcome R) ue sigma l order (d : A -> A -> R),
  (4 * (Z.of_nat (length l) * Z.of_nat (length l)) < size_limit)%Z -> iterations (length l) order ->
  (forall x y, In x l -> In y l -> measure x y = Ok (d x y)) -> (forall x y, d x y = d y x) -> (forall x, d x x = 0%R) ->
  exists M, distance_matrix measure false ue sigma l order = Ok M /\ square (length l) M /\
    forall i j x y, nth_error l i = Some x -> nth_error l j = Some y -> entry M i j = d x y.
Proof.
  intros A measure ue sigma l order d Hs P Hd Hsym Hz. destruct (C147_matrix measure false ue sigma l order d Hs P Hd) as (M & E & SM & D & V). exists M. refine (conj E (conj SM _)).
  intros i j x y Ex Ey. destruct (lt_eq_lt_dec i j) as [[L|L]|L].
  - apply (V i j x y L Ex Ey).
  - subst j. rewrite Ex in Ey. injection Ey as <-. rewrite D, Hz. reflexivity.
  - rewrite Hsym. apply (V j i y x L Ey Ex).
Qed.

(** The text has the entries of the matrix in their places. *)
Theorem C147_store : forall n M, square n M -> storeMatrix M = Ok M.
Proof.
  intros n M [L Rw]. destruct M as [|first rest]; [reflexivity|]. unfold storeMatrix. assert (F : length first = n) by (apply Rw; left; reflexivity). rewrite F. clear L F.
  assert (G : forall rows acc : list (list R), (forall row, In row rows -> length row = n) -> foldM (fun out row => let* line := foldM (fun line col => let* x := get_ row col in Ok (line ++ [x])) (seq 0 n) [] in Ok (out ++ [line])) rows acc = Ok (acc ++ rows)).
  { induction rows as [|row rows IH]; intros acc H; cbn [foldM]; [rewrite app_nil_r; reflexivity|].
    assert (K : foldM (fun line col => let* x := get_ row col in Ok (line ++ [x])) (seq 0 n) [] = Ok row).
    { assert (Lr : length row = n) by (apply H; left; reflexivity). assert (I : forall m s pre, s + m = n -> pre = firstn s row -> foldM (fun line col => let* x := get_ row col in Ok (line ++ [x])) (seq s m) pre = Ok row).
      { induction m as [|m IHm]; intros s pre Hsm Hp; cbn [seq foldM]; [subst pre; rewrite firstn_all2 by lia; reflexivity|]. unfold get_ at 1. destruct (nth_error row s) as [x|] eqn:Ex; [|apply nth_error_None in Ex; lia]. cbn [bind]. apply IHm; [lia|]. subst pre. apply nth_error_split in Ex. destruct Ex as (l1 & l2 & -> & <-). rewrite firstn_app, firstn_all, Nat.sub_diag. replace (S (length l1)) with (length l1 + 1) by lia. rewrite firstn_app_2. cbn [firstn]. rewrite app_nil_r. reflexivity. }
      apply (I n 0 []); reflexivity. }
    rewrite K. cbn [bind]. rewrite IH by (intros; apply H; right; assumption). rewrite <- app_assoc. reflexivity. }
  apply (G (first :: rest) [] Rw).
Qed.

Example C147_pairs_example : pairs 4 = [(0, 1); (0, 2); (0, 3); (1, 2); (1, 3); (2, 3)].
Proof. reflexivity. Qed.
(** three data sets, with the iterations in another order *)
Example C147_example : exists M, distance_matrix (fun x y => Ok (Rabs (x - y))) false false 1%R [3; 5; 9]%R [2; 0; 1]%Z = Ok M /\ entry M 0 1 = 2%R /\ entry M 2 0 = 6%R /\ entry M 1 2 = 4%R.
Proof.
  destruct (C147_distances (fun x y => Ok (Rabs (x - y))) false 1%R [3; 5; 9]%R [2; 0; 1]%Z (fun x y => Rabs (x - y))) as (M & E & _ & V).
  - reflexivity.
  - unfold iterations. cbn. apply Permutation_sym. apply (Permutation_trans (l' := [0; 2; 1]%Z)); [repeat constructor|constructor].
  - reflexivity.
  - intros x y. apply Rabs_minus_sym.
  - intro x. rewrite Rminus_diag_eq by reflexivity. apply Rabs_R0.
  - exists M. split; [exact E|]. rewrite (V 0 1 3%R 5%R) by reflexivity. rewrite (V 2 0 9%R 3%R) by reflexivity. rewrite (V 1 2 5%R 9%R) by reflexivity. refine (conj _ (conj _ _)); unfold Rabs; destruct (Rcase_abs _); lra.
Qed.

(** FINDING: the diagonal of a matrix of kernel values is zero as well, although [exp( 0 )] is
    one; with two data sets the matrix is never positive semidefinite. *)
Theorem C147_kernel_refuted : forall {A} (measure : A -> A -> outcome R) sigma x y d, measure x y = Ok d ->
  exists M, distance_matrix measure true true sigma [x; y] [0%Z] = Ok M /\
    entry M 0 0 = 0%R /\ (entry M 0 0 - entry M 0 1 - entry M 1 0 + entry M 1 1 < 0)%R.
Proof.
  intros A measure sigma x y d Hd. set (v := fun i j : nat => kernel_value true true sigma d).
  destruct (matrix_spec measure true true sigma [x; y] v 2 eq_refl ltac:(reflexivity)) with (order := [0%Z]) as (M & E & SM & D & V).
  - intros i j a b Hij Ea Eb. destruct i as [|[|i]]; destruct j as [|[|j]]; try lia; cbn in Ea, Eb; try (destruct j; discriminate); try (destruct i; discriminate). injection Ea as <-. injection Eb as <-. exists d. split; [exact Hd|reflexivity].
  - unfold iterations. cbn. apply Permutation_refl.
  - exists M. destruct (V 0 1 ltac:(lia)) as [V1 V2]. split; [exact E|]. split; [apply D|]. rewrite !D, V1, V2. unfold v, kernel_value. pose proof (exp_pos (sigma * - d)). lra.
Qed.

Print Assumptions C147_pairs.
Print Assumptions C147_number.
Print Assumptions C147_matrix.
Print Assumptions C147_distances.
Print Assumptions C147_store.
Print Assumptions C147_kernel_refuted.
