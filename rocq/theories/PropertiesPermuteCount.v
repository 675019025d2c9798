(** * Final theorems for the numbers of permutations in [math/Combinations.hh]. *)

From Coq Require Import List Arith Bool Lia Permutation Sorted Factorial.
From Verif Require Import Base BaseFacts TopDown CombinationFacts SpecCombine SpecPermute Combine CombineFacts Permute PermuteFacts EnumerateFacts PropertiesCombine TemplateFacts PropertiesPermute.
Import ListNotations.

(** ** numbers *)
Lemma falling_pos k : forall n, k <= n -> 1 <= falling n k.
Proof. induction k as [|k IH]; intros n H; cbn [falling]; [lia|]. specialize (IH (n - 1) ltac:(lia)). nia. Qed.

Lemma falling_ge k n : 1 <= k <= n -> n <= falling n k.
Proof. intro H. destruct k as [|k]; [lia|]. cbn [falling]. pose proof (falling_pos k (n - 1) ltac:(lia)). nia. Qed.

Lemma falling_last k : forall n, falling n (S k) = falling n k * (n - k).
Proof.
  induction k as [|k IH]; intro n; [cbn [falling]; lia|]. change (falling n (S (S k))) with (n * falling (n - 1) (S k)). rewrite IH. cbn [falling]. replace (n - 1 - k) with (n - S k) by lia. lia.
Qed.

Lemma falling_binomial k : forall n, falling n k = binomial n k * fact k.
Proof.
  induction k as [|k IH]; intro n; [rewrite binomial_0; reflexivity|]. rewrite falling_last, IH. destruct (Nat.le_gt_cases k n) as [H|H].
  - pose proof (binomial_step n k H) as E. cbn [fact]. change (fact k + k * fact k) with (S k * fact k). rewrite Nat.mul_assoc, E. lia.
  - replace (n - k) with 0 by lia. rewrite (binomial_large n (S k)) by lia. lia.
Qed.

Lemma falling_fact n : falling n n = fact n.
Proof. rewrite falling_binomial, binomial_diag. lia. Qed.

Lemma falling_split b : forall a n, falling n (a + b) = falling n a * falling (n - a) b.
Proof.
  intros a. induction a as [|a IH]; intro n; cbn [falling Nat.add]; [rewrite Nat.sub_0_r; lia|]. rewrite IH. replace (n - 1 - a) with (n - S a) by lia. lia.
Qed.

Lemma falling_loop_ok max steps : forall n r, 0 < r <= max -> steps <= n ->
  falling_loop max steps n r = if r * falling n steps <=? max then Ok (r * falling n steps) else Throw RuntimeError.
Proof.
  induction steps as [|steps IH]; intros n r Hr Hn; cbn [falling_loop falling].
  - rewrite Nat.mul_1_r. destruct (Nat.leb_spec r max); [reflexivity|lia].
  - pose proof (falling_pos steps (n - 1) ltac:(lia)) as FP. destruct (Nat.ltb_spec (max / n) r) as [Ho|Ho].
    + assert (L : max < r * n). { apply Nat.lt_nge. intro F. assert (r <= max / n) by (apply Nat.div_le_lower_bound; lia). lia. }
      destruct (Nat.leb_spec (r * (n * falling (n - 1) steps)) max); [nia|reflexivity].
    + assert (L : r * n <= max). { pose proof (Nat.mul_div_le max n ltac:(lia)). nia. }
      rewrite IH; [|split; nia|lia]. rewrite Nat.mul_assoc. reflexivity.
Qed.

Lemma binomial_pos n k : k <= n -> 1 <= binomial n k.
Proof. revert k. induction n as [|n IH]; intros [|k] H; cbn [binomial]; try lia. specialize (IH k ltac:(lia)). lia. Qed.

Lemma binomial_ge n k : 1 <= k -> k < n -> n <= binomial n k.
Proof.
  intros H1 H2. destruct (Nat.le_gt_cases (2 * k) n) as [H|H].
  - rewrite <- (binomial_1 n) at 1. apply binomial_mono_le; lia.
  - rewrite binomial_symmetric by lia. rewrite <- (binomial_1 n) at 1. apply binomial_mono_le; lia.
Qed.

(** ** calls *)
Lemma count_visit {A} (l : list (list A)) : forall n, visit (fun n _ => Ok (false, n + 1)) l n = Ok (false, n + length l).
Proof. induction l as [|x l IH]; intro n; cbn [visit bind fst snd length]; [rewrite Nat.add_0_r; reflexivity|]. rewrite IH. f_equal. f_equal. lia. Qed.

Lemma count_calls {A} (a : A) (inner : nat -> list A -> outcome (bool * nat * list A)) k n Z v :
  (forall st w, length w = n -> matches (inner st w) (visit (fun n _ => Ok (false, n + 1)) (map (pick a w) Z) st) w) ->
  (forall z, In z Z -> Permutation z (seq 0 k)) -> length v = n -> k <= n ->
  combine_discontinuous inner k 0 k (n - k) 0 0 v = Ok (false, binomial n k * length Z, v).
Proof.
  intros HI HZ Lv Hk. pose proof (combine_template a inner (fun n _ => Ok (false, n + 1)) k n Z v 0 HI (fun z i Hz Hi => perm_bound k z i (HZ z Hz) Hi) Lv Hk) as M.
  rewrite count_visit, map_length, spread_length in M. exact M.
Qed.

Lemma picks_length {X} (l : list X) : forall U, length (picks_after U l) = length l.
Proof. induction l as [|x l IH]; intro U; cbn [picks_after length]; auto. Qed.

Lemma perms_length {X} n : forall l : list X, length l = n -> length (perms n l) = fact n.
Proof.
  induction n as [|n IH]; intros l L; [reflexivity|]. cbn [perms].
  assert (G : forall ps : list (X * list X), (forall p, In p ps -> length (snd p) = n) -> length (flat_map (fun p => map (cons (fst p)) (perms n (snd p))) ps) = length ps * fact n).
  { induction ps as [|p ps IHp]; intro H; cbn [flat_map length]; [reflexivity|]. rewrite app_length, map_length, IH by (apply H; left; reflexivity). rewrite IHp by (intros q Hq; apply H; right; exact Hq). reflexivity. }
  rewrite G, picks_length, L; [reflexivity|]. intros p Hp. apply picks_perm, Permutation_length in Hp. cbn [length] in Hp. lia.
Qed.

Lemma circles_length k : length (circles k) = fact (k - 1).
Proof. destruct k as [|k]; [reflexivity|]. cbn [circles Nat.sub]. rewrite map_length, perms_length by apply seq_length. rewrite Nat.sub_0_r. reflexivity. Qed.

Lemma palindrome {X} (z : list X) : NoDup z -> z = rev z -> length z <= 1.
Proof.
  intros ND E. destruct z as [|a [|b z]]; cbn [length]; [lia|lia|]. exfalso. cbn [rev] in E. inversion ND; subst.
  destruct (rev z) as [|c r] eqn:Er; cbn [app] in E.
  - injection E as E1 E2. subst. apply H1. left. reflexivity.
  - injection E as E1 _. apply H1. right. apply in_rev. rewrite Er. left. auto.
Qed.

Lemma halves_length X Z : NoDup X -> halves X Z -> (if 2 <=? length X then 2 * length Z else length Z) = fact (length X).
Proof.
  intros ND (Z1 & Z2 & Z3 & Z4). rewrite <- (perms_length (length X) X eq_refl).
  pose proof (perms_NoDup (length X) X eq_refl ND) as PN. destruct (Nat.leb_spec 2 (length X)) as [H|H].
  - replace (2 * length Z) with (length (Z ++ map (@rev nat) Z)) by (rewrite app_length, map_length; lia). apply Permutation_length. apply NoDup_Permutation; auto.
    + apply NoDup_app_disjoint; auto.
      * apply NoDup_map_inj; auto. intros x y _ _ E. rewrite <- (rev_involutive x), E. apply rev_involutive.
      * intros z Hz Hr. apply in_map_iff in Hr. destruct Hr as (y & <- & Hy). pose proof (Z4 y Hy Hz) as E. pose proof (Z2 y Hy) as Py. apply palindrome in E; [apply Permutation_length in Py; lia|].
        eapply Permutation_NoDup; [apply Permutation_sym; exact Py|exact ND].
    + intro z. rewrite in_app_iff, perms_In by reflexivity. split.
      * intros [Hz|Hz]; [auto|]. apply in_map_iff in Hz. destruct Hz as (y & <- & Hy). rewrite <- Permutation_rev. auto.
      * intro Pz. destruct (Z3 z Pz) as [Hz|Hz]; [left; exact Hz|right]. apply in_map_iff. exists (rev z). split; [apply rev_involutive|exact Hz].
  - apply Permutation_length. apply NoDup_Permutation; auto. intro z. rewrite perms_In by reflexivity. split; [auto|]. intro Pz.
    assert (E : rev z = z) by (apply Permutation_length in Pz; destruct z as [|a [|b z]]; cbn [length] in Pz; try lia; reflexivity).
    destruct (Z3 z Pz) as [Hz|Hz]; [exact Hz|rewrite E in Hz; exact Hz].
Qed.

(** C100: the number of arrangements; the exception is thrown exactly if the
    number is not representable, and the number is that of the calls of a
    function object that never returns true. *)
Theorem C100_permutations : forall d1 d2,
  (forall max, 1 <= max -> d1 <= max -> d2 <= max -> count_each_permutation max d1 d2 =
     if falling (d1 + d2) d1 <=? max then Ok (falling (d1 + d2) d1) else Throw RuntimeError) /\
  (forall (A : Type) (v : list A), length v = d1 + d2 ->
     for_each_permutation (fun n _ => Ok (false, n + 1)) d1 0 v = Ok (false, falling (d1 + d2) d1, v)).
Proof.
  intros d1 d2. split.
  - intros max Hm H1 H2. unfold count_each_permutation. destruct (Nat.ltb_spec (max - d2) d1) as [H|H].
    + destruct (Nat.leb_spec (falling (d1 + d2) d1) max) as [F|F]; [|reflexivity]. pose proof (falling_ge d1 (d1 + d2) ltac:(lia)). lia.
    + rewrite falling_loop_ok by lia. rewrite Nat.mul_1_l. reflexivity.
  - intros A v Lv. unfold for_each_permutation. destruct (Nat.ltb_spec (length v) d1); [lia|]. destruct v as [|a v].
    + cbn [length] in *. assert (d1 = 0) by lia. assert (d2 = 0) by lia. subst. reflexivity.
    + rewrite Lv, (count_calls a _ d1 (d1 + d2) (perms d1 (seq 0 d1))); auto; try lia.
      * rewrite perms_length by apply seq_length. rewrite falling_binomial. reflexivity.
      * intros st w Lw. apply (permutation_template (d1 + d2)); auto. lia.
      * intros z Hz. apply perms_In in Hz; [exact Hz|apply seq_length].
Qed.

(** on a circle every arrangement is counted once for its [d1] starting
    positions *)
Theorem C100_circular : forall d1 d2, exists N,
  (d1 = 0 -> N = 1) /\ (0 < d1 -> d1 * N = falling (d1 + d2) d1) /\
  (forall max, 1 <= max -> d1 <= max -> d2 <= max -> count_each_circular_permutation max d1 d2 =
     if N <=? max then Ok N else Throw RuntimeError) /\
  (forall (A : Type) (v : list A), length v = d1 + d2 ->
     for_each_circular_permutation (fun n _ => Ok (false, n + 1)) d1 0 v = Ok (false, N, v)).
Proof.
  intros d1 d2. exists (binomial (d1 + d2) d1 * fact (d1 - 1)). refine (conj _ (conj _ (conj _ _))).
  - intros ->. rewrite binomial_0. reflexivity.
  - intro H. rewrite falling_binomial. destruct d1 as [|d]; [lia|]. cbn [Nat.sub]. rewrite Nat.sub_0_r. change (fact (S d)) with (S d * fact d). lia.
  - intros max Hm H1 H2. unfold count_each_circular_permutation. destruct (Nat.eqb_spec d1 0) as [->|H0].
    { rewrite binomial_0. cbn [Nat.sub fact Nat.mul Nat.add]. destruct (Nat.leb_spec 1 max); [reflexivity|lia]. }
    assert (HB : 1 <= binomial (d1 + d2) d1) by (apply binomial_pos; lia). pose proof (lt_O_fact (d1 - 1)) as HF.
    destruct (Nat.leb_spec d1 d2) as [Hd|Hd].
    + rewrite C65_count by assumption. destruct (Nat.leb_spec (binomial (d1 + d2) d1) max) as [F|F]; cbn [bind].
      * rewrite falling_loop_ok by lia. assert (E : falling (d1 - 1) (d1 - 2) = fact (d1 - 1)).
        { rewrite <- falling_fact. destruct d1 as [|[|d]]; [lia|reflexivity|]. cbn [Nat.sub]. rewrite !Nat.sub_0_r, falling_last. replace (S d - d) with 1 by lia. lia. }
        rewrite E. reflexivity.
      * destruct (Nat.leb_spec (binomial (d1 + d2) d1 * fact (d1 - 1)) max); [nia|reflexivity].
    + destruct (Nat.ltb_spec (max - d2) d1) as [Ho|Ho].
      * assert (G : d1 + d2 <= binomial (d1 + d2) d1) by (apply binomial_ge; lia). destruct (Nat.leb_spec (binomial (d1 + d2) d1 * fact (d1 - 1)) max); [nia|reflexivity].
      * rewrite falling_loop_ok by lia. rewrite Nat.mul_1_l.
        assert (E1 : falling (d1 + d2) d2 = binomial (d1 + d2) d1 * fact d2) by (rewrite falling_binomial, (binomial_symmetric (d1 + d2) d1) by lia; replace (d1 + d2 - d1) with d2 by lia; reflexivity).
        assert (E2 : fact d2 * falling (d1 - 1) (d1 - 1 - d2) = fact (d1 - 1)).
        { rewrite <- (falling_fact (d1 - 1)). replace (d1 - 1) with ((d1 - 1 - d2) + d2) at 4 by lia. rewrite falling_split. replace (d1 - 1 - (d1 - 1 - d2)) with d2 by lia. rewrite falling_fact. lia. }
        pose proof (lt_O_fact d2) as HF2. pose proof (falling_pos (d1 - 1 - d2) (d1 - 1) ltac:(lia)) as HF3.
        assert (E3 : falling (d1 + d2) d2 * falling (d1 - 1) (d1 - 1 - d2) = binomial (d1 + d2) d1 * fact (d1 - 1)) by (rewrite E1, <- Nat.mul_assoc, E2; reflexivity).
        pose proof (falling_pos d2 (d1 + d2) ltac:(lia)) as HF4.
        destruct (Nat.leb_spec (falling (d1 + d2) d2) max) as [F|F]; cbn [bind].
        -- rewrite falling_loop_ok by lia. rewrite E3. reflexivity.
        -- destruct (Nat.leb_spec (binomial (d1 + d2) d1 * fact (d1 - 1)) max); [nia|reflexivity].
  - intros A v Lv. unfold for_each_circular_permutation. destruct (Nat.ltb_spec (length v) d1); [lia|]. destruct v as [|a v].
    + cbn [length] in *. assert (d1 = 0) by lia. assert (d2 = 0) by lia. subst. reflexivity.
    + rewrite Lv, (count_calls a _ d1 (d1 + d2) (circles d1)); auto; try lia.
      * rewrite circles_length. reflexivity.
      * intros st w Lw. apply (circular_template (d1 + d2)); auto. lia.
      * apply circles_perm.
Qed.

(** an arrangement of two elements or more and its reversal are counted once *)
Theorem C100_reversible : forall d1 d2, exists N,
  (d1 <= 1 -> N = falling (d1 + d2) d1) /\ (2 <= d1 -> 2 * N = falling (d1 + d2) d1) /\
  (forall max, 1 <= max -> d1 <= max -> d2 <= max -> count_each_reversible_permutation max d1 d2 =
     if N <=? max then Ok N else Throw RuntimeError) /\
  (forall (A : Type) (v : list A), length v = d1 + d2 ->
     for_each_reversible_permutation (fun n _ => Ok (false, n + 1)) d1 0 v = Ok (false, N, v)).
Proof.
  intros d1 d2. destruct (reversible_template (d1 + d2) d1 ltac:(lia)) as (Z & HZ & HM).
  pose proof (halves_length _ _ (seq_NoDup _ _) HZ) as LZ. rewrite seq_length in LZ. exists (binomial (d1 + d2) d1 * length Z).
  assert (N1 : d1 <= 1 -> binomial (d1 + d2) d1 * length Z = falling (d1 + d2) d1) by (intro H; rewrite falling_binomial, <- LZ; destruct (Nat.leb_spec 2 d1); [lia|reflexivity]).
  assert (N2 : 2 <= d1 -> 2 * (binomial (d1 + d2) d1 * length Z) = falling (d1 + d2) d1) by (intro H; rewrite falling_binomial, <- LZ; destruct (Nat.leb_spec 2 d1); lia).
  refine (conj N1 (conj N2 (conj _ _))).
  - set (N := binomial (d1 + d2) d1 * length Z) in *. clearbody N. clear HM HZ LZ Z. intros max Hm H1 H2. unfold count_each_reversible_permutation. set (n := d1 + d2) in *.
    destruct (Nat.lt_ge_cases d1 2) as [Sm|Lg].
    + rewrite N1 by lia. destruct (Nat.ltb_spec 1 d1); [lia|]. destruct (Nat.ltb_spec (max - d2) d1) as [Ho|Ho].
      * destruct (Nat.leb_spec (falling n d1) max) as [F|F]; [|reflexivity]. pose proof (falling_ge d1 n ltac:(unfold n; lia)). unfold n in *. lia.
      * rewrite falling_loop_ok by (unfold n; lia). rewrite Nat.mul_1_l. reflexivity.
    + specialize (N2 Lg). destruct d1 as [|[|d]]; try lia. assert (FE : falling n (S (S d)) = n * ((n - 1) * falling (n - 2) d)) by (cbn [falling]; replace (n - 1 - 1) with (n - 2) by lia; reflexivity).
      rewrite FE in N2. pose proof (falling_pos d (n - 2) ltac:(unfold n; lia)) as FP. assert (Hn : 2 <= n) by (unfold n; lia).
      destruct (Nat.ltb_spec (max - d2) (S (S d))) as [Ho|Ho].
      * destruct (Nat.leb_spec N max) as [F|F]; [|reflexivity]. exfalso. assert (H3 : 3 <= n) by (unfold n in *; lia). assert (2 * n <= n * ((n - 1) * falling (n - 2) d)) by nia. unfold n in *. lia.
      * destruct (Nat.ltb_spec 1 (S (S d))); [|lia]. cbn [Nat.sub]. rewrite Nat.sub_0_r.
        set (r := if Nat.even n then n / 2 else n). set (t := if Nat.even (n - 1) then (n - 1) / 2 else n - 1).
        assert (ERT : 2 * (r * t) = n * (n - 1) /\ 0 < r /\ 0 < t).
        { unfold r, t. destruct (Nat.even n) eqn:Ev.
          - apply Nat.even_spec in Ev. destruct Ev as (m & Em). assert (O : Nat.even (n - 1) = false) by (rewrite <- Nat.negb_odd; apply negb_false_iff, Nat.odd_spec; exists (m - 1); lia).
            rewrite O. replace (n / 2) with m by (rewrite Em, (Nat.mul_comm 2 m), Nat.div_mul; lia). refine (conj _ (conj _ _)); nia.
          - assert (O : Nat.odd n = true) by (rewrite <- Nat.negb_even, Ev; reflexivity). apply Nat.odd_spec in O. destruct O as (m & Em).
            assert (E : Nat.even (n - 1) = true) by (apply Nat.even_spec; exists m; lia). rewrite E. replace ((n - 1) / 2) with m by (replace (n - 1) with (m * 2) by lia; rewrite Nat.div_mul; lia). refine (conj _ (conj _ _)); nia. }
        destruct ERT as (ERT & Hr & Ht). clearbody r t. assert (EN : N = r * t * falling (n - 2) d) by nia. rewrite EN.
        destruct (Nat.ltb_spec (max / t) r) as [Hx|Hx].
        -- assert (L : max < r * t). { apply Nat.lt_nge. intro F. assert (r <= max / t) by (apply Nat.div_le_lower_bound; lia). lia. }
           destruct (Nat.leb_spec (r * t * falling (n - 2) d) max); [nia|reflexivity].
        -- assert (L : r * t <= max). { pose proof (Nat.mul_div_le max t ltac:(lia)). nia. }
           rewrite falling_loop_ok; [|split; nia|unfold n; lia]. reflexivity.
  - intros A v Lv. unfold for_each_reversible_permutation. destruct (Nat.ltb_spec (length v) d1); [lia|]. destruct v as [|a v].
    + cbn [length] in *. assert (d1 = 0) by lia. assert (d2 = 0) by lia. subst. cbn [fact Nat.leb] in LZ. cbv -[length]. rewrite LZ. reflexivity.
    + rewrite Lv, (count_calls a _ d1 (d1 + d2) Z); auto; try lia. apply HZ.
Qed.

(** an arrangement of three elements or more on a circle is counted once for
    its starting positions and its two directions *)
Theorem C100_reversible_circular : forall d1 d2, exists N,
  (d1 = 0 -> N = 1) /\ (1 <= d1 <= 2 -> d1 * N = falling (d1 + d2) d1) /\ (3 <= d1 -> 2 * d1 * N = falling (d1 + d2) d1) /\
  (forall max, 1 <= max -> d1 <= max -> d2 <= max -> count_each_reversible_circular_permutation max d1 d2 =
     if N <=? max then Ok N else Throw RuntimeError) /\
  (forall (A : Type) (v : list A), length v = d1 + d2 -> v <> [] ->
     for_each_reversible_circular_permutation (fun n _ => Ok (false, n + 1)) d1 0 v = Ok (false, N, v)).
Proof.
  intros d1 d2. exists (binomial (d1 + d2) d1 * (if 3 <? d1 then falling (d1 - 1) (d1 - 3) else 1)).
  assert (HF : 3 <= d1 -> 2 * (if 3 <? d1 then falling (d1 - 1) (d1 - 3) else 1) = fact (d1 - 1)).
  { intro H. destruct (Nat.ltb_spec 3 d1) as [G|G].
    - rewrite <- falling_fact. replace (d1 - 1) with ((d1 - 3) + 2) at 3 by lia. rewrite falling_split. replace (d1 - 1 - (d1 - 3)) with 2 by lia. cbn [falling]. lia.
    - replace d1 with 3 by lia. reflexivity. }
  refine (conj _ (conj _ (conj _ (conj _ _)))).
  - intros ->. rewrite binomial_0. reflexivity.
  - intro H. rewrite (falling_binomial d1 (d1 + d2)). destruct d1 as [|[|[|d]]]; try lia; match goal with |- context [binomial ?x ?y] => set (B := binomial x y); clearbody B end; simpl; lia.
  - intro H. specialize (HF H). rewrite (falling_binomial d1 (d1 + d2)). assert (E : fact d1 = d1 * fact (d1 - 1)) by (destruct d1 as [|d]; [lia|]; cbn [Nat.sub]; rewrite Nat.sub_0_r; reflexivity). rewrite E, <- HF. lia.
  - intros max Hm H1 H2. unfold count_each_reversible_circular_permutation. rewrite C65_count by assumption. pose proof (binomial_pos (d1 + d2) d1 ltac:(lia)) as HB.
    destruct (Nat.leb_spec (binomial (d1 + d2) d1) max) as [F|F]; cbn [bind].
    + destruct (Nat.ltb_spec 3 d1) as [G|G]; [rewrite falling_loop_ok by lia; reflexivity|]. rewrite Nat.mul_1_r. destruct (Nat.leb_spec (binomial (d1 + d2) d1) max); [reflexivity|lia].
    + assert (P : 1 <= (if 3 <? d1 then falling (d1 - 1) (d1 - 3) else 1)) by (destruct (3 <? d1); [apply falling_pos|]; lia).
      destruct (Nat.leb_spec (binomial (d1 + d2) d1 * (if 3 <? d1 then falling (d1 - 1) (d1 - 3) else 1)) max); [nia|reflexivity].
  - intros A v Lv Hv. unfold for_each_reversible_circular_permutation. destruct (Nat.ltb_spec (length v) d1); [lia|]. destruct v as [|a v]; [easy|].
    assert (Hn : 0 < d1 + d2) by (cbn [length] in Lv; lia). destruct (reversible_circular_template (d1 + d2) d1 ltac:(lia) Hn) as (Z & Z1 & Z2 & Z3 & Z4 & HM).
    rewrite Lv, (count_calls a _ d1 (d1 + d2) Z); auto; try lia. f_equal. f_equal. f_equal. f_equal.
    destruct (Nat.eq_dec d1 0) as [->|N0]; [rewrite (Z3 eq_refl); reflexivity|]. destruct (Z4 ltac:(lia)) as (Y & HY & ->). rewrite map_length.
    pose proof (halves_length _ _ (seq_NoDup _ _) HY) as LY. rewrite seq_length in LY. destruct (Nat.leb_spec 2 (d1 - 1)) as [G|G].
    + specialize (HF ltac:(lia)). lia.
    + destruct d1 as [|[|[|d]]]; try lia; cbn [fact Nat.sub Nat.ltb Nat.leb] in *; lia.
Qed.

Example C100_example :
  count_each_permutation 3024 4 5 = Ok 3024 /\ count_each_permutation 3023 4 5 = Throw RuntimeError /\
  count_each_circular_permutation 756 4 5 = Ok 756 /\ count_each_circular_permutation 755 4 5 = Throw RuntimeError /\
  count_each_circular_permutation 255 5 1 = Ok 144 /\
  count_each_reversible_permutation 1512 4 5 = Ok 1512 /\ count_each_reversible_permutation 1511 4 5 = Throw RuntimeError /\
  count_each_reversible_circular_permutation 378 4 5 = Ok 378 /\ count_each_reversible_circular_permutation 377 4 5 = Throw RuntimeError.
Proof. do 8 (split; [vm_compute; reflexivity|]). vm_compute; reflexivity. Qed.

Print Assumptions C96_for_each.
Print Assumptions C97_for_each.
Print Assumptions C98_for_each.
Print Assumptions C99_for_each.
Print Assumptions C99_empty_refuted.
Print Assumptions C100_permutations.
Print Assumptions C100_circular.
Print Assumptions C100_reversible.
Print Assumptions C100_reversible_circular.
