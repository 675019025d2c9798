(** * Final theorems for [math/Combinations.hh]. *)

From Coq Require Import List Arith Bool Lia Sorted ZArith.
From Verif Require Import Base BaseFacts TopDown CombinationFacts SpecCombine Combine CombineFacts.
Import ListNotations.

(** ** order of the combinations *)
Lemma combs_map {A B} (h : A -> B) k : forall l, combs k (map h l) = map (map h) (combs k l).
Proof.
  intro l. revert k. induction l as [|x l IH]; intros [|k]; cbn [map combs]; auto. rewrite !IH, map_app, !map_map. reflexivity.
Qed.

Lemma combs_ordered l : StronglySorted lt l -> forall k, StronglySorted before (combs k l).
Proof.
  induction 1 as [|x l HS IH HF]; intros [|k]; cbn [combs]; try (repeat constructor; fail).
  apply StronglySorted_app. refine (conj _ (conj _ _)).
  - pose proof (IH k) as IHk. clear IH. induction IHk as [|c r Hr IHr HFr]; cbn [map]; constructor; auto.
    apply Forall_forall. intros q Hq. apply in_map_iff in Hq. destruct Hq as (q' & <- & Hq'). rewrite Forall_forall in HFr.
    destruct (HFr q' Hq') as (c0 & a & b & p' & r' & -> & -> & Hab). exists (x :: c0), a, b, p', r'. auto.
  - apply IH.
  - intros p q Hp Hq. apply in_map_iff in Hp. destruct Hp as (p' & <- & Hp'). apply (combs_In l HS) in Hq. destruct Hq as (_ & Lq & Sq).
    destruct q as [|y q]; [discriminate Lq|]. exists [], x, y, p', q. rewrite Forall_forall in HF. specialize (HF y (Sq y (or_introl eq_refl))). auto.
Qed.

Lemma seq_sorted n : forall s, StronglySorted lt (seq s n).
Proof.
  induction n as [|n IH]; intro s; cbn [seq]; constructor; auto. apply Forall_forall. intros x Hx. apply in_seq in Hx. lia.
Qed.

Lemma map_nth_all {A} (a : A) v : map (fun i => nth i v a) (seq 0 (length v)) = v.
Proof.
  induction v as [|x v IH]; [reflexivity|]. cbn [length seq map nth]. f_equal. rewrite <- seq_shift, map_map. exact IH.
Qed.

(** C64: the function object is called once for each combination of [k]
    positions of the vector, in lexicographic order and with the elements in
    the order of their positions; the vector is restored. *)
Theorem C64_for_each : forall (T A : Type) (a : A) (g : T -> list A -> outcome (bool * T)) k st v, k <= length v ->
  exists P, StronglySorted before P /\
    (forall p, In p P <-> StronglySorted lt p /\ length p = k /\ forall i, In i p -> i < length v) /\
    matches (for_each_combination g k st v) (visit g (map (map (fun i => nth i v a)) P) st) v.
Proof.
  intros T A a g k st v Hk. exists (combs k (seq 0 (length v))). refine (conj (combs_ordered _ (seq_sorted _ _) k) (conj _ _)).
  - intro p. rewrite (combs_In _ (seq_sorted _ _)). split; intros (H1 & H2 & C); refine (conj H1 (conj H2 _)); intros i Hi; specialize (C i Hi); [apply in_seq in C; lia|apply in_seq; lia].
  - rewrite <- combs_map, map_nth_all. apply for_each_ok. exact Hk.
Qed.

Example C64_example :
  for_each_combination (fun st l => Ok (false, st ++ [l])) 2 [] [7; 5; 7; 2] =
  Ok (false, [[7; 5]; [7; 7]; [7; 2]; [5; 7]; [5; 2]; [7; 2]], [7; 5; 7; 2]) /\
  for_each_combination (fun st l => Ok (9 =? fold_left Nat.add l 0, st ++ [l])) 2 [] [7; 5; 7; 2] =
  Ok (true, [[7; 5]; [7; 7]; [7; 2]], [7; 2; 5; 7]).
Proof. split; vm_compute; reflexivity. Qed.

(** ** the number of combinations *)
Lemma gcd_loop_ok fuel : forall x y, y <= fuel -> gcd_loop fuel x y = Ok (Nat.gcd x y).
Proof.
  induction fuel as [|fuel IH]; intros x y H; cbn [gcd_loop]; destruct (Nat.eqb_spec y 0) as [->|Hy]; try (rewrite Nat.gcd_0_r; reflexivity); try lia.
  pose proof (Nat.mod_upper_bound x y Hy). rewrite IH by lia. f_equal. rewrite Nat.gcd_comm, Nat.gcd_mod by auto. apply Nat.gcd_comm.
Qed.

Lemma binomial_0 n : binomial n 0 = 1.
Proof. destruct n; reflexivity. Qed.

Lemma binomial_1 n : binomial n 1 = n.
Proof. induction n as [|n IH]; [reflexivity|]. cbn [binomial]. rewrite IH, binomial_0. reflexivity. Qed.

Lemma binomial_large n : forall k, n < k -> binomial n k = 0.
Proof. induction n as [|n IH]; intros [|k] H; try lia; [reflexivity|]. cbn [binomial]. rewrite !IH by lia. reflexivity. Qed.

Lemma binomial_diag n : binomial n n = 1.
Proof. induction n as [|n IH]; [reflexivity|]. cbn [binomial]. rewrite IH, binomial_large by lia. reflexivity. Qed.

Lemma binomial_step n : forall k, k <= n -> binomial n (S k) * S k = binomial n k * (n - k).
Proof.
  induction n as [|n IH]; intros k Hk.
  - replace k with 0 by lia. reflexivity.
  - destruct k as [|k].
    + rewrite binomial_1, binomial_0. lia.
    + destruct (Nat.eq_dec k n) as [->|Hne].
      * rewrite (binomial_large (S n) (S (S n))) by lia. rewrite Nat.sub_diag. lia.
      * cbn [binomial]. pose proof (IH k ltac:(lia)) as H1. pose proof (IH (S k) ltac:(lia)) as H2.
        replace (S n - S k) with (n - k) by lia. replace (n - k) with (S (n - S k)) in * by lia. nia.
Qed.

Lemma binomial_symmetric n : forall k, k <= n -> binomial n k = binomial n (n - k).
Proof.
  induction n as [|n IH]; intros k Hk; [replace k with 0 by lia; reflexivity|].
  destruct k as [|k]; [rewrite binomial_0, Nat.sub_0_r, binomial_diag; reflexivity|].
  destruct (Nat.eq_dec k n) as [->|Hne]; [rewrite Nat.sub_diag, binomial_0, binomial_diag; reflexivity|].
  replace (S n - S k) with (S (n - S k)) by lia. cbn [binomial]. rewrite (IH k), (IH (S k)) by lia.
  replace (S (n - S k)) with (n - k) by lia. lia.
Qed.

Lemma binomial_mono n k : 2 * S k <= n + 1 -> binomial n k <= binomial n (S k).
Proof.
  intro H. pose proof (binomial_step n k ltac:(lia)) as E. destruct (Nat.le_gt_cases (binomial n k) (binomial n (S k))) as [|G]; auto.
  exfalso. assert (binomial n (S k) * S k < binomial n k * S k) by nia. assert (binomial n k * S k <= binomial n k * (n - k)) by nia. lia.
Qed.

Lemma binomial_mono_le n j k : j <= k -> 2 * k <= n + 1 -> binomial n j <= binomial n k.
Proof. induction 1 as [|k Hk IH]; intro H; [lia|]. pose proof (binomial_mono n k ltac:(lia)). specialize (IH ltac:(lia)). lia. Qed.

Lemma count_loop_ok max n0 d1 : 2 * d1 <= n0 -> forall steps k, 2 <= k -> k + steps = d1 + 1 ->
  binomial n0 (k - 1) <= max -> 0 < binomial n0 (k - 1) ->
  count_loop max steps k (n0 - k + 1) (binomial n0 (k - 1)) = if binomial n0 d1 <=? max then Ok (binomial n0 d1) else Throw RuntimeError.
Proof.
  intros Hd. induction steps as [|steps IH]; intros k Hk Hs Hm Hp.
  - cbn [count_loop]. replace d1 with (k - 1) by lia. destruct (Nat.leb_spec (binomial n0 (k - 1)) max); [reflexivity|lia].
  - cbn [count_loop]. set (r := binomial n0 (k - 1)) in *. unfold math_gcd. rewrite gcd_loop_ok by lia. cbn [bind].
    set (g := Nat.gcd r k). set (n := n0 - k + 1). assert (Hn : 0 < n) by (unfold n; lia).
    assert (Hg : g <> 0) by (intro E; apply Nat.gcd_eq_0 in E; lia).
    assert (ES : binomial n0 k * k = r * n).
    { pose proof (binomial_step n0 (k - 1) ltac:(lia)) as E. replace (S (k - 1)) with k in E by lia. rewrite E. unfold r, n. f_equal. lia. }
    destruct (Nat.gcd_divide_l r k) as [a Ha]. destruct (Nat.gcd_divide_r r k) as [b Hb]. fold g in Ha, Hb.
    assert (Ea : r / g = a) by (rewrite Ha; apply Nat.div_mul; auto). assert (Eb : k / g = b) by (rewrite Hb; apply Nat.div_mul; auto).
    assert (Co : Nat.gcd a b = 1) by (rewrite <- Ea, <- Eb; apply Nat.gcd_div_gcd; auto).
    assert (Hb0 : b <> 0) by (intro E; rewrite E in Hb; lia).
    assert (ED : binomial n0 k * b = a * n).
    { apply (Nat.mul_cancel_r _ _ g); auto. rewrite <- Nat.mul_assoc, <- Hb, ES, Ha. ring. }
    destruct (Nat.gauss b a n) as [t Ht]; [exists (binomial n0 k); symmetry; exact ED|rewrite Nat.gcd_comm; exact Co|].
    rewrite Ea, Eb. assert (Et : n / b = t) by (rewrite Ht; apply Nat.div_mul; auto). rewrite Et.
    assert (Ht0 : 0 < t) by (destruct t; [simpl in Ht; lia|lia]).
    assert (EB : a * t = binomial n0 k). { apply (Nat.mul_cancel_r _ _ b); auto. rewrite ED, Ht. lia. }
    destruct (Nat.ltb_spec (max / t) a) as [Ho|Ho].
    + assert (L : max < a * t). { apply Nat.lt_nge. intro F. assert (a <= max / t) by (apply Nat.div_le_lower_bound; lia). lia. }
      pose proof (binomial_mono_le n0 k d1 ltac:(lia) ltac:(lia)). destruct (Nat.leb_spec (binomial n0 d1) max); [lia|reflexivity].
    + assert (L : a * t <= max). { pose proof (Nat.mul_div_le max t ltac:(lia)). nia. }
      rewrite EB. specialize (IH (k + 1) ltac:(lia) ltac:(lia)). replace (k + 1 - 1) with k in IH by lia.
      replace (n - 1) with (n0 - (k + 1) + 1) by (unfold n; lia). apply IH; [lia|]. rewrite <- EB.
      assert (0 < a) by (destruct a; [simpl in Ha; lia|lia]). nia.
Qed.

(** C65: the number of combinations; the exception is thrown exactly if the
    number is not representable. *)
Theorem C65_count : forall max d1 d2, 1 <= max -> d1 <= max -> d2 <= max ->
  count_each_combination max d1 d2 =
  if binomial (d1 + d2) d1 <=? max then Ok (binomial (d1 + d2) d1) else Throw RuntimeError.
Proof.
  intros max d1 d2 Hm H1 H2. unfold count_each_combination.
  assert (G : forall d1 d2, d1 <= d2 -> d2 <= max ->
    (if d1 =? 0 then Ok 1 else if max - d2 <? d1 then Throw RuntimeError else count_loop max (d1 - 1) 2 (d1 + d2 - 1) (d1 + d2)) =
    if binomial (d1 + d2) d1 <=? max then Ok (binomial (d1 + d2) d1) else Throw RuntimeError).
  { clear d1 d2 H1 H2. intros d1 d2 Hd H2. destruct (Nat.eqb_spec d1 0) as [->|Hz].
    - rewrite binomial_0. destruct (Nat.leb_spec 1 max); [reflexivity|lia].
    - pose proof (binomial_mono_le (d1 + d2) 1 d1 ltac:(lia) ltac:(lia)) as M. rewrite binomial_1 in M.
      destruct (Nat.ltb_spec (max - d2) d1) as [Ho|Ho].
      + destruct (Nat.leb_spec (binomial (d1 + d2) d1) max); [lia|reflexivity].
      + pose proof (count_loop_ok max (d1 + d2) d1 ltac:(lia) (d1 - 1) 2 ltac:(lia) ltac:(lia)) as L. simpl Nat.sub in L at 1 2 3 4.
        change (2 - 1) with 1 in L. rewrite binomial_1 in L. replace (d1 + d2 - 2 + 1) with (d1 + d2 - 1) in L by lia. apply L; lia. }
  destruct (Nat.ltb_spec d2 d1) as [Hd|Hd].
  - rewrite G by lia. rewrite (binomial_symmetric (d1 + d2) d1) by lia. rewrite (Nat.add_comm d2 d1). replace (d1 + d2 - d1) with d2 by lia. reflexivity.
  - apply G; lia.
Qed.

(** it is the number of calls of a function object that never returns true *)
Theorem C65_calls : forall (A : Type) k (v : list A), k <= length v ->
  for_each_combination (fun n _ => Ok (false, n + 1)) k 0 v = Ok (false, binomial (length v) k, v).
Proof.
  intros A k v Hk. pose proof (for_each_ok (fun n _ => Ok (false, n + 1)) k v 0 Hk) as H.
  assert (E : forall (l : list (list A)) n, visit (fun n _ => Ok (false, n + 1)) l n = Ok (false, n + length l)).
  { induction l as [|x l IH]; intro n; cbn [visit bind fst snd length]; [rewrite Nat.add_0_r; reflexivity|]. rewrite IH. f_equal. f_equal. lia. }
  rewrite E in H. cbn [matches] in H. rewrite H. cbn [Nat.add]. f_equal. f_equal. f_equal. clear. revert k.
  induction v as [|x v IH]; intros [|k]; cbn [combs binomial length]; auto. rewrite app_length, map_length, !IH. reflexivity.
Qed.

Example C65_example : count_each_combination 255 3 6 = Ok 84 /\ count_each_combination 83 3 6 = Throw RuntimeError /\
  count_each_combination 84 6 3 = Ok 84.
Proof. repeat split; vm_compute; reflexivity. Qed.

Print Assumptions C64_for_each.
Print Assumptions C65_count.
Print Assumptions C65_calls.
