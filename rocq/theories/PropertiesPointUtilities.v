(** * Points, checks of values and formatted numbers (C137) *)
From Coq Require Import String Ascii List Arith Bool NArith ZArith Lia Permutation Sorted.
From Coq Require DecimalZ.
From Verif Require Import Base BaseFacts SpecText LoadMatrix LoadFacts StringUtilities PropertiesString DiagramIO PropertiesJSON Pajek PropertiesPajek Gml PropertiesGml PointUtilities.
Import ListNotations.
Local Open Scope list_scope.
Local Open Scope Z_scope.

(** ** Points *)
Definition coordinates_before (a b : list Z) : Prop := exists p c d s t, (a = p /\ b = p ++ d :: t) \/ (a = p ++ c :: s /\ b = p ++ d :: t /\ c < d).
Theorem C137_equal :
  (forall a b, length a = length b -> exists r, point_eqb a b = Ok r /\ (r = true <-> a = b)) /\
  (forall a b r, point_eqb a b = Ok r -> point_neqb a b = Ok (negb r)) /\
  (* in general, a common prefix is compared *)
  (forall a b, point_eqb a b = Ok true <-> exists t, b = a ++ t) /\
  (forall a b, point_eqb a b = UB <-> exists x t, a = b ++ x :: t).
Proof.
  assert (H1 : forall a b, point_eqb a b = Ok true <-> exists t, b = a ++ t).
  { induction a as [|x a IH]; intros b; cbn [point_eqb]; [split; [exists b; reflexivity|reflexivity]|]. destruct b as [|y b]; [split; [discriminate|intros [t E]; discriminate]|]. destruct (Z.eqb_spec x y) as [->|Ne].
    - rewrite IH. split; intros [t E]; exists t; [rewrite E; reflexivity|injection E as ->; reflexivity].
    - split; [discriminate|intros [t E]; injection E; congruence]. }
  assert (H2 : forall a b, point_eqb a b = UB <-> exists x t, a = b ++ x :: t).
  { induction a as [|x a IH]; intros b; cbn [point_eqb]; [split; [discriminate|intros (x & t & E); destruct b; discriminate]|]. destruct b as [|y b]; [split; [exists x, a; reflexivity|reflexivity]|]. destruct (Z.eqb_spec x y) as [->|Ne].
    - rewrite IH. split; intros (z & t & E); exists z, t; [rewrite E; reflexivity|injection E as ->; reflexivity].
    - split; [discriminate|intros (z & t & E); injection E; congruence]. }
  refine (conj _ (conj _ (conj H1 H2))).
  - intros a b HL. destruct (point_eqb a b) as [r|e| |] eqn:E.
    + exists r. split; [reflexivity|]. destruct r; split; intro X; try reflexivity; try discriminate.
      * apply H1 in E. destruct E as [t ->]. rewrite app_length in HL. destruct t; [rewrite app_nil_r; reflexivity|cbn in HL; lia].
      * subst b. assert (Y : point_eqb a a = Ok true) by (apply H1; exists []; rewrite app_nil_r; reflexivity). congruence.
    + exfalso. revert b HL E. induction a as [|x a IH]; intros [|y b] HL E; cbn [point_eqb] in E; try discriminate. destruct (x =? y); [apply (IH b); [cbn in HL; lia|exact E]|discriminate].
    + apply H2 in E. destruct E as (x & t & ->). rewrite app_length in HL. cbn in HL. lia.
    + exfalso. revert b HL E. induction a as [|x a IH]; intros [|y b] HL E; cbn [point_eqb] in E; try discriminate. destruct (x =? y); [apply (IH b); [cbn in HL; lia|exact E]|discriminate].
  - intros a b r E. unfold point_neqb. rewrite E. reflexivity.
Qed.
Theorem C137_less :
  (forall a b, point_ltb a b = true <-> coordinates_before a b) /\
  (forall a, point_ltb a a = false) /\ (forall a b c, point_ltb a b = true -> point_ltb b c = true -> point_ltb a c = true) /\
  (forall a b, point_ltb a b = true \/ a = b \/ point_ltb b a = true).
Proof.
  assert (H1 : forall a b, point_ltb a b = true <-> coordinates_before a b).
  { induction a as [|x a IH]; intros [|y b]; cbn [point_ltb].
    - split; [discriminate|]. intros (p & c & d & s & t & [[_ E]|(_ & E & _)]); destruct p; discriminate.
    - split; [|reflexivity]. intros _. exists [], 0, y, [], b. left. auto.
    - split; [discriminate|]. intros (p & c & d & s & t & [[_ E]|(_ & E & _)]); destruct p; discriminate.
    - destruct (Z.ltb_spec x y) as [Lt|Ge]; [split; [|reflexivity]; intros _; exists [], x, y, a, b; right; auto|]. destruct (Z.ltb_spec y x) as [Lt'|Ge'].
      + split; [discriminate|]. intros (p & c & d & s & t & [[E1 E2]|(E1 & E2 & L)]); destruct p as [|z p]; try discriminate E1; cbn [app] in *; injection E1; injection E2; intros; subst; lia.
      + assert (x = y) by lia. subst y. rewrite IH. split.
        * intros (p & c & d & s & t & [[-> ->]|(-> & -> & L)]); exists (x :: p), c, d, s, t; [left; auto|right; auto].
        * intros (p & c & d & s & t & [[E1 E2]|(E1 & E2 & L)]); destruct p as [|z p]; try discriminate E1; cbn [app] in *; injection E1; injection E2; intros; subst; try lia; exists p, c, d, s, t; [left; auto|right; auto]. }
  refine (conj H1 (conj _ (conj _ _))).
  - induction a as [|x a IH]; [reflexivity|]. cbn [point_ltb]. rewrite Z.ltb_irrefl. exact IH.
  - clear H1. induction a as [|x a IH]; intros [|y b] [|z c]; cbn [point_ltb]; try discriminate; try reflexivity.
    destruct (Z.ltb_spec x y), (Z.ltb_spec y x), (Z.ltb_spec y z), (Z.ltb_spec z y), (Z.ltb_spec x z), (Z.ltb_spec z x); try reflexivity; try discriminate; try lia. apply IH.
  - clear H1. induction a as [|x a IH]; intros [|y b]; cbn [point_ltb]; auto. destruct (Z.ltb_spec x y), (Z.ltb_spec y x); auto; try lia. assert (x = y) by lia. subst y. destruct (IH b) as [X|[->|X]]; auto.
Qed.
(** the text consists of the coordinates, with single spaces between them *)
Fixpoint joined (l : list str) : str := match l with [] => [] | [s] => s | s :: l => s ++ " "%char :: joined l end.
Theorem C137_text show p : point_text show p = joined (map show p).
Proof.
  unfold point_text. destruct p as [|x p]; [reflexivity|]. cbn [fold_left map app]. change (show x) with ([] ++ show x) at 1.
  assert (G : forall p acc x, fst (fold_left (fun st y => let '(o, first) := st in (o ++ (if first : bool then [] else chars " ") ++ show y, false)) p (acc ++ show x, false)) = acc ++ joined (show x :: map show p)).
  { clear. induction p as [|y p IH]; intros acc x; [reflexivity|]. cbn [fold_left map]. replace ((acc ++ show x) ++ chars " " ++ show y) with ((acc ++ show x ++ [" "%char]) ++ show y) by (rewrite <- !app_assoc; reflexivity). rewrite IH. cbn [joined map]. rewrite <- !app_assoc. reflexivity. }
  exact (G p [] x).
Qed.

(** ** Wrappers *)
Theorem C137_wrapper metric from : (forall a b, length a = length b -> wrapper metric from a b = Ok (from (metric (combine a b)))) /\
  (forall a b t, length a = length b -> wrapper metric from a (b ++ t) = wrapper metric from a b) /\ (forall a b, (length b < length a)%nat -> wrapper metric from a b = UB).
Proof.
  assert (T : forall a b t, length a = length b -> take_both (length a) a (b ++ t) = Ok (combine a b)).
  { induction a as [|x a IH]; intros [|y b] t H; cbn [length] in H; try discriminate; cbn [length take_both app combine]; [reflexivity|]. rewrite IH by lia. reflexivity. }
  unfold wrapper. refine (conj _ (conj _ _)).
  - intros a b H. rewrite <- (app_nil_r b) at 1. rewrite T by exact H. reflexivity.
  - intros a b t H. rewrite T by exact H. rewrite <- (app_nil_r b) at 2. rewrite T by exact H. reflexivity.
  - intros a b H. assert (E : take_both (length a) a b = UB). { revert b H. induction a as [|x a IH]; intros [|y b] H; cbn [length] in H; try lia; cbn [length take_both]; [reflexivity|]. rewrite IH by lia. reflexivity. } rewrite E. reflexivity.
Qed.

(** ** Values *)
Theorem C137_values :
  (forall x lower upper, ensureRange x lower upper = Ok tt /\ lower <= x <= upper \/ ensureRange x lower upper = Throw OutOfRange /\ ~ lower <= x <= upper) /\
  (forall x lower, ensureLarger x lower = Ok tt /\ lower < x \/ ensureLarger x lower = Throw OutOfRange /\ ~ lower < x).
Proof.
  split.
  - intros x l u. unfold ensureRange. destruct (Z.leb_spec l x), (Z.leb_spec x u); cbn [andb]; [left|right|right|right]; split; try reflexivity; lia.
  - intros x l. unfold ensureLarger. destruct (Z.ltb_spec l x); [left|right]; split; try reflexivity; lia.
Qed.

(** ** Formatted numbers *)
(** decimal notation without leading zeros *)
Definition canonical (s : str) (n : N) : Prop := numeral s n /\ (s = ["0"%char] \/ exists c t, s = c :: t /\ c <> "0"%char).
Lemma numeral_bound s n : numeral s n -> (n < 10 ^ N.of_nat (length s))%N.
Proof.
  induction 1 as [c d [H _]|s v c d H IH [Hd _]]; [cbn [length]; change (10 ^ N.of_nat 1)%N with 10%N; lia|]. rewrite app_length. cbn [length]. replace (N.of_nat (length s + 1)) with (N.succ (N.of_nat (length s))) by lia. rewrite N.pow_succ_r'. lia.
Qed.
Lemma numeral_nonempty s n : numeral s n -> s <> [].
Proof. intro H. destruct H; [discriminate|]. destruct s; discriminate. Qed.
Lemma canonical_bound s n : canonical s n -> (1 <= n)%N -> (10 ^ N.of_nat (length s - 1) <= n)%N.
Proof.
  intros [H Hc] Hn. revert Hc Hn. induction H as [c d [H _]|s v c d H IH [Hd _]]; intros Hc Hn; [cbn [length]; change (10 ^ N.of_nat (1 - 1))%N with 1%N; exact Hn|].
  rewrite app_length. cbn [length]. pose proof (numeral_nonempty s v H) as Hs. assert (Hc' : exists x t, s = x :: t /\ x <> "0"%char). { destruct s as [|x t]; [contradiction|]. destruct Hc as [E|(y & t' & E & Hy)]; [destruct t; discriminate|]. injection E as -> _. eauto. }
  assert (Hv : (1 <= v)%N). { destruct Hc' as (x & t & -> & Hx). clear - H Hx. remember (x :: t) as s eqn:E. revert x t E Hx. induction H as [c d [_ H]|s v c d H IH [Hd _]]; intros x t E Hx.
    - injection E as E1 E2. subst c t. destruct d; [|lia]. exfalso. apply Hx. rewrite <- (ascii_N_embedding x), H. reflexivity.
    - pose proof (numeral_nonempty s v H) as Hs. destruct s as [|y s]; [contradiction|]. injection E as E1 _. subst y. specialize (IH x s eq_refl Hx). lia. }
  specialize (IH (or_intror Hc') Hv). destruct s as [|x t]; [contradiction|]. cbn [length] in *. replace (S (length t) + 1 - 1)%nat with (S (length t)) by lia. replace (S (length t) - 1)%nat with (length t) in IH by lia.
  replace (N.of_nat (S (length t))) with (N.succ (N.of_nat (length t))) by lia. rewrite N.pow_succ_r'. lia.
Qed.
Lemma zero_digit : decimal_digit "0"%char 0.
Proof. split; [discriminate|reflexivity]. Qed.
Lemma numeral_zero s n : numeral s n -> numeral ("0"%char :: s) n.
Proof.
  induction 1 as [c d H|s v c d H IH Hd].
  - change ["0"%char; c] with (["0"%char] ++ [c]). replace d with (10 * 0 + d)%N by lia. apply numeral_more; [constructor; apply zero_digit|exact H].
  - change ("0"%char :: s ++ [c]) with (("0"%char :: s) ++ [c]). apply numeral_more; assumption.
Qed.
Lemma numeral_zeros k s n : numeral s n -> numeral (repeat "0"%char k ++ s) n.
Proof. intro H. induction k as [|k IH]; [exact H|]. cbn [repeat app]. apply numeral_zero. exact IH. Qed.
Lemma log10_up_spec fuel n : (1 <= n)%N -> (n < 2 ^ N.of_nat fuel)%N -> let w := log10_up fuel n in (1 <= w)%nat /\ (10 ^ N.of_nat (w - 1) <= n)%N /\ (n < 10 ^ N.of_nat w)%N.
Proof.
  revert n. induction fuel as [|fuel IH]; intros n H1 H2; [cbn in H2; lia|]. cbn [log10_up]. destruct (N.ltb_spec n 10) as [L|L].
  - cbv zeta. change (10 ^ N.of_nat (1 - 1))%N with 1%N. change (10 ^ N.of_nat 1)%N with 10%N. lia.
  - pose proof (N.div_mod' n 10) as D. pose proof (N.mod_upper_bound n 10 ltac:(lia)) as M. destruct (IH (n / 10)%N) as (A & B & C).
    + apply N.div_le_lower_bound; lia.
    + replace (N.of_nat (S fuel)) with (N.succ (N.of_nat fuel)) in H2 by lia. rewrite N.pow_succ_r' in H2. revert D M H2. generalize (n / 10)%N (n mod 10)%N (2 ^ N.of_nat fuel)%N. intros. lia.
    + cbv zeta in *. set (w := log10_up fuel (n / 10)) in *. split; [lia|]. replace (S w - 1)%nat with (S (w - 1)) by lia. replace (N.of_nat (S (w - 1))) with (N.succ (N.of_nat (w - 1))) by lia. replace (N.of_nat (S w)) with (N.succ (N.of_nat w)) by lia. rewrite !N.pow_succ_r'. clearbody w. revert D M B C. generalize (n / 10)%N (n mod 10)%N (10 ^ N.of_nat (w - 1))%N (10 ^ N.of_nat w)%N. intros. lia.
Qed.
Lemma width_spec N : 1 <= N -> exists w, width_of N = Ok w /\ (1 <= w)%nat /\ (10 ^ N.of_nat (w - 1) <= Z.to_N N)%N /\ (Z.to_N N < 10 ^ N.of_nat w)%N.
Proof.
  intro H. unfold width_of. destruct (Z.leb_spec N 0); [lia|]. eexists. split; [reflexivity|]. apply log10_up_spec; [lia|].
  replace (N.of_nat (S (N.to_nat (N.log2 (Z.to_N N))))) with (N.succ (N.log2 (Z.to_N N))) by lia. apply N.log2_spec. lia.
Qed.
Lemma print_canonical n : 0 <= n -> canonical (print_Z n) (Z.to_N n).
Proof.
  intro H. split. { pose proof (print_nat_numeral (Z.to_nat n)) as X. unfold print_nat in X. rewrite Z2Nat.id in X by exact H. replace (N.of_nat (Z.to_nat n)) with (Z.to_N n) in X by lia. exact X. }
  unfold print_Z. assert (Hp : exists d, Z.to_int n = Decimal.Pos d) by (destruct n; cbn [Z.to_int]; [eauto|eauto|lia]). destruct Hp as [d Hd]. rewrite Hd.
  assert (E : Decimal.unorm d = d). { pose proof (DecimalZ.to_of (Z.to_int n)) as X. rewrite DecimalZ.of_to in X. rewrite Hd in X. cbn [Decimal.norm] in X. injection X as X. symmetry. exact X. }
  clear - E. destruct d as [|d|d|d|d|d|d|d|d|d|d]; cbn in E; try discriminate; try (right; eexists; eexists; split; [reflexivity|discriminate]).
  left. assert (Hz : forall d x, Decimal.nzhead d <> Decimal.D0 x) by (clear; induction d; intros x; cbn; try discriminate; auto).
  unfold Decimal.unorm in E. cbn [Decimal.nzhead] in E. destruct (Decimal.nzhead d) eqn:En; try discriminate; [injection E as <-; reflexivity|]. exfalso. exact (Hz d u En).
Qed.

(** numbers up to the maximum have the width of the maximum; leading zeros do not change the number *)
Theorem C137_format n N : 0 <= n <= N -> 1 <= N ->
  exists s, format n N "0" = Ok s /\ numeral s (Z.to_N n) /\ (10 ^ N.of_nat (length s - 1) <= Z.to_N N)%N /\ (Z.to_N N < 10 ^ N.of_nat (length s))%N.
Proof.
  intros Hn HN. destruct (width_spec N HN) as (w & Ew & W1 & W2 & W3). unfold format. rewrite Ew. cbn [bind]. eexists. split; [reflexivity|]. pose proof (print_canonical n (proj1 Hn)) as C. split; [apply numeral_zeros; apply C|].
  assert (L : (length (print_Z n) <= w)%nat).
  { destruct (Z.eq_dec n 0) as [->|Hz]; [exact W1|]. pose proof (canonical_bound _ _ C ltac:(lia)) as B. destruct (Nat.le_gt_cases (length (print_Z n)) w) as [X|X]; [exact X|]. exfalso.
    assert (Y : (10 ^ N.of_nat w <= 10 ^ N.of_nat (length (print_Z n) - 1))%N) by (apply N.pow_le_mono_r; lia). assert (Z : (Z.to_N n <= Z.to_N N)%N) by lia. revert B W3 Y Z. generalize (10 ^ N.of_nat w)%N (10 ^ N.of_nat (length (print_Z n) - 1))%N (Z.to_N n) (Z.to_N N). intros. lia. }
  rewrite app_length, repeat_length. replace (w - length (print_Z n) + length (print_Z n))%nat with w by lia. auto.
Qed.
(** other characters may fill the space, and larger numbers are not cut *)
Theorem C137_fill n N fill : 0 <= n -> 1 <= N -> exists k s, format n N fill = Ok (repeat fill k ++ s) /\ canonical s (Z.to_N n) /\ (N < n -> k = 0%nat).
Proof.
  intros Hn HN. destruct (width_spec N HN) as (w & Ew & W1 & W2 & W3). unfold format. rewrite Ew. cbn [bind]. pose proof (print_canonical n Hn) as C. eexists. eexists. refine (conj eq_refl (conj C _)). intro Hlt.
  pose proof (numeral_bound _ _ (proj1 C)) as B. destruct (Nat.le_gt_cases w (length (print_Z n))) as [X|X]; [lia|]. exfalso.
  assert (Y : (10 ^ N.of_nat (length (print_Z n)) <= 10 ^ N.of_nat (w - 1))%N) by (apply N.pow_le_mono_r; lia). assert (Z : (Z.to_N N < Z.to_N n)%N) by lia. revert B W2 Y Z. generalize (10 ^ N.of_nat (w - 1))%N (10 ^ N.of_nat (length (print_Z n)))%N (Z.to_N n) (Z.to_N N). intros. lia.
Qed.
(** numerals of the same length are ordered as their numbers *)
Lemma numeral_app_inv s c v : numeral (s ++ [c]) v -> s <> [] -> exists v' d, numeral s v' /\ decimal_digit c d /\ v = (10 * v' + d)%N.
Proof.
  intros H Hs. inversion H as [c' d Hd E|s' v' c' d H' Hd E]; [destruct s as [|x [|? ?]]; try discriminate; contradiction|]. apply app_inj_tail in E. destruct E as [-> ->]. eauto.
Qed.
Lemma ltb_snoc a b c d : length a = length b -> str_ltb (a ++ [c]) (b ++ [d]) = true <-> str_ltb a b = true \/ a = b /\ (N_of_ascii c < N_of_ascii d)%N.
Proof.
  revert b. induction a as [|x a IH]; intros [|y b] H; cbn [length] in H; try discriminate; cbn [app str_ltb].
  - destruct (N.ltb_spec (N_of_ascii c) (N_of_ascii d)); [split; auto|]. destruct (N_of_ascii d <? N_of_ascii c)%N; (split; [discriminate|intros [X|[_ X]]; [discriminate|lia]]).
  - destruct (N.ltb_spec (N_of_ascii x) (N_of_ascii y)) as [L|L]; [split; auto|]. destruct (N.ltb_spec (N_of_ascii y) (N_of_ascii x)) as [L'|L'].
    + split; [discriminate|]. intros [X|[X _]]; [discriminate|]. injection X as -> _. lia.
    + assert (E : x = y). { rewrite <- (ascii_N_embedding x), <- (ascii_N_embedding y). f_equal. lia. } subst y. rewrite IH by lia. split; intros [X|[X Y]]; auto; [subst; auto|injection X as ->; auto].
Qed.
Lemma numeral_order a v : numeral a v -> forall b w, numeral b w -> length a = length b -> (str_ltb a b = true <-> (v < w)%N) /\ (a = b <-> v = w).
Proof.
  assert (Dg : forall c d, decimal_digit c d -> forall c' d', decimal_digit c' d' -> (c = c' <-> d = d')).
  { intros c d [_ H] c' d' [_ H']. split; [intros ->; lia|]. intros ->. rewrite <- (ascii_N_embedding c), <- (ascii_N_embedding c'). f_equal. lia. }
  induction 1 as [c d Hd|s v c d H IH Hd]; intros b w Hb HL.
  - destruct b as [|c' [|? ?]]; try discriminate. inversion Hb as [c'' d' Hd' E|s' v' c'' d' H' Hd' E]; [|exfalso; destruct s' as [|? [|? ?]]; try discriminate; exact (numeral_nonempty _ _ H' eq_refl)]. subst c''. subst w. split.
    + rewrite (ltb_snoc [] [] c c' eq_refl). destruct Hd as [_ Hd], Hd' as [_ Hd']. split; [intros [X|[_ X]]; [discriminate|lia]|intro X; right; split; [reflexivity|lia]].
    + rewrite <- (Dg c d Hd c' d' Hd'). split; [intro X; injection X; auto|intros ->; reflexivity].
  - pose proof (numeral_nonempty _ _ H) as Hs. rewrite app_length in HL. cbn [length] in HL. assert (Hb0 : b <> []) by (intros ->; cbn in HL; lia). destruct (exists_last Hb0) as (b' & c' & ->). rewrite app_length in HL. cbn [length] in HL.
    assert (Hb' : b' <> []) by (intros ->; destruct s; [contradiction|cbn in HL; lia]). destruct (numeral_app_inv b' c' w Hb Hb') as (v' & d' & Hv' & Hd' & ->). destruct (IH b' v' Hv' ltac:(lia)) as [I1 I2]. pose proof (Dg c d Hd c' d' Hd') as Dc. destruct Hd as [Hd1 Hd2], Hd' as [Hd1' Hd2']. split.
    + rewrite ltb_snoc by lia. rewrite I1, I2. split; [intros [X|[X Y]]; lia|]. intro X. destruct (N.lt_trichotomy v v') as [Y|[Y|Y]]; [left; exact Y|right; split; [exact Y|lia]|lia].
    + split; [intro X; apply app_inj_tail in X; destruct X as [X Y]; apply I2 in X; apply Dc in Y; lia|]. intro X. assert (v = v') by lia. assert (d = d') by lia. f_equal; [apply I2; assumption|f_equal; apply Dc; assumption].
Qed.
(** hence the texts are ordered as the numbers *)
Theorem C137_order n m N a b : 0 <= n <= N -> 0 <= m <= N -> 1 <= N -> format n N "0" = Ok a -> format m N "0" = Ok b -> (text_before a b <-> n < m) /\ (a = b <-> n = m).
Proof.
  intros Hn Hm HN Ea Eb. destruct (C137_format n N Hn HN) as (a' & Ea' & Na & A1 & A2). destruct (C137_format m N Hm HN) as (b' & Eb' & Nb & B1 & B2). rewrite Ea in Ea'. injection Ea' as <-. rewrite Eb in Eb'. injection Eb' as <-.
  assert (L : length a = length b).
  { pose proof (numeral_nonempty _ _ Na) as Ne. pose proof (numeral_nonempty _ _ Nb) as Ne'. assert (G : forall x y : str, x <> [] -> y <> [] -> (10 ^ N.of_nat (length x - 1) <= Z.to_N N)%N -> (Z.to_N N < 10 ^ N.of_nat (length y))%N -> (length x <= length y)%nat).
    { intros x y Hx Hy H1 H2. destruct x as [|x0 x]; [contradiction|]. destruct (Nat.le_gt_cases (length (x0 :: x)) (length y)) as [X|X]; [exact X|]. exfalso. assert (Y : (10 ^ N.of_nat (length y) <= 10 ^ N.of_nat (length (x0 :: x) - 1))%N) by (apply N.pow_le_mono_r; lia). revert H1 H2 Y.
      generalize (10 ^ N.of_nat (length y))%N (10 ^ N.of_nat (length (x0 :: x) - 1))%N (Z.to_N N). intros. lia. }
    pose proof (G a b Ne Ne' A1 B2). pose proof (G b a Ne' Ne B1 A2). lia. }
  destruct (numeral_order a _ Na b _ Nb L) as [O1 O2]. split; [rewrite <- before_spec; unfold before; rewrite O1; lia|rewrite O2; lia].
Qed.

(** ** Examples and findings *)
Example C137_format_ex : format 5 999 "0" = Ok (chars "005") /\ format 5 1000 "0" = Ok (chars "0005") /\ format 42 9 "0" = Ok (chars "42") /\ format 7 100 "_" = Ok (chars "__7").
Proof. repeat split; reflexivity. Qed.
Example C137_points_ex : point_eqb [1; 2] [1; 2] = Ok true /\ point_eqb [1; 2] [1; 3] = Ok false /\ point_ltb [1; 2] [1; 3] = true /\ point_text print_Z [1; -2; 3] = chars "1 -2 3".
Proof. repeat split; reflexivity. Qed.
Example C137_wrapper_ex : wrapper (fun l => fold_right Z.add 0 (map (fun p => (fst p - snd p) * (fst p - snd p)) l)) Z.sqrt [0; 0] [3; 4] = Ok 5.
Proof. reflexivity. Qed.
(** points of different dimensions are equal if the first one is a prefix; the converse comparison is undefined, and the order differs *)
Theorem C137_symmetry_refuted : point_eqb [1] [1; 2] = Ok true /\ point_eqb [1; 2] [1] = UB /\ point_ltb [1] [1; 2] = true.
Proof. repeat split; reflexivity. Qed.
(** there is no width for the maximum zero, and signs follow the filling *)
Theorem C137_format_refuted : format 0 0 "0" = UB /\ format (-5) 999 "0" = Ok (chars "0-5") /\ format (-5) 9999 "0" = Ok (chars "00-5").
Proof. repeat split; reflexivity. Qed.

Print Assumptions C137_equal.
Print Assumptions C137_less.
Print Assumptions C137_text.
Print Assumptions C137_wrapper.
Print Assumptions C137_values.
Print Assumptions C137_format.
Print Assumptions C137_fill.
Print Assumptions C137_order.
