(** * The normalization of the weights of a graph. *)
From Coq Require Import Reals String List Arith Bool Lia Lra.
From Verif Require Import Base BaseFacts HeatKernel RealDescriptors PropertiesRealDescriptors PropertiesMLE StratifiedNormalization.
Import ListNotations.
Local Open Scope R_scope.

(** ** specification *)
(** [w] is the weight of an edge *)
Definition edge_weight (K : list (list nat * R)) (w : R) : Prop := exists s, In s K /\ length (fst s) = 2%nat /\ snd s = w.
(** the sum over all edges *)
Fixpoint over_edges (f : R -> R) (K : list (list nat * R)) : R :=
  match K with
  | [] => 0
  | s :: K => if (length (fst s) =? 2)%nat then f (snd s) + over_edges f K else over_edges f K
  end.
(** every weight changes to [f] of itself; nothing else changes *)
Definition reweighted (f : R -> R) (K : list (list nat * R)) : list (list nat * option R) := map (fun s => (fst s, Some (f (snd s)))) K.

(** ** extreme values *)
Lemma min_fold : forall t x, let m := fold_left (fun m y => if Rlt_dec y m then y else m) t x in In m (x :: t) /\ forall y, In y (x :: t) -> m <= y.
Proof.
  induction t as [|y t IH]; intros x m; [split; [left; reflexivity|intros z [<-|[]]; apply Rle_refl]|].
  unfold m. cbn [fold_left]. destruct (IH (if Rlt_dec y x then y else x)) as [A B]. cbn zeta in A, B. set (n := fold_left _ t _) in *. destruct (Rlt_dec y x) as [L|L].
  - split; [destruct A as [A|A]; [right; left; exact A|right; right; exact A]|]. intros z [<-|[<-|Hz]]; [|apply B; left; reflexivity|apply B; right; exact Hz]. assert (n <= y) by (apply B; left; reflexivity). lra.
  - split; [destruct A as [A|A]; [left; exact A|right; right; exact A]|]. intros z [<-|[<-|Hz]]; [apply B; left; reflexivity| |apply B; right; exact Hz]. assert (n <= x) by (apply B; left; reflexivity). lra.
Qed.
Lemma max_fold : forall t x, let m := fold_left (fun m y => if Rlt_dec y m then m else y) t x in In m (x :: t) /\ forall y, In y (x :: t) -> y <= m.
Proof.
  induction t as [|y t IH]; intros x m; [split; [left; reflexivity|intros z [<-|[]]; apply Rle_refl]|].
  unfold m. cbn [fold_left]. destruct (IH (if Rlt_dec y x then x else y)) as [A B]. cbn zeta in A, B. set (n := fold_left _ t _) in *. destruct (Rlt_dec y x) as [L|L].
  - split; [destruct A as [A|A]; [left; exact A|right; right; exact A]|]. intros z [<-|[<-|Hz]]; [apply B; left; reflexivity| |apply B; right; exact Hz]. assert (x <= n) by (apply B; left; reflexivity). lra.
  - split; [destruct A as [A|A]; [right; left; exact A|right; right; exact A]|]. intros z [<-|[<-|Hz]]; [|apply B; left; reflexivity|apply B; right; exact Hz]. assert (y <= n) by (apply B; left; reflexivity). lra.
Qed.
Lemma extremes l : l <> [] -> exists lo hi, min_elementR l = Some lo /\ minmax_maximumR l = Some hi /\ In lo l /\ In hi l /\ forall x, In x l -> lo <= x <= hi.
Proof.
  destruct l as [|x t]; [contradiction|]. intros _. destruct (min_fold t x) as [A B], (max_fold t x) as [C D]. cbn zeta in A, B, C, D.
  exists (fold_left (fun m y => if Rlt_dec y m then y else m) t x), (fold_left (fun m y => if Rlt_dec y m then m else y) t x). refine (conj eq_refl (conj eq_refl (conj A (conj C _)))). intros y Hy. split; [apply B|apply D]; exact Hy.
Qed.

Lemma edge_weights_In K w : In w (edge_weights K) <-> edge_weight K w.
Proof.
  unfold edge_weights, edge_weight. rewrite in_map_iff. split.
  - intros (s & <- & Hs). apply filter_In in Hs. destruct Hs as [Hs E]. apply Nat.eqb_eq in E. exists s. auto.
  - intros (s & Hs & L & <-). exists s. split; [reflexivity|]. apply filter_In. split; [exact Hs|]. apply Nat.eqb_eq. exact L.
Qed.

Lemma over_sum (f : R -> R) K : over_edges f K = sumL (map f (edge_weights K)).
Proof. unfold edge_weights. induction K as [|s K IH]; [reflexivity|]. cbn [over_edges filter]. destruct (length (fst s) =? 2)%nat; [cbn [map]; unfold sumL in *; cbn [fold_right]; rewrite IH; reflexivity|exact IH]. Qed.

Lemma fold_reweighted K name lo hi mu sigma (f : R -> R) :
  (forall w, normalized_weight name lo hi mu sigma w = Ok (Some (f w))) ->
  foldM (fun (L : list (list nat * option R)) s => let* w := normalized_weight name lo hi mu sigma (snd s) in Ok (L ++ [(fst s, w)])) K [] = Ok (reweighted f K).
Proof.
  intro H. assert (G : forall K acc, foldM (fun (L : list (list nat * option R)) s => let* w := normalized_weight name lo hi mu sigma (snd s) in Ok (L ++ [(fst s, w)])) K acc = Ok (acc ++ reweighted f K)); [|exact (G K [])].
  clear K. induction K as [|s K IH]; intro acc; [cbn; rewrite app_nil_r; reflexivity|]. cbn [foldM]. rewrite H. cbn [bind]. rewrite IH, <- app_assoc. reflexivity.
Qed.

(** the program with its tests decided *)
Lemma normalize_value K name lo hi : name <> ""%string ->
  min_elementR (edge_weights K) = Some lo -> minmax_maximumR (edge_weights K) = Some hi -> lo <> hi ->
  normalizeSimplicialComplex K name = foldM (fun (L : list (list nat * option R)) s => let* w := normalized_weight name lo hi (sampleMeanR (edge_weights K)) (sampleStandardDeviationR (edge_weights K)) (snd s) in Ok (L ++ [(fst s, w)])) K [].
Proof.
  intros Hn E1 E2 N. unfold normalizeSimplicialComplex. destruct (String.eqb_spec name ""); [contradiction|]. rewrite E1, E2. destruct (Req_EM_T lo hi); [contradiction|reflexivity].
Qed.

Lemma setup K v w : edge_weight K v -> edge_weight K w -> v <> w ->
  exists lo hi, min_elementR (edge_weights K) = Some lo /\ minmax_maximumR (edge_weights K) = Some hi /\ lo < hi /\ edge_weight K lo /\ edge_weight K hi /\ (forall x, edge_weight K x -> lo <= x <= hi).
Proof.
  intros Hv Hw N. apply edge_weights_In in Hv, Hw. destruct (extremes (edge_weights K)) as (lo & hi & E1 & E2 & I1 & I2 & B); [intro Z; rewrite Z in Hv; destruct Hv|].
  exists lo, hi. refine (conj E1 (conj E2 (conj _ (conj _ (conj _ _))))).
  - pose proof (B v Hv). pose proof (B w Hw). destruct (Rtotal_order v w) as [L|[L|L]]; [lra|contradiction|lra].
  - apply edge_weights_In. exact I1.
  - apply edge_weights_In. exact I2.
  - intros x Hx. apply B. apply edge_weights_In. exact Hx.
Qed.

(** ** C146 *)
(** Without a strategy, or without edges, nothing changes. *)
Theorem C146_unchanged : forall K name, name = ""%string \/ (forall w, ~ edge_weight K w) -> normalizeSimplicialComplex K name = Ok (reweighted (fun w => w) K).
Proof.
  intros K name H. unfold normalizeSimplicialComplex. destruct (String.eqb_spec name "") as [E|N]; [reflexivity|]. destruct H as [H|H]; [contradiction|].
  destruct (edge_weights K) as [|w l] eqn:E; [reflexivity|]. exfalso. apply (H w). apply edge_weights_In. rewrite E. left. reflexivity.
Qed.

(** Division by the largest absolute value of an edge *)
Theorem C146_abs : forall K v w, edge_weight K v -> edge_weight K w -> v <> w ->
  exists m, 0 < m /\ (forall x, edge_weight K x -> Rabs x <= m) /\ (exists x, edge_weight K x /\ Rabs x = m) /\
    normalizeSimplicialComplex K "abs" = Ok (reweighted (fun x => x / m) K).
Proof.
  intros K v w Hv Hw N. destruct (setup K v w Hv Hw N) as (lo & hi & E1 & E2 & L & I1 & I2 & B). exists (std_maxR (Rabs lo) (Rabs hi)).
  assert (A : Rabs lo <= std_maxR (Rabs lo) (Rabs hi) /\ Rabs hi <= std_maxR (Rabs lo) (Rabs hi) /\ (Rabs lo = std_maxR (Rabs lo) (Rabs hi) \/ Rabs hi = std_maxR (Rabs lo) (Rabs hi))).
  { unfold std_maxR. destruct (Rlt_dec (Rabs lo) (Rabs hi)); (split; [lra|]); (split; [lra|]); auto. }
  set (m := std_maxR (Rabs lo) (Rabs hi)) in *. destruct A as (A1 & A2 & A3).
  assert (P : 0 < m). { destruct (Req_EM_T lo 0) as [Z|Z]; [|pose proof (Rabs_pos_lt lo Z); lra]. assert (hi <> 0) as Z2 by lra. pose proof (Rabs_pos_lt hi Z2). lra. }
  refine (conj P (conj _ (conj _ _))).
  - intros x Hx. pose proof (B x Hx). unfold Rabs in *. destruct (Rcase_abs x), (Rcase_abs lo), (Rcase_abs hi); lra.
  - destruct A3 as [A3|A3]; [exists lo|exists hi]; split; assumption.
  - rewrite (normalize_value K "abs" lo hi ltac:(discriminate) E1 E2 ltac:(lra)). apply fold_reweighted. intro x. unfold normalized_weight. cbn [String.eqb Ascii.eqb Bool.eqb]. fold m. unfold divR. destruct (Req_EM_T m 0); [lra|reflexivity].
Qed.

(** The increasing affine map that takes the smallest weight of an edge to -1 and the largest
    to 1 *)
Theorem C146_minmax : forall K v w, edge_weight K v -> edge_weight K w -> v <> w ->
  exists a b lo hi, 0 < a /\ edge_weight K lo /\ edge_weight K hi /\ (forall x, edge_weight K x -> lo <= x <= hi) /\
    a * lo + b = -1 /\ a * hi + b = 1 /\
    normalizeSimplicialComplex K "minmax" = Ok (reweighted (fun x => a * x + b) K).
Proof.
  intros K v w Hv Hw N. destruct (setup K v w Hv Hw N) as (lo & hi & E1 & E2 & L & I1 & I2 & B). exists (2 / (hi - lo)), (- 2 * lo / (hi - lo) - 1), lo, hi.
  refine (conj _ (conj I1 (conj I2 (conj B (conj _ (conj _ _)))))).
  - apply Rmult_lt_0_compat; [lra|]. apply Rinv_0_lt_compat. lra.
  - field. lra.
  - field. lra.
  - rewrite (normalize_value K "minmax" lo hi ltac:(discriminate) E1 E2 ltac:(lra)). apply fold_reweighted. intro x. unfold normalized_weight. cbn [String.eqb Ascii.eqb Bool.eqb]. unfold divR. destruct (Req_EM_T (hi - lo) 0); [lra|]. do 2 f_equal. field. lra.
Qed.

Lemma sumL_ge (f : R -> R) l : (forall x, 0 <= f x) -> 0 <= sumL (map f l).
Proof. intro H. induction l as [|a l IH]; unfold sumL in *; cbn [map fold_right]; [lra|]. pose proof (H a). lra. Qed.
Lemma sumL_pos (f : R -> R) l : (forall x, 0 <= f x) -> forall x, In x l -> f x <= sumL (map f l).
Proof.
  intro H. induction l as [|a l IH]; intros x Hx; [destruct Hx|]. pose proof (sumL_ge f l H) as G. pose proof (H a). unfold sumL in *. cbn [map fold_right]. destruct Hx as [<-|Hx]; [lra|]. pose proof (IH x Hx). lra.
Qed.
Lemma sumL_affine a b l : sumL (map (fun x => a * x + b) l) = a * sumL l + b * INR (length l).
Proof. induction l as [|x l IH]; unfold sumL in *; cbn [map fold_right length]; [cbn; lra|]. rewrite S_INR, IH. lra. Qed.
Lemma sumL_scale c (f : R -> R) l : sumL (map (fun x => c * f x) l) = c * sumL (map f l).
Proof. induction l as [|x l IH]; unfold sumL in *; cbn [map fold_right]; [lra|]. rewrite IH. lra. Qed.
Lemma sumL_const c l : sumL (map (fun _ : R => c) l) = c * INR (length l).
Proof. induction l as [|x l IH]; unfold sumL in *; cbn [map fold_right length]; [cbn; lra|]. rewrite S_INR, IH. lra. Qed.
Lemma fold_sq m : forall l s, fold_left (fun sum d => sum + (d - m) * (d - m)) l s = s + sumL (map (fun d => (d - m) * (d - m)) l).
Proof. induction l as [|d l IH]; intro s; unfold sumL in *; cbn [fold_left map fold_right]; [lra|]. rewrite IH. lra. Qed.

(** An increasing affine map after which the edges have mean 0 and variance 1 *)
Theorem C146_standardize : forall K v w, edge_weight K v -> edge_weight K w -> v <> w ->
  exists a b, 0 < a /\
    over_edges (fun x => a * x + b) K = 0 /\
    over_edges (fun x => (a * x + b) * (a * x + b)) K = over_edges (fun _ => 1) K - 1 /\
    normalizeSimplicialComplex K "standardize" = Ok (reweighted (fun x => a * x + b) K).
Proof.
  intros K v w Hv Hw N. destruct (setup K v w Hv Hw N) as (lo & hi & E1 & E2 & L & I1 & I2 & B). set (l := edge_weights K) in *.
  assert (H2 : (2 <= length l)%nat).
  { apply edge_weights_In in Hv, Hw. fold l in Hv, Hw. destruct l as [|x [|y t]]; [destruct Hv| |cbn; lia]. exfalso. destruct Hv as [<-|[]], Hw as [<-|[]]. apply N. reflexivity. }
  assert (Pn : 0 < INR (length l)) by (apply lt_0_INR; lia). assert (Pm : INR (length l - 1) = INR (length l) - 1) by (rewrite minus_INR by lia; reflexivity). assert (Pm1 : 0 < INR (length l - 1)) by (apply lt_0_INR; lia).
  assert (M : sampleMeanR l = Some (mean l)) by (unfold sampleMeanR, mean; destruct l; [cbn in H2; lia|]; rewrite fold_plus, Rplus_0_l; reflexivity).
  set (m := mean l) in *. set (S := sumL (map (fun d => (d - m) * (d - m)) l)).
  assert (PS : 0 < S).
  { apply edge_weights_In in Hv, Hw. fold l in Hv, Hw. assert (Q : forall x, 0 <= (x - m) * (x - m)) by (intro x; apply Rle_0_sqr). pose proof (sumL_pos _ l Q v Hv) as A1. pose proof (sumL_pos _ l Q w Hw) as A2. cbn beta in A1, A2. fold S in A1, A2.
    destruct (Req_EM_T v m) as [Z|Z]; [|assert (0 < (v - m) * (v - m)) by (apply Rsqr_pos_lt; lra); lra]. assert (0 < (w - m) * (w - m)) by (apply Rsqr_pos_lt; lra). lra. }
  assert (V : sampleVarianceR l = Some (1 / INR (length l - 1) * S)).
  { unfold sampleVarianceR. destruct (Nat.ltb_spec (length l) 2); [lia|]. rewrite M. fold m. rewrite fold_sq, Rplus_0_l. reflexivity. }
  assert (PV : 0 < 1 / INR (length l - 1) * S) by (apply Rmult_lt_0_compat; [apply Rmult_lt_0_compat; [lra|apply Rinv_0_lt_compat; exact Pm1]|exact PS]).
  set (sg := sqrt (1 / INR (length l - 1) * S)). assert (Psg : 0 < sg) by (apply sqrt_lt_R0; exact PV). assert (Sq : sg * sg = 1 / INR (length l - 1) * S) by (apply sqrt_sqrt; lra).
  exists (/ sg), (- m / sg). refine (conj _ (conj _ (conj _ _))).
  - apply Rinv_0_lt_compat. exact Psg.
  - rewrite over_sum. fold l. rewrite sumL_affine. assert (T : sumL l = m * INR (length l)) by (unfold m, mean; field; lra). rewrite T. field. lra.
  - rewrite !over_sum. fold l. rewrite sumL_const. rewrite (map_ext (fun x => (/ sg * x + - m / sg) * (/ sg * x + - m / sg)) (fun x => (/ (sg * sg)) * ((x - m) * (x - m)))) by (intro x; field; lra). rewrite sumL_scale. fold S. rewrite Sq. replace (1 * INR (length l) - 1) with (INR (length l - 1)) by (rewrite Pm; ring). field. split; lra.
  - rewrite (normalize_value K "standardize" lo hi ltac:(discriminate) E1 E2 ltac:(lra)). fold l. rewrite M. unfold sampleStandardDeviationR. rewrite V. cbn [option_map]. fold m sg. apply fold_reweighted. intro x. unfold normalized_weight. cbn [String.eqb Ascii.eqb Bool.eqb]. unfold divR. destruct (Req_EM_T sg 0); [lra|]. do 2 f_equal. field. lra.
Qed.

(** An unknown strategy is an error; if all edges have the same weight, the program stops for
    every strategy. *)
Theorem C146_fails : forall K name v, name <> ""%string -> edge_weight K v ->
  ((forall w, edge_weight K w -> w = v) -> normalizeSimplicialComplex K name = Throw Terminated) /\
  ((exists w, edge_weight K w /\ w <> v) -> name <> "abs"%string -> name <> "minmax"%string -> name <> "standardize"%string ->
   normalizeSimplicialComplex K name = Throw RuntimeError).
Proof.
  intros K name v Hn Hv. split.
  - intro Heq. destruct (extremes (edge_weights K)) as (lo & hi & E1 & E2 & I1 & I2 & _); [apply edge_weights_In in Hv; intro Z; rewrite Z in Hv; destruct Hv|].
    apply edge_weights_In in I1, I2. apply Heq in I1, I2. subst lo hi. unfold normalizeSimplicialComplex. destruct (String.eqb_spec name ""); [contradiction|]. rewrite E1, E2. destruct (Req_EM_T v v); [reflexivity|contradiction].
  - intros (w & Hw & N) N1 N2 N3. destruct (setup K w v Hw Hv N) as (lo & hi & E1 & E2 & L & I1 & I2 & B). rewrite (normalize_value K name lo hi Hn E1 E2 ltac:(lra)).
    destruct Hv as (s & Hs & _). destruct K as [|s0 K]; [destruct Hs|]. cbn [foldM]. unfold normalized_weight at 1. destruct (String.eqb_spec name "abs"); [contradiction|]. destruct (String.eqb_spec name "minmax"); [contradiction|]. destruct (String.eqb_spec name "standardize"); [contradiction|]. reflexivity.
Qed.

(** The order of the weights stays the same: every strategy is one increasing function for all
    simplices. *)
Theorem C146_monotone : forall K v w name, edge_weight K v -> edge_weight K w -> v <> w -> In name ["abs"; "minmax"; "standardize"]%string ->
  exists f, (forall x y, x < y -> f x < f y) /\ normalizeSimplicialComplex K name = Ok (reweighted f K).
Proof.
  intros K v w name Hv Hw N [<-|[<-|[<-|[]]]].
  - destruct (C146_abs K v w Hv Hw N) as (m & P & _ & _ & E). exists (fun x => x / m). split; [|exact E]. intros x y H. apply Rmult_lt_compat_r; [apply Rinv_0_lt_compat; exact P|exact H].
  - destruct (C146_minmax K v w Hv Hw N) as (a & b & lo & hi & P & _ & _ & _ & _ & _ & E). exists (fun x => a * x + b). split; [|exact E]. intros x y H. apply Rplus_lt_compat_r. apply Rmult_lt_compat_l; assumption.
  - destruct (C146_standardize K v w Hv Hw N) as (a & b & P & _ & _ & E). exists (fun x => a * x + b). split; [|exact E]. intros x y H. apply Rplus_lt_compat_r. apply Rmult_lt_compat_l; assumption.
Qed.

(** The path with edges of weights 1 and 2 and vertices of weight 0 *)
Definition path3 : list (list nat * R) := [([0%nat], 0); ([1%nat], 0); ([2%nat], 0); ([1%nat; 0%nat], 1); ([2%nat; 1%nat], 2)].
Lemma path3_edges x : edge_weight path3 x -> x = 1 \/ x = 2.
Proof. intros (s & Hs & L & <-). cbn in Hs. repeat (destruct Hs as [<-|Hs]; [cbn in L; try discriminate; cbn; auto|]). destruct Hs. Qed.
Lemma path3_one : edge_weight path3 1. Proof. exists ([1; 0]%nat, 1). cbn. auto 8. Qed.
Lemma path3_two : edge_weight path3 2. Proof. exists ([2; 1]%nat, 2). cbn. auto 8. Qed.
Example C146_abs_example : normalizeSimplicialComplex path3 "abs" = Ok [([0%nat], Some (0 / 2)); ([1%nat], Some (0 / 2)); ([2%nat], Some (0 / 2)); ([1%nat; 0%nat], Some (1 / 2)); ([2%nat; 1%nat], Some (2 / 2))].
Proof.
  destruct (C146_abs path3 1 2 path3_one path3_two ltac:(lra)) as (m & P & B & (x & Hx & Ex) & E). rewrite E. assert (m = 2) as ->; [|reflexivity].
  pose proof (B 2 path3_two) as B2. rewrite (Rabs_right 2) in B2 by lra. destruct (path3_edges x Hx) as [->| ->]; rewrite Rabs_right in Ex by lra; lra.
Qed.

(** FINDING: with the strategy minmax the weights are said to be scaled to [-1,+1], but only
    those of edges are: a weight of a vertex can be anything. *)
Theorem C146_range_refuted : exists K L s w, normalizeSimplicialComplex K "minmax" = Ok L /\ In (s, Some w) L /\ ~ (-1 <= w <= 1).
Proof.
  destruct (C146_minmax path3 1 2 path3_one path3_two ltac:(lra)) as (a & b & lo & hi & P & I1 & I2 & B & Hlo & Hhi & E).
  exists path3. eexists. exists [0%nat], (a * 0 + b). split; [exact E|]. split; [left; reflexivity|].
  pose proof (B 1 path3_one). pose proof (B 2 path3_two). destruct (path3_edges lo I1) as [-> | ->], (path3_edges hi I2) as [-> | ->]; lra.
Qed.

(** FINDING: a graph all of whose edges have the weight 2 could be divided by 2, but the program
    stops. *)
Theorem C146_equal_refuted : exists K, edge_weight K 2 /\ (forall w, edge_weight K w -> Rabs w = 2) /\ normalizeSimplicialComplex K "abs" = Throw Terminated.
Proof.
  set (K := [([0%nat], 0); ([1%nat], 0); ([1%nat; 0%nat], 2)] : list (list nat * R)). assert (A : edge_weight K 2) by (exists ([1; 0]%nat, 2); cbn; auto). assert (U : forall w, edge_weight K w -> w = 2).
  { intros w (s & Hs & L & <-). cbn in Hs. repeat (destruct Hs as [<-|Hs]; [cbn in L; try discriminate; reflexivity|]). destruct Hs. }
  exists K. split; [exact A|]. split; [intros w Hw; rewrite (U w Hw); apply Rabs_right; lra|]. apply (C146_fails K "abs" 2 ltac:(discriminate) A). exact U.
Qed.

Print Assumptions C146_unchanged.
Print Assumptions C146_abs.
Print Assumptions C146_minmax.
Print Assumptions C146_standardize.
Print Assumptions C146_fails.
Print Assumptions C146_monotone.
Print Assumptions C146_range_refuted.
Print Assumptions C146_equal_refuted.
