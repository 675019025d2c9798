(** * The choice and the calculation of distances between data sets. *)
From Coq Require Import Reals List Arith NArith Bool Lia Lra.
From Verif Require Import Base BaseFacts StepNorm PropertiesStepNorm Diagram Wasserstein DiagramDistances.
Import ListNotations.
Local Open Scope R_scope.

(** ** specification *)
(** the distance that an option asks for *)
Definition asked (o : option_letter) : option method :=
  match o with
  | Opt_b => Some Bottleneck
  | Opt_E => Some Envelope
  | Opt_h => Some Hausdorff
  | Opt_i => Some Indicator
  | Opt_S => Some ScaleSpace
  | Opt_w => Some Wasserstein
  | Opt_k | Opt_other => None
  end.
(** the last distance that is asked for *)
Definition last_asked (l : list option_letter) (m : method) : Prop :=
  (exists before o after, l = before ++ o :: after /\ asked o = Some m /\ forall q, In q after -> asked q = None) \/
  (m = Hausdorff /\ forall q, In q l -> asked q = None).
Definition total (l : list R) : R := fold_right Rplus 0 l.
(** the diagram of a dimension: the first one, or the one without points *)
Definition diagram_of {D} (empty : D) (dataSet : list (N * D)) (dimension : N) (d : D) : Prop :=
  (exists before after, dataSet = before ++ (dimension, d) :: after /\ forall e, In e before -> fst e <> dimension) \/
  (d = empty /\ forall e, In e dataSet -> fst e <> dimension).

(** ** options *)
Lemma parse_snoc l o : parse_options (l ++ [o]) = option_step (parse_options l) o.
Proof. unfold parse_options. rewrite fold_left_app. reflexivity. Qed.

(** ** C149 *)
(** The last option that asks for a distance decides, if it is not [-h], or if [-b] has not been
    used. *)
Theorem C149_method : forall l m, last_asked l m -> (m = Hausdorff -> ~ In Opt_b l) -> chosen_method (parse_options l) = m.
Proof.
  intros l m H Hb. destruct H as [(before & o & after & -> & Ho & Ha)|[-> Hn]].
  - assert (A : chosen_method (parse_options (before ++ [o])) = m).
    { rewrite parse_snoc. assert (B : ~ In Opt_b before -> useBottleneck (parse_options before) = false).
      { clear. induction before as [|x l IH] using rev_ind; intro H; [reflexivity|]. rewrite parse_snoc. assert (IH' := IH (fun Hin => H (in_or_app _ _ _ (or_introl Hin)))). destruct x; cbn [option_step useBottleneck]; try exact IH'; try reflexivity. exfalso. apply H. apply in_or_app. right. left. reflexivity. }
      destruct o; cbn [asked] in Ho; try discriminate; injection Ho as <-; cbn [option_step]; unfold chosen_method; cbn [useIndicator useEnvelope useScaleSpace useWasserstein useBottleneck]; try reflexivity.
      rewrite B; [reflexivity|]. intro Hin. apply Hb; [reflexivity|]. apply in_or_app. left. exact Hin. }
    assert (G : forall after l, (forall q, In q after -> asked q = None) -> chosen_method (parse_options (l ++ after)) = chosen_method (parse_options l)).
    { clear. induction after as [|q after IH]; intros l H; [rewrite app_nil_r; reflexivity|]. replace (l ++ q :: after) with ((l ++ [q]) ++ after) by (rewrite <- app_assoc; reflexivity). rewrite IH by (intros; apply H; right; assumption). rewrite parse_snoc. assert (Hq := H q (or_introl eq_refl)). destruct q; cbn [asked] in Hq; try discriminate; reflexivity. }
    replace (before ++ o :: after) with ((before ++ [o]) ++ after) by (rewrite <- app_assoc; reflexivity). rewrite G by exact Ha. exact A.
  - induction l as [|q l IH] using rev_ind; [reflexivity|]. rewrite parse_snoc. assert (Hq : asked q = None) by (apply Hn; apply in_or_app; right; left; reflexivity). assert (IH' : chosen_method (parse_options l) = Hausdorff).
    { apply IH; [intros x Hx; apply Hn; apply in_or_app; left; exact Hx|]. intros _ Hin. apply Hb; [reflexivity|]. apply in_or_app. left. exact Hin. }
    destruct q; cbn [asked] in Hq; try discriminate; exact IH'.
Qed.

(** FINDING: after [-b] the option [-h] has no effect: the bottleneck distance stays. *)
Theorem C149_last_refuted : forall l, chosen_method (parse_options (l ++ [Opt_b; Opt_h])) = Bottleneck.
Proof. intro l. unfold parse_options. rewrite fold_left_app. reflexivity. Qed.

(** FINDING: after [-S] all values are taken for kernel values, also those of a distance that is
    asked for later. *)
Theorem C149_kernel_refuted : exists l, last_asked l Wasserstein /\ ~ In Opt_k l /\ chosen_method (parse_options l) = Wasserstein /\ calculateKernel (parse_options l) = true.
Proof.
  exists [Opt_S; Opt_w]. refine (conj _ (conj _ (conj eq_refl eq_refl))); [|intros [H|[H|[]]]; discriminate].
  left. exists [Opt_S], Opt_w, []. refine (conj eq_refl (conj eq_refl _)). intros q [].
Qed.

Lemma diagram_of_get {D} (empty : D) ds dim : diagram_of empty ds dim (getPersistenceDiagram empty ds dim).
Proof.
  unfold getPersistenceDiagram. induction ds as [|[k d] ds IH]; [right; split; [reflexivity|intros e []]|]. cbn [find fst]. destruct (N.eqb_spec k dim) as [->|Ne].
  - left. exists [], ds. split; [reflexivity|intros e []].
  - destruct IH as [(before & after & E & H)|[E H]].
    + left. exists ((k, d) :: before), after. split; [cbn [app]; rewrite <- E; reflexivity|]. intros e [<-|He]; [exact Ne|apply H; exact He].
    + right. split; [exact E|]. intros e [<-|He]; [exact Ne|apply H; exact He].
Qed.
Lemma diagram_of_unique {D} (empty : D) ds dim d : diagram_of empty ds dim d -> getPersistenceDiagram empty ds dim = d.
Proof.
  intros [(before & after & -> & H)|[-> H]]; unfold getPersistenceDiagram.
  - induction before as [|[k e] before IH]; cbn [app find fst]; [rewrite N.eqb_refl; reflexivity|]. destruct (N.eqb_spec k dim) as [E|_]; [exfalso; apply (H (k, e) (or_introl eq_refl)); exact E|]. apply IH. intros x Hx. apply H. right. exact Hx.
  - induction ds as [|[k e] ds IH]; [reflexivity|]. cbn [find fst]. destruct (N.eqb_spec k dim) as [E|_]; [exfalso; apply (H (k, e) (or_introl eq_refl)); exact E|]. apply IH. intros x Hx. apply H. right. exact Hx.
Qed.

Lemma sum_loop {A} (f : A -> outcome R) (v : A -> R) : forall l s, (forall a, In a l -> f a = Ok (v a)) -> foldM (fun d a => let* x := f a in Ok (d + x)) l s = Ok (s + total (map v l)).
Proof.
  induction l as [|a l IH]; intros s H; cbn [foldM map total fold_right]; [f_equal; lra|]. rewrite H by (left; reflexivity). cbn [bind]. rewrite IH by (intros; apply H; right; assumption). f_equal. unfold total. lra.
Qed.
Lemma total_nonneg l : Forall (fun x => 0 <= x) l -> 0 <= total l.
Proof. induction 1 as [|x l Hx _ IH]; unfold total in *; cbn [fold_right]; lra. Qed.

(** the dimensions from [lo] to [hi] *)
Definition between (lo hi : N) : list N := map (fun i => lo + N.of_nat i)%N (seq 0 (N.to_nat (hi + 1 - lo))).
Lemma between_In lo hi k : In k (between lo hi) <-> (lo <= k <= hi)%N.
Proof.
  unfold between. rewrite in_map_iff. split.
  - intros (i & <- & Hi). apply in_seq in Hi. lia.
  - intro H. exists (N.to_nat (k - lo)). split; [lia|]. apply in_seq. lia.
Qed.
Lemma between_NoDup lo hi : NoDup (between lo hi).
Proof. unfold between. apply FinFun.Injective_map_NoDup; [|apply seq_NoDup]. intros i j E. lia. Qed.

(** The distance is the root of the sum of the values for the diagrams of every dimension, once
    each; the values are not negative. *)
Theorem C149_sum : forall {D} (empty : D) other (functor : D -> D -> R -> outcome R) ds1 ds2 lo hi p (v : N -> R),
  (hi < 2 ^ 32 - 1)%N -> 0 < p ->
  (forall k d1 d2, (lo <= k <= hi)%N -> diagram_of empty ds1 k d1 -> diagram_of empty ds2 k d2 -> functor d1 d2 p = Ok (v k)) ->
  (forall k, 0 <= v k) ->
  exists dims r, NoDup dims /\ (forall k, In k dims <-> (lo <= k <= hi)%N) /\
    persistenceDiagramDistance empty other functor ds1 ds2 lo hi p = Ok r /\ 0 <= r /\ power r p = total (map v dims).
Proof.
  intros D empty other functor ds1 ds2 lo hi p v Hhi Hp Hv Hn. exists (between lo hi), (cpp_pow other (total (map v (between lo hi))) (1 / p)).
  refine (conj (between_NoDup lo hi) (conj (between_In lo hi) (conj _ _))).
  - unfold persistenceDiagramDistance, dimensions. destruct (N.leb_spec (2 ^ 32 - 1) hi); [lia|]. cbn [bind]. fold (between lo hi). rewrite (sum_loop _ v); [cbn [bind]; rewrite Rplus_0_l; reflexivity|]. intros k Hk. apply between_In in Hk. apply Hv; [exact Hk| |]; apply diagram_of_get.
  - set (s := total (map v (between lo hi))). assert (Hs : 0 <= s). { apply total_nonneg. apply Forall_forall. intros x Hx. apply in_map_iff in Hx. destruct Hx as (k & <- & _). apply Hn. }
    assert (Hq : 0 < 1 / p) by (apply Rmult_lt_0_compat; [lra|apply Rinv_0_lt_compat; exact Hp]). rewrite pow_power by assumption. split; [apply power_nonneg|].
    unfold power. destruct (Req_EM_T s 0) as [Z|Z]; [destruct (Req_EM_T 0 0); [lra|contradiction]|]. destruct (Req_EM_T (Rpower s (1 / p)) 0) as [Z2|_]; [unfold Rpower in Z2; pose proof (exp_pos (1 / p * ln s)); lra|]. rewrite Rpower_mult. replace (1 / p * p) with 1 by (field; lra). apply Rpower_1. lra.
Qed.

Lemma power_root x p : 0 <= x -> 0 < p -> power (power x p) (1 / p) = x.
Proof.
  intros Hx Hp. unfold power. destruct (Req_EM_T x 0) as [->|Hne]; [destruct (Req_EM_T 0 0); [reflexivity|contradiction]|]. destruct (Req_EM_T (Rpower x p) 0) as [Z|_]; [unfold Rpower in Z; pose proof (exp_pos (p * ln x)); lra|]. rewrite Rpower_mult. replace (p * (1 / p)) with 1 by (field; lra). apply Rpower_1. lra.
Qed.
Lemma power_inj x y p : 0 <= x -> 0 <= y -> 0 < p -> power x p = power y p -> x = y.
Proof. intros Hx Hy Hp E. rewrite <- (power_root x p Hx Hp), <- (power_root y p Hy Hp), E. reflexivity. Qed.

(** With the Hausdorff distance the result is the [p]-norm of the distances in all dimensions; for
    one dimension it is the distance itself. *)
Theorem C149_hausdorff : forall {D} (empty : D) other w b (h : D -> D -> R) ms sigma ds1 ds2 lo hi p,
  (hi < 2 ^ 32 - 1)%N -> 0 < p -> (forall x y, 0 <= h x y) ->
  exists dims r, NoDup dims /\ (forall k, In k dims <-> (lo <= k <= hi)%N) /\
    persistenceDiagramDistance empty other (chosen_functor other w b (fun x y => Ok (h x y)) ms Hausdorff sigma) ds1 ds2 lo hi p = Ok r /\ 0 <= r /\
    (forall f, (forall k d1 d2, In k dims -> diagram_of empty ds1 k d1 -> diagram_of empty ds2 k d2 -> f k = h d1 d2) -> power r p = total (map (fun k => power (f k) p) dims)) /\
    (lo = hi -> forall d1 d2, diagram_of empty ds1 lo d1 -> diagram_of empty ds2 lo d2 -> r = h d1 d2).
Proof.
  intros D empty other w b h ms sigma ds1 ds2 lo hi p Hhi Hp Hh. set (v := fun k => h (getPersistenceDiagram empty ds1 k) (getPersistenceDiagram empty ds2 k)).
  destruct (C149_sum empty other (chosen_functor other w b (fun x y => Ok (h x y)) ms Hausdorff sigma) ds1 ds2 lo hi p (fun k => power (v k) p) Hhi Hp) as (dims & r & ND & Hd & E & R0 & Er).
  - intros k d1 d2 Hk H1 H2. cbn [chosen_functor bind]. rewrite pow_power by (try apply Hh; exact Hp). unfold v. rewrite (diagram_of_unique _ _ _ _ H1), (diagram_of_unique _ _ _ _ H2). reflexivity.
  - intro k. apply power_nonneg.
  - exists dims, r. refine (conj ND (conj Hd (conj E (conj R0 (conj _ _))))).
    + intros f Hf. rewrite Er. f_equal. apply map_ext_in. intros k Hk. f_equal. symmetry. apply Hf; [exact Hk| |]; apply diagram_of_get.
    + intros <- d1 d2 H1 H2. apply power_inj with p; [exact R0|apply Hh|exact Hp|]. rewrite Er. assert (dims = [lo]) as ->.
      { destruct dims as [|a [|a' t]]; [exfalso; apply (proj2 (Hd lo)); lia| |].
        - assert (a = lo) by (assert (lo <= a <= lo)%N by (apply Hd; left; reflexivity); lia). subst. reflexivity.
        - exfalso. assert (lo <= a <= lo)%N by (apply Hd; left; reflexivity). assert (lo <= a' <= lo)%N by (apply Hd; right; left; reflexivity). apply NoDup_cons_iff in ND. apply (proj1 ND). left. lia. }
      cbn [map total fold_right]. unfold v. rewrite (diagram_of_unique _ _ _ _ H1), (diagram_of_unique _ _ _ _ H2). lra.
Qed.

(** FINDING: the Wasserstein distance of the library is a root already, the bottleneck distance is
    no power: for one dimension and a power that is not one, the result is never the distance,
    unless this is zero or one. *)
Theorem C149_root_refuted : forall {D} (empty : D) other (dist : D -> D -> R) ms hd sigma x y p m, (m = Wasserstein \/ m = Bottleneck) ->
  0 < p -> p <> 1 -> 0 < dist x y -> dist x y <> 1 ->
  exists r, persistenceDiagramDistance empty other (chosen_functor other (fun d1 d2 _ => Ok (dist d1 d2)) (fun d1 d2 => Ok (dist d1 d2)) hd ms m sigma) [(0%N, x)] [(0%N, y)] 0 0 p = Ok r /\ r <> dist x y.
Proof.
  intros D empty other dist ms hd sigma x y p m Hm Hp Np Hd Nd. exists (cpp_pow other (dist x y) (1 / p)). split.
  - unfold persistenceDiagramDistance. change (dimensions 0 0) with (Ok [0%N]). destruct Hm as [-> | ->]; cbn [bind foldM getPersistenceDiagram find fst snd N.eqb chosen_functor]; rewrite Rplus_0_l; reflexivity.
  - unfold cpp_pow. destruct (Rlt_dec 0 (dist x y)); [|lra]. unfold Rpower. intro E. assert (L : 1 / p * ln (dist x y) = ln (dist x y)) by (rewrite <- (ln_exp (1 / p * ln (dist x y))), E; reflexivity).
    assert (N : ln (dist x y) <> 0) by (rewrite <- ln_1; intro Z; apply ln_inv in Z; lra). apply Np. assert (Q : (1 / p - 1) * ln (dist x y) = 0) by lra. apply Rmult_integral in Q. destruct Q as [Q|Q]; [|contradiction]. assert (W : 1 / p = 1) by lra. apply Rmult_eq_compat_l with (r := p) in W. replace (p * (1 / p)) with 1 in W by (field; lra). lra.
Qed.

(** FINDING: a data set without a diagram of some dimension is given an empty diagram, whose
    dimension is zero, for which the Wasserstein distance is an error. *)
Theorem C149_missing_refuted : forall top dist orth root fuel other b h ms sigma (D : diagram) p, dgm_dim D = 1%nat ->
  persistenceDiagramDistance empty_diagram other
    (chosen_functor other (fun D1 D2 _ => let* w := wassersteinDistance top dist orth root fuel D1 D2 in Ok (IZR w)) b h ms Wasserstein sigma)
    [(1%N, D)] [] 1 1 p = Throw RuntimeError.
Proof.
  intros top dist orth root fuel other b h ms sigma D p HD. unfold persistenceDiagramDistance. change (dimensions 1 1) with (Ok [1%N]). cbn [bind foldM getPersistenceDiagram find fst snd N.eqb Pos.eqb chosen_functor]. unfold wassersteinDistance. rewrite HD. reflexivity.
Qed.

Example C149_example : exists r, persistenceDiagramDistance 0 (fun _ _ => 0) (chosen_functor (fun _ _ => 0) (fun _ _ _ => UB) (fun _ _ => UB) (fun x y => Ok (Rabs (x - y))) (fun _ _ _ => UB) Hausdorff 1) [(0%N, 1); (1%N, 5); (1%N, 100)] [(0%N, 4); (1%N, 1)] 0 1 2 = Ok r /\ r = 5.
Proof.
  destruct (C149_hausdorff 0 (fun _ _ => 0) (fun _ _ _ => UB) (fun _ _ => UB) (fun x y => Rabs (x - y)) (fun _ _ _ => UB) 1 [(0%N, 1); (1%N, 5); (1%N, 100)] [(0%N, 4); (1%N, 1)] 0 1 2) as (dims & r & ND & Hd & E & R0 & Er & _); [reflexivity|lra|intros; apply Rabs_pos|].
  exists r. split; [exact E|]. apply power_inj with 2; [exact R0|lra|lra|]. rewrite (Er (fun k => if N.eqb k 0 then 3 else 4)).
  - assert (T : total (map (fun k => power (if N.eqb k 0 then 3 else 4) 2) dims) = total (map (fun k => power (if N.eqb k 0 then 3 else 4) 2) [0%N; 1%N])).
    { assert (P : Permutation.Permutation dims [0%N; 1%N]). { apply Permutation.NoDup_Permutation; [exact ND|repeat constructor; cbn; intuition discriminate|]. intro k. rewrite Hd. cbn [In]. lia. }
      apply (Permutation.Permutation_map (fun k => power (if N.eqb k 0 then 3 else 4) 2)) in P. revert P. generalize (map (fun k => power (if N.eqb k 0 then 3 else 4) 2) dims) as u, (map (fun k => power (if N.eqb k 0 then 3 else 4) 2) [0%N; 1%N]) as w. clear. intros u w P. unfold total. induction P; cbn [fold_right]; lra. }
    rewrite T. cbn [map total fold_right N.eqb]. rewrite !power_2 by lra. lra.
  - intros k d1 d2 Hk H1 H2. apply Hd in Hk. rewrite <- (diagram_of_unique _ _ _ _ H1), <- (diagram_of_unique _ _ _ _ H2). assert (k = 0%N \/ k = 1%N) as [-> | ->] by lia; cbn; unfold Rabs; destruct (Rcase_abs _); lra.
Qed.

Print Assumptions C149_method.
Print Assumptions C149_sum.
Print Assumptions C149_hausdorff.
Print Assumptions C149_root_refuted.
Print Assumptions C149_missing_refuted.
