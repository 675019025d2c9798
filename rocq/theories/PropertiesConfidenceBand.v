(** * Property C185: confidence bands of piecewise linear functions. *)
From Coq Require Import List Arith Bool ZArith QArith Qabs Qfield Qround Lia Lqa Sorted Setoid Morphisms Permutation.
From Verif Require Import Base BaseFacts Curvature SpecCurvature PropertiesCurvature PiecewiseLinear LinearFacts PropertiesLinear Bootstrap PropertiesBootstrap ConfidenceBand.
Import ListNotations.
Local Open Scope nat_scope.

(** ** Specification *)
(** functions with the same domain as [h] *)
Definition over (h f : pl) : Prop := pl_sorted f /\ f <> [] /\ same_hull f h.
(** [m] is the mean of the functions, at every point *)
Definition is_mean (fs : list pl) (m : pl) : Prop := forall x, (pl_eval m x * qn (length fs) == fold_right Qplus 0 (map (fun f => pl_eval f x) fs))%Q.
(** the function [r] does not differ from [m] by more than [w] on the domain of [h] *)
Definition within (h m : pl) (w : Q) (r : pl) : Prop := forall x, in_hull h x -> (Qabs (pl_eval r x - pl_eval m x) <= w)%Q.
(** [n] of the elements satisfy [P] *)
Definition counts {A} (P : A -> Prop) (l : list A) (n : nat) : Prop := exists b, (forall x, In x l -> (b x = true <-> P x)) /\ n = length (filter b l).

(** ** Facts *)
Lemma hull_join h f g x : over h f -> over h g -> (in_hull (f ++ g) x <-> in_hull h x).
Proof.
  intros (_ & Nf & Hf) (_ & Ng & Hg). split.
  - intro H. destruct (compatible_covers f g x) as [C _]; [left; intro y; rewrite (Hf y), (Hg y); tauto|exact H|]. destruct C as [C|C]; [contradiction|]. apply Hf. exact C.
  - intro H. apply Hf in H. destruct H as [(p & Hp & A) (q & Hq & B)]. split; [exists p|exists q]; (split; [apply in_app_iff; left; assumption|assumption]).
Qed.
Lemma hull_nonempty h f : over h f -> exists x, in_hull h x.
Proof. intros (_ & N & H). destruct f as [|p f]; [contradiction|]. exists (fst p). apply H, hull_In. left. reflexivity. Qed.
Lemma apply_over h f g op : over h f -> over h g -> over h (pl_apply f g op).
Proof.
  intros Hf Hg. assert (E : forall x, in_hull (pl_apply f g op) x <-> in_hull h x).
  { intro x. rewrite <- (hull_merged f g op x) by (left; apply Hf). apply hull_join; assumption. }
  split; [apply apply_sorted; apply Hf|]. split; [|exact E]. destruct (hull_nonempty h f Hf) as (x & Hx). apply E in Hx. destruct Hx as [(p & Hp & _) _]. intro X. rewrite X in Hp. contradiction.
Qed.
Lemma map_over h f (phi : Q -> Q) : over h f -> over h (map (fun p => (fst p, phi (snd p))) f).
Proof.
  intros (Hs & N & H). split; [|split].
  - clear N H. induction Hs as [|p f _ IH Hf]; cbn [map]; constructor; auto. rewrite Forall_map. exact Hf.
  - destruct f; [contradiction|discriminate].
  - intro x. rewrite <- (H x). split; [apply hull_map|]. intros [(p & Hp & A) (q & Hq & B)]. split; [exists (fst p, phi (snd p))|exists (fst q, phi (snd q))]; (split; [apply in_map_iff; eauto|assumption]).
Qed.
Lemma empty_plus h f : over h f -> over h (pl_plus [] f).
Proof.
  intros (Hs & N & H). assert (E : forall x, in_hull (pl_plus [] f) x <-> in_hull h x).
  { intro x. unfold pl_plus. rewrite <- (hull_merged [] f Qplus x) by (right; exact N). cbn [app]. apply H. }
  split; [apply apply_sorted; constructor|]. split; [|exact E]. destruct (hull_nonempty h f (conj Hs (conj N H))) as (x & Hx). apply E in Hx. destruct Hx as [(p & Hp & _) _]. intro X. rewrite X in Hp. contradiction.
Qed.
Lemma sum_over h fs : forall acc, over h acc -> Forall (over h) fs -> over h (fold_left pl_plus fs acc) /\
  forall x, (pl_eval (fold_left pl_plus fs acc) x == pl_eval acc x + fold_right Qplus 0 (map (fun f => pl_eval f x) fs))%Q.
Proof.
  induction fs as [|f fs IH]; intros acc Ha Hfs; cbn [fold_left map fold_right]; [split; [exact Ha|intro x; ring]|].
  inversion Hfs as [|? ? Hf Hr]; subst. destruct (IH (pl_plus acc f) (apply_over h acc f Qplus Ha Hf) Hr) as [A B]. split; [exact A|]. intro x. rewrite (B x).
  destruct (C39_sum acc f x (proj1 Ha) (proj1 Hf)) as (_ & _ & E & _); [left; intro y; rewrite (proj2 (proj2 Ha) y), (proj2 (proj2 Hf) y); tauto|]. rewrite E. ring.
Qed.
Lemma mean_ok h fs : fs <> [] -> Forall (over h) fs -> exists m, meanCalculation fs = Ok m /\ over h m /\ is_mean fs m.
Proof.
  intros N Hfs. destruct fs as [|f fs]; [contradiction|]. inversion Hfs as [|? ? Hf Hr]; subst.
  destruct (sum_over h fs (pl_plus [] f) (empty_plus h f Hf) Hr) as [A B]. unfold meanCalculation. cbn [fold_left]. set (s := fold_left pl_plus fs (pl_plus [] f)) in *.
  set (n := inject_Z (Z.of_nat (length (f :: fs)))). assert (Pn : (0 < n)%Q) by (unfold n; change 0%Q with (inject_Z 0); rewrite <- Zlt_Qlt; cbn [length]; lia).
  assert (E : pl_divide s n = Ok (pl_scale s (1 / n))). { unfold pl_divide, pl_divide_assign. destruct (Qeq_bool n 0) eqn:Z; [apply Qeq_bool_iff in Z; lra|reflexivity]. }
  exists (pl_scale s (1 / n)). split; [exact E|]. split; [apply (map_over h s (fun y => (y * (1 / n))%Q)); exact A|].
  intro x. unfold qn. fold n. destruct (C39_scalar s (1 / n) x (proj1 A)) as (E1 & _). rewrite E1, (B x). destruct (C39_sum [] f x ltac:(constructor) (proj1 Hf)) as (_ & _ & E2 & _); [right; left; reflexivity|].
  rewrite E2. cbn [map fold_right]. change (pl_eval [] x) with 0%Q. field. lra.
Qed.

Lemma parameter_spec h lowest root m r : over h m -> over h r -> (lowest <= 0)%Q -> (0 < root)%Q ->
  (0 <= parameter lowest root m r)%Q /\ forall q, (parameter lowest root m r <= q)%Q <-> within h m (q / root) r.
Proof.
  intros Hm Hr Hl Hroot. set (d := pl_minus r m). assert (Hd : over h d) by (apply apply_over; assumption).
  assert (Cmp : compatible r m) by (left; intro y; rewrite (proj2 (proj2 Hr) y), (proj2 (proj2 Hm) y); tauto).
  set (g := pl_scale d root). assert (Hg : over h g) by (apply (map_over h d (fun y => (y * root)%Q)); exact Hd).
  assert (Ng : no_sign_change g).
  { intros a b Hn. unfold g, pl_scale in Hn. apply map_neighbours in Hn. destruct Hn as (p & q & Hn & -> & ->). cbn [snd]. pose proof (C62_difference r m (proj1 Hr) (proj1 Hm) Cmp p q Hn) as X. assert (0 < root * root)%Q by nra.
    setoid_replace (snd p * root * (snd q * root))%Q with (snd p * snd q * (root * root))%Q by ring. apply Qmult_le_0_compat; [exact X|lra]. }
  assert (Eg : forall x, (pl_eval (pl_abs g) x == Qabs (pl_eval r x - pl_eval m x) * root)%Q).
  { intro x. rewrite (C62_abs g x (proj1 Hg) Ng). unfold g. destruct (C39_scalar d root x (proj1 Hd)) as (E1 & _). rewrite E1. unfold d. destruct (C39_sum r m x (proj1 Hr) (proj1 Hm) Cmp) as (_ & _ & _ & E2). rewrite E2, Qabs_Qmult, (Qabs_pos root) by lra. reflexivity. }
  assert (Ha : over h (pl_abs g)) by (apply (map_over h g Qabs); exact Hg).
  destruct (C39_max lowest (pl_abs g) (proj1 Ha) (proj1 (proj2 Ha))) as [(x0 & Hx0 & E0) M].
  { intros p Hp. unfold pl_abs in Hp. apply in_map_iff in Hp. destruct Hp as (q & <- & _). cbn [snd]. pose proof (Qabs_nonneg (snd q)). lra. }
  change (pl_max lowest (pl_abs g)) with (parameter lowest root m r) in *. split.
  - rewrite <- E0, (Eg x0). pose proof (Qabs_nonneg (pl_eval r x0 - pl_eval m x0)). nra.
  - intro q. split.
    + intros Hq x Hx. apply Qle_shift_div_l; [exact Hroot|]. rewrite <- (Eg x). eapply Qle_trans; [apply M; apply Ha; exact Hx|exact Hq].
    + intro W. rewrite <- E0, (Eg x0). apply Ha in Hx0. specialize (W x0 Hx0). apply (Qmult_le_compat_r _ _ root) in W; [|lra]. eapply Qle_trans; [exact W|]. setoid_replace (q / root * root)%Q with q by (field; lra). lra.
Qed.

Lemma Forall2_len {A B} (R : A -> B -> Prop) l l' : Forall2 R l l' -> length l = length l'.
Proof. induction 1; cbn; congruence. Qed.
Lemma replicates_ok draw h B fs : fs <> [] -> Forall (over h) fs -> (forall k i, draw k i < length fs) ->
  exists rs, meanReplicates draw B fs = Ok rs /\ length rs = B /\ Forall (over h) rs /\
    forall k r, nth_error rs k = Some r -> exists sample, is_mean sample r /\ length sample = length fs /\ forall i f, nth_error sample i = Some f -> nth_error fs (draw k i) = Some f.
Proof.
  intros N Hfs Hd. destruct fs as [|f0 fs0] eqn:Efs; [contradiction|]. rewrite <- Efs in *.
  set (sample := sample_of draw fs f0). assert (Ls : forall k, length (sample k) = length fs) by (intro k; unfold sample, sample_of; rewrite map_length, seq_length; reflexivity).
  assert (Os : forall k, Forall (over h) (sample k)). { intro k. apply Forall_forall. intros f Hf. unfold sample, sample_of in Hf. apply in_map_iff in Hf. destruct Hf as (i & <- & _). rewrite Forall_forall in Hfs. apply Hfs, nth_In, Hd. }
  assert (Ns : forall k, sample k <> []) by (intros k X; specialize (Ls k); rewrite X, Efs in Ls; discriminate).
  assert (G : forall l acc, exists rs, foldM (fun replicates k => let* s := makeSample draw fs k in let* mean := meanCalculation s in Ok (replicates ++ [mean])) l acc = Ok (acc ++ rs) /\ Forall2 (fun k r => over h r /\ is_mean (sample k) r) l rs).
  { induction l as [|k l IH]; intro acc; [exists []; split; [cbn; rewrite app_nil_r; reflexivity|constructor]|]. cbn [foldM]. rewrite (makeSample_ok draw fs f0 Hd k). cbn [bind]. fold (sample k).
    destruct (mean_ok h (sample k) (Ns k) (Os k)) as (m & Em & Om & Im). rewrite Em. cbn [bind]. destruct (IH (acc ++ [m])) as (rs & E & F). exists (m :: rs). split; [rewrite E, <- app_assoc; reflexivity|]. constructor; [split; assumption|exact F]. }
  destruct (G (seq 0 B) []) as (rs & E & F). cbn [app] in E. exists rs. split; [unfold meanReplicates; rewrite Efs in *; exact E|]. pose proof (Forall2_len _ _ _ F) as L. rewrite seq_length in L. split; [symmetry; exact L|].
  assert (Nth : forall k r, nth_error rs k = Some r -> over h r /\ is_mean (sample k) r).
  { intros k r Hk. assert (X : forall a l, Forall2 (fun k r => over h r /\ is_mean (sample k) r) (seq a (length l)) l -> forall k r, nth_error l k = Some r -> over h r /\ is_mean (sample (a + k)) r).
    { clear. intros a l. revert a. induction l as [|y l IH]; intros a FF k r Hk; [destruct k; discriminate|]. cbn [length seq] in FF. inversion FF as [|? ? ? ? A FR]; subst. destruct k as [|k]; cbn in Hk; [injection Hk as <-; rewrite Nat.add_0_r; exact A|]. rewrite Nat.add_succ_r. apply (IH (S a) FR k r Hk). }
    apply (X 0 rs); [rewrite <- L; exact F|exact Hk]. }
  split; [apply Forall_forall; intros r Hr; apply In_nth_error in Hr; destruct Hr as [k Hk]; apply (Nth k r Hk)|].
  intros k r Hk. exists (sample k). split; [apply (Nth k r Hk)|]. split; [apply Ls|]. intros i f Hi.
  assert (Hil : i < length fs) by (rewrite <- (Ls k); apply nth_error_Some; congruence). unfold sample, sample_of in Hi. rewrite nth_error_map in Hi. rewrite (nth_error_nth' _ 0) in Hi by (rewrite seq_length; exact Hil). rewrite seq_nth in Hi by exact Hil. cbn [option_map Nat.add] in Hi. injection Hi as <-. apply nth_error_nth'. apply Hd.
Qed.

Lemma filter_map_length {A B} (f : A -> B) (b : B -> bool) l : length (filter b (map f l)) = length (filter (fun x => b (f x)) l).
Proof. induction l as [|x l IH]; [reflexivity|]. cbn. destruct (b (f x)); cbn; rewrite IH; reflexivity. Qed.
Lemma filter_length_le {A} (b c : A -> bool) l : (forall x, In x l -> b x = true -> c x = true) -> length (filter b l) <= length (filter c l).
Proof.
  induction l as [|x l IH]; intro H; [reflexivity|]. cbn. assert (L : length (filter b l) <= length (filter c l)) by (apply IH; intros y Hy; apply H; right; exact Hy).
  destruct (b x) eqn:E; [rewrite (H x (or_introl eq_refl) E); cbn; lia|destruct (c x); cbn; lia].
Qed.

(** ** The theorems *)
Theorem C185_band : forall draw umax lowest root B alpha h fs, fs <> [] -> Forall (over h) fs -> (forall k i, draw k i < length fs) -> 0 < B -> (Z.of_nat B <= umax)%Z ->
  (lowest <= 0)%Q -> (0 < root)%Q -> (0 <= alpha)%Q -> (alpha < 1)%Q ->
  exists rs m up lo w, meanReplicates draw B fs = Ok rs /\ confidence_band draw umax lowest root B alpha fs = Ok (m, up, lo) /\
    is_mean fs m /\ length rs = B /\
    (forall k r, nth_error rs k = Some r -> exists sample, is_mean sample r /\ length sample = length fs /\ forall i f, nth_error sample i = Some f -> nth_error fs (draw k i) = Some f) /\
    (0 <= w)%Q /\ (forall x, in_hull h x -> (pl_eval up x == pl_eval m x + w)%Q /\ (pl_eval lo x == pl_eval m x - w)%Q) /\
    (forall n, counts (within h m w) rs n -> ((1 - alpha) * qn B <= qn n)%Q) /\
    forall v n, (v < w)%Q -> counts (within h m v) rs n -> (qn n < (1 - alpha) * qn B)%Q.
Proof.
  intros draw umax lowest root B alpha h fs N Hfs Hd HB HU Hl Hroot A0 A1. destruct (mean_ok h fs N Hfs) as (m & Em & Om & Im). destruct (replicates_ok draw h B fs N Hfs Hd) as (rs & Er & Lr & Or & Sr).
  set (th := map (parameter lowest root m) rs). assert (Lt : length th = B) by (unfold th; rewrite map_length; exact Lr).
  destruct (quantile_at th umax (1 - alpha)%Q) as (i & q & Ei & Eq & Iq & Q1 & Q2); [lia|lia|lra|lra|]. rewrite Lt in Ei, Q1, Q2. rewrite Forall_forall in Or.
  exists rs, m, (pl_plus_scalar m (q / root)), (pl_minus_scalar m (q / root)), (q / root)%Q. split; [exact Er|]. split; [|split; [exact Im|split; [exact Lr|split; [exact Sr|split; [|split; [|split]]]]]].
  - unfold confidence_band. rewrite Em. cbn [bind]. rewrite Er. cbn [bind]. fold th. rewrite Ei. cbn [bind]. rewrite Eq. reflexivity.
  - unfold th in Iq. apply in_map_iff in Iq. destruct Iq as (r & <- & Hr). apply Qle_shift_div_l; [exact Hroot|]. rewrite Qmult_0_l. apply (parameter_spec h lowest root m r Om (Or r Hr) Hl Hroot).
  - intros x Hx. apply (proj2 (proj2 Om)) in Hx. destruct (C39_scalar m (q / root) x (proj1 Om)) as (_ & _ & _ & E). exact (E Hx).
  - intros n (b & Hb & ->). eapply Qle_trans; [exact Q1|]. apply qn_le. unfold count_le, th. rewrite filter_map_length. apply filter_length_le. intros r Hr Hq. apply Qle_bool_iff in Hq. apply Hb; [exact Hr|]. apply (parameter_spec h lowest root m r Om (Or r Hr) Hl Hroot). exact Hq.
  - intros v n Hv (b & Hb & ->). eapply Qle_lt_trans; [|exact Q2]. apply qn_le. unfold count_lt, th. rewrite filter_map_length. apply filter_length_le. intros r Hr Hbr. apply Hb in Hbr; [|exact Hr].
    destruct (Qle_bool q (parameter lowest root m r)) eqn:X; [|reflexivity]. exfalso. apply Qle_bool_iff in X.
    assert (Y : (parameter lowest root m r <= v * root)%Q). { apply (parameter_spec h lowest root m r Om (Or r Hr) Hl Hroot). intros x Hx. specialize (Hbr x Hx). setoid_replace (v * root / root)%Q with v by (field; lra). exact Hbr. }
    assert (Z : (q / root * root == q)%Q) by (field; lra). nra.
Qed.

(** FINDING: the significance level is not checked; for 1 there is no quantile, and the program ends with an exception. *)
Theorem C185_level_refuted : forall draw umax lowest root B alpha h fs, fs <> [] -> Forall (over h) fs -> (forall k i, draw k i < length fs) -> (Z.of_nat B <= umax)%Z -> (0 < umax)%Z -> (alpha == 1)%Q ->
  confidence_band draw umax lowest root B alpha fs = Throw OutOfRange.
Proof.
  intros draw umax lowest root B alpha h fs N Hfs Hd HB HU Ha. destruct (mean_ok h fs N Hfs) as (m & Em & Om & Im). destruct (replicates_ok draw h B fs N Hfs Hd) as (rs & Er & Lr & Or & Sr).
  unfold confidence_band. rewrite Em. cbn [bind]. rewrite Er. cbn [bind].
  assert (E : index umax B (1 - alpha) = Ok umax).
  { unfold index. assert (Z0 : Qceiling (inject_Z (Z.of_nat B) * (1 - alpha)) = 0%Z). { rewrite Ha. setoid_replace (inject_Z (Z.of_nat B) * (1 - 1))%Q with (inject_Z 0) by (unfold inject_Z; ring). apply Qceiling_Z. }
    rewrite Z0. destruct (Z.ltb_spec umax 0); [lia|]. cbn [orb Z.ltb Z.compare]. f_equal. change (0 - 1)%Z with (-1)%Z. symmetry. apply (Z.mod_unique _ _ (-1)); lia. }
  rewrite E. cbn [bind]. unfold at_. rewrite (proj2 (nth_error_None _ _)); [reflexivity|]. rewrite cpp_sort_length, map_length. lia.
Qed.

(** Less than two files are an error. *)
Theorem C185_files : forall draw umax lowest root load B alpha files,
  (length files <= 1 -> smoothing_main draw umax lowest root load B alpha files = Ok ((-1)%Z, [])) /\
  forall fs m up lo, 2 <= length files -> Forall2 (fun file f => load file = Ok f) files fs -> confidence_band draw umax lowest root B alpha fs = Ok (m, up, lo) ->
    smoothing_main draw umax lowest root load B alpha files = Ok (0%Z, [m; up; lo]).
Proof.
  intros draw umax lowest root load B alpha files. unfold smoothing_main. split.
  - intro H. apply Nat.leb_le in H. rewrite H. reflexivity.
  - intros fs m up lo H F E. destruct (Nat.leb_spec (length files) 1); [lia|].
    assert (G : forall acc, foldM (fun fs file => let* f := load file in Ok (fs ++ [f])) files acc = Ok (acc ++ fs)).
    { clear -F. induction F as [|file f files fs Ef F IH]; intro acc; [cbn; rewrite app_nil_r; reflexivity|]. cbn [foldM]. rewrite Ef. cbn [bind]. rewrite IH, <- app_assoc. reflexivity. }
    rewrite G. cbn [bind app]. rewrite E. reflexivity.
Qed.

(** ** Examples *)
Definition two_functions : list pl := [[(0, 0); (2, 4)]; [(0, 2); (1, 2); (2, 0)]]%Q.
(** the samples are (first, first), (first, second), (second, second), (second, first) *)
Definition some_draw (k i : nat) : nat := nth (2 * k + i) [0; 0; 0; 1; 1; 1; 1; 0] 0.
Definition values_at (xs : list Q) (b : outcome (pl * pl * pl)) : list (list Q) :=
  match b with Ok (m, up, lo) => map (fun f => map (fun x => Qred (pl_eval f x)) xs) [m; up; lo] | _ => [] end.
Example C185_half : values_at [0; 1; 2]%Q (confidence_band some_draw 4294967295 (-1000) (7 # 5) 4 (1 # 2) two_functions) = [[1; 2; 2]; [1; 2; 2]; [1; 2; 2]]%Q.
Proof. vm_compute. reflexivity. Qed.
Example C185_most : values_at [0; 1; 2]%Q (confidence_band some_draw 4294967295 (-1000) (7 # 5) 4 (1 # 4) two_functions) = [[1; 2; 2]; [3; 4; 4]; [-1; 0; 0]]%Q.
Proof. vm_compute. reflexivity. Qed.
Example C185_domain : Forall (over (hd [] two_functions)) two_functions.
Proof.
  unfold two_functions. cbn [hd]. apply Forall_cons; [|apply Forall_cons; [|apply Forall_nil]]; (split; [repeat (apply SSorted_cons || apply SSorted_nil || apply Forall_cons || apply Forall_nil); reflexivity|split; [discriminate|]]).
  - intro x. reflexivity.
  - intro x. split; intros [(p & Hp & A) (q & Hq & B)]; cbn in Hp, Hq.
    + split; [exists (0, 0)%Q|exists (2, 4)%Q]; (split; [cbn; auto|cbn]).
      * destruct Hp as [<-|[<-|[<-|[]]]]; cbn in A; lra.
      * destruct Hq as [<-|[<-|[<-|[]]]]; cbn in B; lra.
    + split; [exists (0, 2)%Q|exists (2, 0)%Q]; (split; [cbn; auto|cbn]).
      * destruct Hp as [<-|[<-|[]]]; cbn in A; lra.
      * destruct Hq as [<-|[<-|[]]]; cbn in B; lra.
Qed.

Print Assumptions C185_band.
Print Assumptions C185_level_refuted.
Print Assumptions C185_files.
