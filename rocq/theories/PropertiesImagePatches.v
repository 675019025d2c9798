(** * C160: processing of image patches. *)
From Coq Require Import Reals List Arith Bool ZArith Lia Lra Permutation Sorted.
From Verif Require Import Base BaseFacts ImagePatches.
Import ListNotations.
Local Open Scope R_scope.

(** ** Specification *)
Definition sumn (n : nat) (f : nat -> R) : R := fold_right Rplus 0 (map f (seq 0 n)).
Definition sq (x : R) : R := x * x.
(** the sum of the squared differences of neighbouring pixels of a square of side [n], every pair counted once *)
Definition contrast (n : nat) (f : nat -> nat -> R) : R :=
  sumn n (fun i => sumn (n - 1) (fun j => sq (f i j - f i (S j)))) +
  sumn (n - 1) (fun i => sumn n (fun j => sq (f i j - f (S i) j))).
(** the pixels of a patch, row by row *)
Definition side (p : list R) : nat := Nat.sqrt (length p).
Definition pixel (p : list R) (i j : nat) : R := nth (side p * i + j) p 0.
Definition sum (p : list R) : R := fold_right Rplus 0 p.
(** [t] is the value at position [k] in ascending order: at most [k] values are smaller, more than [k] are not larger *)
Definition ranked (l : list R) (k : nat) (t : R) : Prop :=
  In t l /\ (length (filter (fun x => if Rlt_dec x t then true else false) l) <= k)%nat /\
  (k < length (filter (fun x => if Rle_dec x t then true else false) l))%nat.

(** ** Sums *)
Lemma total_sum p : total p = sum p.
Proof.
  unfold total, sum. assert (H : forall l a, fold_left Rplus l a = a + fold_right Rplus 0 l).
  { induction l as [|x l IH]; intro a; cbn [fold_left fold_right]; [lra|]. rewrite IH. lra. }
  rewrite H. lra.
Qed.

Lemma sumn_S n f : sumn (S n) f = sumn n f + f n.
Proof.
  unfold sumn. rewrite seq_S, map_app, fold_right_app. cbn [map fold_right plus].
  assert (H : forall l a, fold_right Rplus a l = fold_right Rplus 0 l + a).
  { induction l as [|x l IH]; intro a; cbn [fold_right]; [lra|]. rewrite IH. lra. }
  rewrite H. lra.
Qed.
Lemma sumn_0 f : sumn 0 f = 0. Proof. reflexivity. Qed.
Lemma sumn_ext n f g : (forall i, (i < n)%nat -> f i = g i) -> sumn n f = sumn n g.
Proof. induction n as [|n IH]; intro H; [reflexivity|]. rewrite !sumn_S, IH, H; auto. Qed.
Lemma sumn_plus n f g : sumn n (fun i => f i + g i) = sumn n f + sumn n g.
Proof. induction n as [|n IH]; [rewrite !sumn_0; lra|]. rewrite !sumn_S, IH. lra. Qed.
Lemma sumn_scale n c f : sumn n (fun i => c * f i) = c * sumn n f.
Proof. induction n as [|n IH]; [rewrite !sumn_0; lra|]. rewrite !sumn_S, IH. lra. Qed.
Lemma sumn_nonneg n f : (forall i, (i < n)%nat -> 0 <= f i) -> 0 <= sumn n f.
Proof. induction n as [|n IH]; intro H; [rewrite sumn_0; lra|]. rewrite sumn_S. specialize (H n (Nat.lt_succ_diag_r n)) as Hn. assert (0 <= sumn n f) by (apply IH; auto). lra. Qed.

Lemma sumn_zero n : sumn n (fun _ => 0) = 0.
Proof. induction n as [|n IH]; [reflexivity|]. rewrite sumn_S, IH. lra. Qed.

Lemma sumn_before n g : sumn n (fun j => if (j + 1 <? n)%nat then g j else 0) = sumn (n - 1) g.
Proof.
  destruct n as [|n]; [reflexivity|]. rewrite sumn_S. destruct (Nat.ltb_spec (n + 1) (S n)); [lia|].
  replace (S n - 1)%nat with n by lia. rewrite Rplus_0_r. apply sumn_ext. intros i Hi. destruct (Nat.ltb_spec (i + 1) (S n)); [auto|lia].
Qed.
Lemma sumn_after n g : sumn n (fun j => if (1 <=? j)%nat then g (j - 1)%nat else 0) = sumn (n - 1) g.
Proof.
  destruct n as [|n]; [reflexivity|]. replace (S n - 1)%nat with n by lia.
  induction n as [|n IH]; [rewrite sumn_S, !sumn_0; cbn [Nat.leb]; lra|].
  rewrite sumn_S, IH, sumn_S. cbn [Nat.leb]. replace (S n - 1)%nat with n by lia. reflexivity.
Qed.

Lemma foldM_sum {A} (F : R -> A -> outcome R) (h : A -> R) l : (forall a d, In a l -> F d a = Ok (d + h a)) ->
  forall d, foldM F l d = Ok (d + fold_right Rplus 0 (map h l)).
Proof.
  induction l as [|a l IH]; intros H d; cbn [foldM map fold_right]; [f_equal; lra|].
  rewrite H by (left; auto). cbn [bind]. rewrite IH; [f_equal; lra|]. intros; apply H; right; auto.
Qed.

(** ** The norm *)
Lemma square_at data a b d : (a < length data)%nat -> (b < length data)%nat ->
  add_square data a b d = Ok (d + sq (nth a data 0 - nth b data 0)).
Proof.
  intros Ha Hb. unfold add_square, at_. rewrite (nth_error_nth' data 0 Ha), (nth_error_nth' data 0 Hb). reflexivity.
Qed.

Lemma pixel_bound p i j : (i < side p)%nat -> (j < side p)%nat -> (side p * i + j < length p)%nat.
Proof.
  unfold side. pose proof (Nat.sqrt_spec (length p) (Nat.le_0_l _)) as [H _]. set (n := Nat.sqrt (length p)) in *. intros Hi Hj. nia.
Qed.

Theorem C160_contrast : forall p, contrastNorm p = Ok (2 * contrast (side p) (pixel p)).
Proof.
  intro p. unfold contrastNorm. fold (side p). set (n := side p).
  set (H := fun i j => sq (pixel p i j - pixel p i (S j))). set (V := fun i j => sq (pixel p i j - pixel p (S i) j)).
  set (cell := fun i j => (if (j + 1 <? n)%nat then H i j else 0) + (if (1 <=? j)%nat then H i (j - 1)%nat else 0)
                        + (if (i + 1 <? n)%nat then V i j else 0) + (if (1 <=? i)%nat then V (i - 1)%nat j else 0)).
  assert (Hs : forall x y, sq (x - y) = sq (y - x)) by (intros; unfold sq; ring).
  assert (Hc : forall i j d, (i < n)%nat -> (j < n)%nat -> contrast_cell p n i d j = Ok (d + cell i j)).
  { intros i j d Hi Hj. unfold contrast_cell, cell.
    pose proof (fun a b => pixel_bound p a b) as HB. fold n in HB.
    destruct (Nat.ltb_spec (j + 1) n) as [L1|L1]; [rewrite square_at; [|apply HB; auto|replace (n * i + j + 1)%nat with (n * i + (j + 1))%nat by lia; apply HB; auto]|]; cbn [bind].
    all: destruct (Nat.leb_spec 1 j) as [L2|L2]; [rewrite square_at; [|apply HB; auto|replace (n * i + j - 1)%nat with (n * i + (j - 1))%nat by lia; apply HB; lia]|]; cbn [bind].
    all: destruct (Nat.ltb_spec (i + 1) n) as [L3|L3]; [rewrite square_at; [|apply HB; auto|replace (n * i + j + n)%nat with (n * (i + 1) + j)%nat by lia; apply HB; auto]|]; cbn [bind].
    all: destruct (Nat.leb_spec 1 i) as [L4|L4]; [rewrite square_at; [|apply HB; auto|replace (n * i + j - n)%nat with (n * (i - 1) + j)%nat by nia; apply HB; lia]|]; cbn [bind].
    all: f_equal; unfold H, V, pixel; fold n.
    all: replace (n * i + j + 1)%nat with (n * i + S j)%nat by lia; replace (n * i + j + n)%nat with (n * S i + j)%nat by lia.
    all: try (replace (n * i + j - 1)%nat with (n * i + (j - 1))%nat by lia; replace (S (j - 1)) with j by lia; rewrite (Hs (nth (n * i + (j - 1)) p 0))).
    all: try (replace (n * i + j - n)%nat with (n * (i - 1) + j)%nat by nia; replace (S (i - 1)) with i by lia; rewrite (Hs (nth (n * (i - 1) + j) p 0))).
    all: ring. }
  rewrite (foldM_sum _ (fun i => sumn n (cell i))).
  - f_equal. rewrite Rplus_0_l. fold (sumn n (fun i => sumn n (cell i))). unfold contrast. fold n.
    rewrite (sumn_ext n _ (fun i => (sumn (n - 1) (H i) + sumn (n - 1) (H i)) + ((if (i + 1 <? n)%nat then sumn n (V i) else 0) + (if (1 <=? i)%nat then sumn n (V (i - 1)%nat) else 0)))).
    + rewrite !sumn_plus, (sumn_before n (fun i => sumn n (V i))), (sumn_after n (fun i => sumn n (V i))). unfold H, V. ring.
    + intros i Hi. unfold cell. rewrite !sumn_plus, sumn_before, (sumn_after n (H i)).
      set (a := sumn n (V i)). set (b := sumn n (V (i - 1)%nat)).
      destruct (i + 1 <? n)%nat, (1 <=? i)%nat; try change (sumn n (fun j => V i j)) with a; try change (sumn n (fun j => V (i - 1)%nat j)) with b; rewrite ?sumn_zero; ring.
  - intros i d Hi. apply in_seq in Hi. rewrite (foldM_sum _ (cell i)); [reflexivity|].
    intros j d' Hj. apply in_seq in Hj. apply Hc; lia.
Qed.

(** ** Patches *)
Lemma pixel_map f p i j : (i < side p)%nat -> (j < side p)%nat -> pixel (map f p) i j = f (pixel p i j).
Proof.
  intros Hi Hj. unfold pixel. assert (E : side (map f p) = side p) by (unfold side; rewrite map_length; auto). rewrite E.
  rewrite (nth_indep _ 0 (f 0)) by (rewrite map_length; apply pixel_bound; auto). apply map_nth.
Qed.
Lemma contrast_ext n f g c :
  (forall i j k l, (i < n)%nat -> (j < n)%nat -> (k < n)%nat -> (l < n)%nat -> f i j - f k l = c * (g i j - g k l)) ->
  contrast n f = sq c * contrast n g.
Proof.
  intro H. unfold contrast. rewrite Rmult_plus_distr_l. f_equal; rewrite <- sumn_scale; apply sumn_ext; intros i Hi; rewrite <- sumn_scale; apply sumn_ext; intros j Hj; rewrite H by lia; unfold sq; ring.
Qed.
Lemma contrast_nonneg n f : 0 <= contrast n f.
Proof.
  unfold contrast. assert (0 <= sumn n (fun i => sumn (n - 1) (fun j => sq (f i j - f i (S j)))) /\ 0 <= sumn (n - 1) (fun i => sumn n (fun j => sq (f i j - f (S i) j)))); [|lra].
  split; apply sumn_nonneg; intros; apply sumn_nonneg; intros; apply Rle_0_sqr.
Qed.
Lemma sum_affine c m p : sum (map (fun x => (x - m) * c) p) = (sum p - INR (length p) * m) * c.
Proof.
  induction p as [|x p IH]; [cbn; ring|]. cbn [map sum fold_right length] in *. unfold sum in *. cbn [fold_right]. rewrite IH, S_INR. ring.
Qed.

(** The logarithms of a patch are centred and divided by the norm.  The norm is quadratic,
    so that the norm of the result is the inverse of the norm. *)
Theorem C160_patch : forall p, p <> [] ->
  exists q N, process_patch (length p) p = Ok (q, N) /\
    N = 2 * contrast (side p) (pixel (map log_ p)) /\
    q = map (fun x => (log_ x - sum (map log_ p) / INR (length p)) / (if Rlt_dec 0 N then N else 1)) p /\
    sum q = 0 /\
    (0 < N -> contrastNorm q = Ok (1 / N)) /\ (N <= 0 -> contrastNorm q = Ok 0).
Proof.
  intros p Hp. unfold process_patch, subtract_mean. rewrite total_sum.
  set (m := sum (map log_ p) / INR (length p)). set (c := fun x => x - m).
  assert (HN : contrastNorm (map c (map log_ p)) = Ok (2 * contrast (side p) (pixel (map log_ p)))).
  { rewrite C160_contrast. f_equal. assert (E : side (map c (map log_ p)) = side p) by (unfold side; rewrite !map_length; auto). rewrite E.
    rewrite (contrast_ext (side p) _ (pixel (map log_ p)) 1); [unfold sq; ring|].
    intros i j k l Hi Hj Hk Hl. rewrite !pixel_map by (unfold side; rewrite ?map_length; auto). unfold c. cbv beta. ring. }
  rewrite HN. cbn [bind]. set (N := 2 * contrast (side p) (pixel (map log_ p))) in *.
  assert (HN0 : 0 <= N) by (unfold N; pose proof (contrast_nonneg (side p) (pixel (map log_ p))); lra).
  eexists _, N. refine (conj eq_refl (conj eq_refl _)).
  assert (Hlen : INR (length p) <> 0) by (apply not_0_INR; destruct p; [congruence|discriminate]).
  set (w := if Rlt_dec 0 N then N else 1).
  assert (Hq : (if Rlt_dec 0 N then map (fun x => x / N) (map c (map log_ p)) else map c (map log_ p)) = map (fun x => (log_ x - m) / w) p).
  { unfold w. destruct (Rlt_dec 0 N); rewrite !map_map; apply map_ext; intro x; unfold c; [reflexivity|field]. }
  rewrite Hq. refine (conj eq_refl (conj _ _)).
  - rewrite <- (map_map log_ (fun x => (x - m) / w)). unfold Rdiv. rewrite sum_affine, map_length. unfold m. field.
    split; auto. unfold w. destruct (Rlt_dec 0 N); lra.
  - assert (G : contrastNorm (map (fun x => (log_ x - m) / w) p) = Ok (sq (/ w) * N)).
    { rewrite C160_contrast. f_equal. assert (E : side (map (fun x => (log_ x - m) / w) p) = side p) by (unfold side; rewrite !map_length; auto). rewrite E.
      rewrite (contrast_ext (side p) _ (pixel (map log_ p)) (/ w)); [unfold N; ring|].
      intros i j k l Hi Hj Hk Hl. rewrite !pixel_map by auto. cbv beta. unfold Rdiv. ring. }
    rewrite G. unfold w. destruct (Rlt_dec 0 N) as [L|L]; split; intro H; try lra; f_equal; unfold sq; [field; lra|].
    assert (N = 0) by lra. rewrite H0. ring.
Qed.

(** Scaling the intensities of a patch without black pixels changes nothing. *)
Theorem C160_brightness : forall c p, 0 < c -> p <> [] -> (forall x, In x p -> 0 < x) ->
  process_patch (length p) (map (Rmult c) p) = process_patch (length p) p.
Proof.
  intros c p Hc Hp Hpos. unfold process_patch.
  assert (E : subtract_mean (length p) (map log_ (map (Rmult c) p)) = subtract_mean (length p) (map log_ p)); [|rewrite E; reflexivity].
  assert (H10 : ln 10 <> 0) by (assert (0 < ln 10) by (rewrite <- ln_1; apply ln_increasing; lra); lra).
  assert (EL : map log_ (map (Rmult c) p) = map (fun x => x + ln c / ln 10) (map log_ p)).
  { rewrite !map_map. apply map_ext_in. intros x Hx. specialize (Hpos x Hx). unfold log_.
    destruct (Req_EM_T (c * x) 0) as [Z|_]; [apply Rmult_integral in Z; lra|]. destruct (Req_EM_T x 0); [lra|].
    rewrite ln_mult by lra. field; auto. }
  rewrite EL. unfold subtract_mean. rewrite !total_sum, map_map. apply map_ext. intro x.
  replace (fun x0 => x0 + ln c / ln 10) with (fun x0 => (x0 - (- (ln c / ln 10))) * 1).
  - rewrite sum_affine, map_length. field. split; auto. apply not_0_INR. destruct p; [congruence|discriminate].
  - apply FunctionalExtensionality.functional_extensionality. intro. ring.
Qed.

(** ** The threshold *)
Lemma lessR_swo : swo lessR.
Proof.
  unfold swo, lessR. split.
  - intros x y H. destruct (Rlt_dec x y); [|discriminate]. destruct (Rlt_dec y x); [lra|auto].
  - intros x y z H1 H2. destruct (Rlt_dec y x), (Rlt_dec z y), (Rlt_dec z x); try discriminate; auto; lra.
Qed.

Lemma filter_all {A} (f : A -> bool) l : (forall x, In x l -> f x = true) -> filter f l = l.
Proof. induction l as [|x l IH]; intro H; [reflexivity|]. cbn [filter]. rewrite (H x (or_introl eq_refl)), IH; auto. intros; apply H; right; auto. Qed.
Lemma filter_length_bound {A} (f : A -> bool) l : (length (filter f l) <= length l)%nat.
Proof. induction l as [|x l IH]; [reflexivity|]. cbn [filter]. destruct (f x); cbn [length]; lia. Qed.
Lemma filter_perm_length {A} (f : A -> bool) l m : Permutation l m -> length (filter f l) = length (filter f m).
Proof. induction 1; cbn [filter]; auto; [destruct (f x); cbn [length]; lia|destruct (f x), (f y); auto|lia]. Qed.

Lemma sorted_rank l k t : nth_error (cpp_sort lessR l) k = Some t -> ranked l k t.
Proof.
  intro E. set (m := cpp_sort lessR l) in *.
  assert (HP : Permutation m l) by apply cpp_sort_perm.
  assert (HS : StronglySorted Rle m).
  { eapply StronglySorted_impl; [|apply (cpp_sort_sorted lessR l lessR_swo)]. intros a b _ _ H. unfold lessR in H. destruct (Rlt_dec b a); [discriminate|lra]. }
  destruct (nth_error_split m k E) as (l1 & l2 & El & Hk).
  assert (H1 : forall x, In x l1 -> x <= t) by (intros x Hx; rewrite El in HS; clear - HS Hx; induction l1 as [|y l1 IH]; [destruct Hx|]; cbn in HS; apply StronglySorted_inv in HS; destruct HS as [HS HF]; destruct Hx as [->|Hx]; [rewrite Forall_forall in HF; apply HF, in_or_app; right; left; auto|auto]).
  assert (H2 : forall x, In x l2 -> t <= x) by (intros x Hx; rewrite El in HS; clear - HS Hx; induction l1 as [|y l1 IH]; cbn in HS; apply StronglySorted_inv in HS; destruct HS as [HS HF]; [rewrite Forall_forall in HF; auto|auto]).
  refine (conj _ (conj _ _)).
  - apply (Permutation_in _ HP). eapply nth_error_In; eauto.
  - rewrite <- (filter_perm_length _ _ _ HP), El, filter_app, app_length. cbn [filter].
    destruct (Rlt_dec t t); [lra|]. replace (filter _ l2) with (@nil R).
    + pose proof (filter_length_bound (fun x => if Rlt_dec x t then true else false) l1). cbn [length]. lia.
    + symmetry. clear - H2. induction l2 as [|x l2 IH]; [reflexivity|]. cbn [filter]. destruct (Rlt_dec x t) as [L|L]; [specialize (H2 x (or_introl eq_refl)); lra|]. apply IH. intros; apply H2; right; auto.
  - rewrite <- (filter_perm_length _ _ _ HP), El, filter_app, app_length. cbn [filter].
    destruct (Rle_dec t t); [|lra]. rewrite (filter_all _ l1); [cbn [length]; lia|].
    intros x Hx. destruct (Rle_dec x t); auto.
Qed.

(** [k] is four fifths of [n], rounded up *)
Lemma position_spec n : (4 * n <= 5 * threshold_position n < 4 * n + 5)%nat.
Proof. unfold threshold_position. pose proof (Nat.div_mod (4 * n + 4) 5 ltac:(lia)). pose proof (Nat.mod_upper_bound (4 * n + 4) 5 ltac:(lia)). lia. Qed.

Lemma collect_ok {A B} (f : A -> outcome B) (g : A -> B) l : (forall a, In a l -> f a = Ok (g a)) -> collect f l = Ok (map g l).
Proof.
  intro H. unfold collect. assert (G : forall l0 acc, (forall a, In a l0 -> f a = Ok (g a)) ->
    foldM (fun o a => let* b := f a in Ok (o ++ [b])) l0 acc = Ok (acc ++ map g l0)).
  { clear. induction l0 as [|a l0 IH]; intros acc H; cbn [foldM map]; [rewrite app_nil_r; auto|].
    rewrite H by (left; auto). cbn [bind]. rewrite IH, <- app_assoc; [reflexivity|]. intros; apply H; right; auto. }
  rewrite G; auto.
Qed.
Lemma collect_throw {A B} (f : A -> outcome B) (g : A -> B) e l1 a l2 : (forall a, In a l1 -> f a = Ok (g a)) -> f a = Throw e ->
  collect f (l1 ++ a :: l2) = Throw e.
Proof.
  intros H He. unfold collect. assert (G : forall l0 acc, (forall a, In a l0 -> f a = Ok (g a)) ->
    foldM (fun o a => let* b := f a in Ok (o ++ [b])) (l0 ++ a :: l2) acc = Throw e).
  { clear H. induction l0 as [|b l0 IH]; intros acc H; cbn [foldM app].
    - rewrite He. reflexivity.
    - rewrite H by (left; auto). cbn [bind]. apply IH. intros; apply H; right; auto. }
  apply G; auto.
Qed.

(** The processed patches of a point cloud with their norms *)
Definition processed_of (d : nat) (cloud : list (list R)) (ps : list (list R * R)) : Prop :=
  Forall2 (fun p q => process_patch d p = Ok q) cloud ps.

(** Fewer than five patches end in an exception; otherwise there is a threshold such that
    at least [n - ceil( 4n/5 )] patches reach it.  If a patch does not reach it, the tool throws; it only
    has a result if all patches are kept. *)
Theorem C160_result : forall d cloud, 0 < INR d -> (forall p, In p cloud -> length p = d) ->
  exists ps, processed_of d cloud ps /\
  let n := length cloud in
  if (n <? 5)%nat then process_image_patches d cloud = Throw OutOfRange
  else exists k t, (4 * n <= 5 * k < 4 * n + 5)%nat /\ ranked (map snd ps) k t /\
    filter_patches ps = Ok (map fst (filter (fun q => if Rle_dec t (snd q) then true else false) ps)) /\
    (n - k <= length (filter (fun q => if Rle_dec t (snd q) then true else false) ps))%nat /\
    if existsb (fun q => if Rlt_dec (snd q) t then true else false) ps then process_image_patches d cloud = Throw RuntimeError
    else process_image_patches d cloud = Ok (map (fun q => final_patch d (fst q)) ps).
Proof.
  intros d cloud Hd Hlen.
  set (g := fun p => match process_patch d p with Ok q => q | _ => ([], 0) end).
  assert (Hg : forall p, In p cloud -> process_patch d p = Ok (g p)).
  { intros p Hp. unfold g. assert (Hne : p <> []) by (intros ->; specialize (Hlen [] Hp); cbn in Hlen; subst d; cbn in Hd; lra).
    destruct (C160_patch p Hne) as (q & N & E & _). rewrite (Hlen p Hp) in E. rewrite E. reflexivity. }
  exists (map g cloud). split.
  { unfold processed_of. clear - Hg. induction cloud as [|p cloud IH]; cbn [map]; constructor; [apply Hg; left; auto|apply IH; intros; apply Hg; right; auto]. }
  intro n. set (ps := map g cloud) in *. assert (Hn : length ps = n) by (unfold ps, n; apply map_length).
  unfold process_image_patches. rewrite (collect_ok _ g cloud Hg). cbn [bind]. fold ps.
  unfold filter_patches. rewrite map_length, Hn. unfold at_. pose proof (position_spec n) as Hk. set (k := threshold_position n) in *.
  assert (Hsl : length (cpp_sort lessR (map snd ps)) = n) by (rewrite cpp_sort_length, map_length; auto).
  destruct (Nat.ltb_spec n 5) as [Hs|Hs].
  { assert (k = n) by lia. destruct (nth_error (cpp_sort lessR (map snd ps)) k) eqn:E; [|reflexivity].
    exfalso. assert (k < n)%nat by (rewrite <- Hsl; apply nth_error_Some; congruence). lia. }
  destruct (nth_error (cpp_sort lessR (map snd ps)) k) as [t|] eqn:E; [|apply nth_error_None in E; lia].
  exists k, t. pose proof (sorted_rank _ _ _ E) as HR. cbn [bind].
  assert (Hf : forall l : list (list R * R), filter (fun q => negb (lessR (snd q) t)) l = filter (fun q => if Rle_dec t (snd q) then true else false) l).
  { intro l. apply filter_ext. intro q. unfold lessR. destruct (Rlt_dec (snd q) t), (Rle_dec t (snd q)); auto; lra. }
  rewrite Hf. set (kept := filter (fun q => if Rle_dec t (snd q) then true else false) ps).
  assert (Hcount : (length (filter (fun q => if Rlt_dec (snd q) t then true else false) ps) + length kept = n)%nat).
  { rewrite <- Hn. unfold kept. clear. induction ps as [|q ps IH]; [reflexivity|]. cbn [filter length].
    destruct (Rlt_dec (snd q) t), (Rle_dec t (snd q)); cbn [length]; try lra; lia. }
  assert (Hless : (length (filter (fun q => if Rlt_dec (snd q) t then true else false) ps) <= k)%nat).
  { destruct HR as (_ & HR & _). replace (length (filter (fun q => if Rlt_dec (snd q) t then true else false) ps)) with (length (filter (fun x => if Rlt_dec x t then true else false) (map snd ps))); auto.
    clear. induction ps as [|q ps IH]; [reflexivity|]. cbn [map filter]. destruct (Rlt_dec (snd q) t); cbn [length]; lia. }
  refine (conj Hk (conj HR (conj eq_refl (conj _ _)))); [lia|].
  destruct (existsb (fun q => if Rlt_dec (snd q) t then true else false) ps) eqn:X.
  - assert (Hlt : (length kept < n)%nat).
    { assert (0 < length (filter (fun q => if Rlt_dec (snd q) t then true else false) ps))%nat; [|lia].
      apply existsb_exists in X. destruct X as (q & Hq & X). assert (Hin : In q (filter (fun q => if Rlt_dec (snd q) t then true else false) ps)) by (apply filter_In; auto).
      revert Hin. clear. destruct (filter (fun q => if Rlt_dec (snd q) t then true else false) ps); [intros []|cbn; lia]. }
    replace (length cloud) with (length kept + S (n - S (length kept)))%nat by (fold n; lia). rewrite seq_app. cbn [seq].
    apply collect_throw with (g := fun i => final_patch d (nth i (map fst kept) [])).
    + intros i Hi. apply in_seq in Hi. rewrite (nth_error_nth' (map fst kept) [] (n := i)); [reflexivity|rewrite map_length; lia].
    + replace (nth_error (map fst kept) (0 + length kept)) with (@None (list R)); [reflexivity|]. symmetry. apply nth_error_None. rewrite map_length. lia.
  - assert (Hkept : kept = ps).
    { unfold kept. apply filter_all. intros q Hq. destruct (Rle_dec t (snd q)); auto. exfalso. apply not_true_iff_false in X. apply X.
      apply existsb_exists. exists q. split; auto. destruct (Rlt_dec (snd q) t); auto; lra. }
    rewrite Hkept. rewrite (collect_ok _ (fun i => final_patch d (nth i (map fst ps) []))).
    + f_equal. fold n. rewrite <- Hn. clear. induction ps as [|q ps IH] using rev_ind; [reflexivity|].
      rewrite app_length. cbn [length]. rewrite Nat.add_1_r, seq_S, !map_app. cbn [map plus]. f_equal.
      * rewrite <- IH. apply map_ext_in. intros i Hi. apply in_seq in Hi. rewrite app_nth1 by (rewrite map_length; lia). reflexivity.
      * rewrite app_nth2 by (rewrite map_length; lia). rewrite map_length, Nat.sub_diag. reflexivity.
    + intros i Hi. apply in_seq in Hi. rewrite (nth_error_nth' (map fst ps) [] (n := i)); [reflexivity|rewrite map_length; fold n in Hi; lia].
Qed.

(** ** The last step *)
(** The squares are truncated before they are added. *)
Lemma inner_product_floor p : inner_product_int p = fold_right Z.add 0%Z (map (fun x => Int_part (x * x)) p).
Proof.
  unfold inner_product_int. assert (G : forall l s, fold_left (fun s x => Int_part (IZR s + x * x)) l s = (s + fold_right Z.add 0 (map (fun x => Int_part (x * x)) l))%Z).
  { induction l as [|x l IH]; intro s; cbn [fold_left map fold_right]; [lia|]. rewrite IH.
    replace (Int_part (IZR s + x * x)) with (s + Int_part (x * x))%Z; [lia|].
    destruct (base_Int_part (x * x)) as [A B]. destruct (base_Int_part (IZR s + x * x)) as [C D].
    assert (E1 : (Int_part (IZR s + x * x) < s + Int_part (x * x) + 1)%Z) by (apply lt_IZR; rewrite !plus_IZR; lra).
    assert (E2 : (s + Int_part (x * x) < Int_part (IZR s + x * x) + 1)%Z) by (apply lt_IZR; rewrite !plus_IZR; lra). lia. }
  rewrite G. lia.
Qed.
Lemma floor_square x : 0 <= IZR (Int_part (x * x)) <= x * x.
Proof.
  destruct (base_Int_part (x * x)) as [A B]. assert (0 <= x * x) by apply Rle_0_sqr. split; [|lra].
  apply (IZR_le 0). assert (-1 < Int_part (x * x))%Z by (apply lt_IZR; lra). lia.
Qed.
Lemma floor_sum p : 0 <= IZR (inner_product_int p) <= sum (map sq p).
Proof.
  rewrite inner_product_floor. induction p as [|x p IH]; [cbn; lra|]. cbn [map fold_right sum] in *. unfold sum in *. cbn [fold_right]. rewrite plus_IZR.
  pose proof (floor_square x). unfold sq at 1. lra.
Qed.

(** If all squares of the centred patch are below one, the division by zero leaves no
    finite value; otherwise the values are finite and their squares add up to at least one. *)
Theorem C160_sphere : forall p, p <> [] ->
  exists q, q = map (fun x => x - sum p / INR (length p)) p /\
    let s := fold_right Z.add 0%Z (map (fun x => Int_part (x * x)) q) in
    (s = 0%Z <-> forall x, In x q -> x * x < 1) /\
    (s = 0%Z -> final_patch (length p) p = map (fun _ => None) p) /\
    (s <> 0%Z -> exists r, final_patch (length p) p = map Some r /\ sum r = 0 /\ sum (map sq r) = sum (map sq q) / IZR s /\ 1 <= sum (map sq r)).
Proof.
  intros p Hp. eexists. split; [reflexivity|]. set (q := map (fun x => x - sum p / INR (length p)) p). cbv zeta.
  rewrite <- inner_product_floor.
  assert (Hlen : INR (length p) <> 0) by (apply not_0_INR; destruct p; [congruence|discriminate]).
  assert (E : final_patch (length p) p = map (fun x => if Req_EM_T (sqrt (IZR (inner_product_int q))) 0 then None else Some (x / sqrt (IZR (inner_product_int q)))) q).
  { unfold final_patch, subtract_mean. rewrite total_sum. reflexivity. }
  pose proof (floor_sum q) as [F1 F2]. refine (conj _ (conj _ _)).
  - rewrite inner_product_floor. clear. induction q as [|x q IH]; [cbn; split; [intros _ x []|auto]|]. cbn [map fold_right].
    pose proof (floor_square x) as [A B]. destruct (base_Int_part (x * x)) as [_ C].
    pose proof (floor_sum q) as [D _]. rewrite inner_product_floor in D. apply (le_IZR 0) in A, D.
    split.
    + intros H y [<-|Hy]; [|apply IH; auto; lia]. assert (Int_part (x * x) = 0%Z) as Z0 by lia. rewrite Z0 in C. lra.
    + intro H. assert (X : Int_part (x * x) = 0%Z).
      { specialize (H x (or_introl eq_refl)). assert (Int_part (x * x) < 1)%Z by (apply lt_IZR; lra). lia. }
      rewrite X, (proj2 IH); auto. intros; apply H; right; auto.
  - intro Hz. rewrite E, Hz, sqrt_0. unfold q. rewrite map_map. apply map_ext. intro x. destruct (Req_EM_T 0 0); [auto|congruence].
  - intro Hs. assert (Hpos : 1 <= IZR (inner_product_int q)) by (apply (IZR_le 1); apply (le_IZR 0) in F1; lia).
    set (s := IZR (inner_product_int q)) in *.
    assert (Hr : sqrt s <> 0) by (assert (0 < sqrt s) by (apply sqrt_lt_R0; lra); lra).
    exists (map (fun x => x / sqrt s) q). rewrite E. refine (conj _ (conj _ _)).
    + rewrite map_map. apply map_ext. intro x. destruct (Req_EM_T (sqrt s) 0); [contradiction|auto].
    + unfold q. rewrite map_map. unfold Rdiv at 1. rewrite (sum_affine (/ sqrt s)). field. auto.
    + assert (X : sum (map sq (map (fun x => x / sqrt s) q)) = sum (map sq q) / s).
      { rewrite map_map. assert (Y : forall l, sum (map (fun x => sq (x / sqrt s)) l) = sum (map sq l) / s); [|apply Y].
        induction l as [|x l IH]; unfold sum in *; cbn [map fold_right]; [field; lra|]. rewrite IH. unfold sq.
        replace (x / sqrt s * (x / sqrt s)) with (x * x / (sqrt s * sqrt s)) by (field; auto). rewrite sqrt_sqrt by lra. field. lra. }
      rewrite X. split; auto. apply (Rmult_le_reg_r s); [lra|]. unfold Rdiv. rewrite Rmult_assoc, Rinv_l by lra. lra.
Qed.

(** ** Examples *)
Lemma log_1 : log_ 1 = 0.
Proof. unfold log_. destruct (Req_EM_T 1 0); [lra|]. rewrite ln_1. unfold Rdiv. ring. Qed.
Lemma log_10 : log_ 10 = 1.
Proof.
  unfold log_. destruct (Req_EM_T 10 0); [lra|]. assert (0 < ln 10) by (rewrite <- ln_1; apply ln_increasing; lra). field. lra.
Qed.
Lemma log_0 : log_ 0 = 0.
Proof. unfold log_. destruct (Req_EM_T 0 0); [auto|lra]. Qed.

Definition corner : list R := [1; 1; 1; 10].
Lemma contrast_two a b c d : contrastNorm [a; b; c; d] = Ok (2 * (sq (a - b) + sq (c - d) + sq (a - c) + sq (b - d))).
Proof.
  rewrite C160_contrast. f_equal. f_equal. unfold contrast, pixel. change (side [a; b; c; d]) with 2%nat.
  unfold sumn. cbn [seq map fold_right Nat.sub Nat.mul Nat.add nth]. ring.
Qed.
Lemma process_corner : process_patch 4 corner = Ok ([-1/16; -1/16; -1/16; 3/16], 4).
Proof.
  unfold process_patch, corner, subtract_mean, total. cbn [map fold_left INR]. rewrite log_1, log_10, contrast_two. cbn [bind].
  replace (2 * (_ + _ + _ + _)) with 4 by (unfold sq; field). destruct (Rlt_dec 0 4); [|lra].
  do 3 f_equal; [|f_equal; [|f_equal; [|f_equal]]]; field.
Qed.
Lemma process_white : process_patch 4 [1; 1; 1; 1] = Ok ([0; 0; 0; 0], 0).
Proof.
  unfold process_patch, subtract_mean, total. cbn [map fold_left INR]. rewrite log_1, contrast_two. cbn [bind].
  replace (2 * (_ + _ + _ + _)) with 0 by (unfold sq; field). destruct (Rlt_dec 0 0); [lra|].
  do 3 f_equal; [|f_equal; [|f_equal; [|f_equal]]]; field.
Qed.

Example C160_example : process_patch 4 corner = Ok ([-1/16; -1/16; -1/16; 3/16], 4) /\
  process_patch 4 (map (Rmult (1/3)) corner) = Ok ([-1/16; -1/16; -1/16; 3/16], 4) /\ threshold_position 100 = 80%nat.
Proof.
  refine (conj process_corner (conj _ eq_refl)). rewrite <- process_corner. apply (C160_brightness (1/3) corner); [lra|discriminate|].
  intros x Hx. unfold corner in Hx. cbn in Hx. intuition lra.
Qed.

(** The result of the division by the norm does not have norm one: the square root is missing, and
    every difference is counted twice. *)
Theorem C160_norm_refuted : exists p q N, (forall x, In x p -> 0 < x) /\
  process_patch (length p) p = Ok (q, N) /\ 0 < N /\
  N <> sqrt (contrast (side p) (pixel (map log_ p))) /\ sqrt (contrast (side q) (pixel q)) <> 1.
Proof.
  exists corner, [-1/16; -1/16; -1/16; 3/16], 4. refine (conj _ (conj process_corner (conj _ (conj _ _)))).
  - intros x Hx. cbn in Hx. intuition lra.
  - lra.
  - unfold contrast, pixel, corner. cbn [map]. rewrite log_1, log_10. change (side _) with 2%nat. unfold side. change (Nat.sqrt _) with 2%nat.
    unfold sumn. cbn [seq map fold_right Nat.sub Nat.mul Nat.add nth].
    intro E. assert (X : 4 * 4 = 2); [|lra]. rewrite E, sqrt_sqrt; unfold sq; [ring|]. ring_simplify. lra.
  - unfold contrast, pixel. change (side _) with 2%nat. unfold sumn. cbn [seq map fold_right Nat.sub Nat.mul Nat.add nth].
    match goal with |- sqrt ?y <> 1 => replace y with (1/8) by (unfold sq; field) end.
    intro E. assert (X : sqrt (1/8) * sqrt (1/8) = 1/8) by (apply sqrt_sqrt; lra). rewrite E in X. lra.
Qed.

(** With black pixels the result depends on the brightness, because their logarithm is taken to be zero. *)
Theorem C160_brightness_refuted : exists c p, 0 < c /\ (forall x, In x p -> 0 <= x) /\
  process_patch (length p) (map (Rmult c) p) <> process_patch (length p) p.
Proof.
  exists 10, [0; 1; 1; 1]. refine (conj _ (conj _ _)); [lra|intros x Hx; cbn in Hx; intuition lra|].
  cbn [map length]. replace (10 * 0) with 0 by ring. replace (10 * 1) with 10 by ring.
  unfold process_patch, subtract_mean. cbn [map]. rewrite log_0, log_1, log_10, !contrast_two. cbn [bind]. intro H. injection H as _ H.
  unfold sq in H. lra.
Qed.

(** Whenever a patch is discarded there is no result. *)
Theorem C160_discard_refuted : exists d cloud, length cloud = 5%nat /\ (forall p, In p cloud -> length p = d) /\
  process_image_patches d cloud = Throw RuntimeError.
Proof.
  set (white := [1; 1; 1; 1]). exists 4%nat, [white; white; white; white; corner].
  assert (Hl : forall p, In p [white; white; white; white; corner] -> length p = 4%nat).
  { intros p Hp. cbn [In] in Hp. decompose [or] Hp; subst; auto; contradiction. }
  refine (conj eq_refl (conj Hl _)).
  destruct (C160_result 4 [white; white; white; white; corner]) as (ps & Hps & H); auto; [cbn; lra|].
  assert (Eps : ps = [([0;0;0;0], 0); ([0;0;0;0], 0); ([0;0;0;0], 0); ([0;0;0;0], 0); ([-1/16; -1/16; -1/16; 3/16], 4)]).
  { unfold processed_of in Hps. repeat match goal with X : Forall2 _ (_ :: _) _ |- _ => inversion X; clear X; subst | X : Forall2 _ [] _ |- _ => inversion X; clear X; subst end.
    unfold white in *. rewrite process_white, process_corner in *. repeat match goal with X : Ok _ = Ok _ |- _ => injection X as <- end. reflexivity. }
  subst ps. cbn [length Nat.ltb Nat.leb] in H. destruct H as (k & t & Hk & HR & _ & _ & H).
  assert (k = 4)%nat by lia. subst k.
  assert (t = 4) as ->.
  { destruct HR as (Hin & _ & Hc). cbn [map snd In] in Hin. decompose [or] Hin; try contradiction; auto; subst t.
    all: exfalso; revert Hc; cbn [map snd filter]; destruct (Rle_dec 0 0); [|lra]; destruct (Rle_dec 4 0); [lra|]; cbn; lia. }
  cbn [existsb snd orb] in H. destruct (Rlt_dec 0 4); [|lra]. exact H.
Qed.

(** The last step does not put patches onto the sphere; it may not even yield finite values. *)
Theorem C160_sphere_refuted : (exists p, sum p = 0 /\ sum (map sq p) <> 0 /\ final_patch (length p) p = map (fun _ => None) p) /\
  exists p r, sum p = 0 /\ final_patch (length p) p = map Some r /\ sum (map sq r) <> 1.
Proof.
  split.
  - exists [1/2; -1/2]. refine (conj _ (conj _ _)); [cbn; lra|unfold sq; cbn; lra|].
    destruct (C160_sphere [1/2; -1/2]) as (q & Eq & H1 & H2 & _); [discriminate|]. apply H2, H1. subst q. intros x Hx.
    cbn [map length] in Hx. unfold sum in Hx. cbn [fold_right INR In] in Hx. destruct Hx as [<-|[<-|[]]]; lra.
  - destruct (C160_sphere [3/2; -3/2]) as (q & Eq & H1 & _ & H3); [discriminate|].
    assert (Hq : q = [3/2; -3/2]).
    { subst q. cbn [map length]. unfold sum. cbn [fold_right INR]. f_equal; [|f_equal]; field. }
    clear Eq. subst q. cbn [map fold_right] in H3. replace (3/2 * (3/2)) with (9/4) in H3 by field. replace (-3/2 * (-3/2)) with (9/4) in H3 by field.
    assert (HI : Int_part (9/4) = 2%Z).
    { destruct (base_Int_part (9/4)) as [A B]. assert (Int_part (9/4) < 3)%Z by (apply lt_IZR; lra). assert (1 < Int_part (9/4))%Z by (apply lt_IZR; lra). lia. }
    rewrite HI in H3. destruct H3 as (r & E & _ & S & _); [lia|]. exists [3/2; -3/2], r. refine (conj _ (conj E _)); [cbn; lra|].
    rewrite S. unfold sum, sq. cbn [map fold_right]. cbn [Z.add Pos.add Pos.succ]. lra.
Qed.

Print Assumptions C160_contrast.
Print Assumptions C160_patch.
Print Assumptions C160_brightness.
Print Assumptions C160_result.
Print Assumptions C160_sphere.
Print Assumptions C160_discard_refuted.
