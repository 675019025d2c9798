(** * The diagrams of stratified graphs. *)
From Coq Require Import Reals List Arith Bool Lia Lra.
From Verif Require Import Base StratifiedNormalization PropertiesStratifiedNormalization StratifiedDiagrams.
Import ListNotations.
Local Open Scope R_scope.

(** ** specification *)
(** [m] is the smallest absolute weight of an edge *)
Definition least_absolute (K : list (list nat * R)) (m : R) : Prop :=
  (exists w, edge_weight K w /\ Rabs w = m) /\ forall w, edge_weight K w -> m <= Rabs w.
(** [lo] and [hi] are the smallest and the largest data *)
Definition range_of (K : list (list nat * R)) (lo hi : R) : Prop :=
  In lo (map snd K) /\ In hi (map snd K) /\ forall w, In w (map snd K) -> lo <= w <= hi.
(** what becomes of a point: the coordinate that is missing is [m], absolute values are taken if requested,
    and [g] is applied to both coordinates *)
Definition changed (absolute : bool) (m : R) (g : R -> R) (p : R * option R) (q : R * R) : Prop :=
  let y := match snd p with Some y => y | None => m end in
  q = if absolute then (g (Rabs (fst p)), g (Rabs y)) else (g (fst p), g y).
(** the points that are not on the diagonal, in their order *)
Inductive without_diagonal : list (R * option R) -> list (R * option R) -> Prop :=
| WNil : without_diagonal [] []
| WDrop x D E : without_diagonal D E -> without_diagonal ((x, Some x) :: D) E
| WPair x y D E : x <> y -> without_diagonal D E -> without_diagonal ((x, Some y) :: D) ((x, Some y) :: E)
| WOpen x D E : without_diagonal D E -> without_diagonal ((x, None) :: D) ((x, None) :: E).

(** ** auxiliary statements *)
Lemma filter_without D : without_diagonal D (filter off_diagonal D).
Proof.
  induction D as [|[x [y|]] D IH]; cbn [filter]; [constructor| |constructor; exact IH].
  unfold off_diagonal at 1; cbn [fst snd]. destruct (Req_EM_T x y) as [E|E]; [subst y; constructor; exact IH|constructor; assumption].
Qed.

Lemma fold_abs : forall l r, let m := fold_left (fun r w => Rmin r (Rabs w)) l r in
  (m = r \/ exists w, In w l /\ Rabs w = m) /\ m <= r /\ forall w, In w l -> m <= Rabs w.
Proof.
  induction l as [|w l IH]; intros r m; [refine (conj (or_introl eq_refl) (conj (Rle_refl _) _)); intros ? []|].
  unfold m. cbn [fold_left]. destruct (IH (Rmin r (Rabs w))) as (A & B & C). cbn zeta in A, B, C.
  set (n := fold_left _ l _) in *. pose proof (Rmin_l r (Rabs w)). pose proof (Rmin_r r (Rabs w)).
  refine (conj _ (conj _ _)).
  - destruct A as [A|(v & I & E)]; [|right; exists v; split; [right; exact I|exact E]].
    unfold Rmin in A. destruct (Rle_dec r (Rabs w)) as [L|L]; [left; exact A|right; exists w; split; [left; reflexivity|symmetry; exact A]].
  - lra.
  - intros v [<-|I]; [lra|apply C; exact I].
Qed.

Lemma least_of big K : (exists w, edge_weight K w) -> (forall w, edge_weight K w -> Rabs w <= big) -> least_absolute K (minAbsoluteWeightR big K).
Proof.
  intros (w0 & H0) B. destruct (fold_abs (edge_weights K) big) as (A & L & C). cbn zeta in A, L, C. unfold minAbsoluteWeightR. split.
  - destruct A as [A|(w & I & E)]; [|exists w; split; [apply edge_weights_In; exact I|exact E]].
    exists w0. split; [exact H0|]. apply edge_weights_In in H0. specialize (C w0 H0). apply edge_weights_In in H0. specialize (B w0 H0). lra.
  - intros w H. apply C. apply edge_weights_In. exact H.
Qed.

Lemma fold_range : forall (K : list (list nat * R)) a b,
  let st := fold_left (fun st s => (Rmin (fst st) (snd s), Rmax (snd st) (snd s))) K (a, b) in
  (fst st = a \/ In (fst st) (map snd K)) /\ (snd st = b \/ In (snd st) (map snd K)) /\
  fst st <= a /\ b <= snd st /\ forall w, In w (map snd K) -> fst st <= w <= snd st.
Proof.
  induction K as [|[v w] K IH]; intros a b st.
  - unfold st; cbn [fold_left fst snd]. refine (conj (or_introl eq_refl) (conj (or_introl eq_refl) (conj (Rle_refl _) (conj (Rle_refl _) _)))). intros ? [].
  - unfold st. cbn [fold_left fst snd]. destruct (IH (Rmin a w) (Rmax b w)) as (A & B & C & E & G). cbn zeta in A, B, C, E, G.
    set (n := fold_left _ K _) in *. pose proof (Rmin_l a w). pose proof (Rmin_r a w). pose proof (Rmax_l b w). pose proof (Rmax_r b w).
    cbn [map snd In].
    refine (conj _ (conj _ (conj _ (conj _ _)))); try lra.
    + destruct A as [A|A]; [|right; right; exact A]. unfold Rmin in A. destruct (Rle_dec a w); [left; exact A|right; left; symmetry; exact A].
    + destruct B as [B|B]; [|right; right; exact B]. unfold Rmax in B. destruct (Rle_dec b w); [right; left; symmetry; exact B|left; exact B].
    + intros x [<-|I]; [lra|apply G; exact I].
Qed.

Lemma range_of_data big lowest K : K <> [] -> (forall w, In w (map snd K) -> lowest <= w <= big) ->
  range_of K (fst (data_range big lowest K)) (snd (data_range big lowest K)).
Proof.
  intros NE B. destruct K as [|s K]; [contradiction|]. destruct (fold_range (s :: K) big lowest) as (A1 & A2 & L1 & L2 & G). cbn zeta in A1, A2, L1, L2, G.
  unfold data_range. assert (I : In (snd s) (map snd (s :: K))) by (left; reflexivity).
  pose proof (G _ I) as [G1 G2]. pose proof (B _ I) as [B1 B2].
  refine (conj _ (conj _ G)).
  - destruct A1 as [A|A]; [|exact A]. left. rewrite A in G1. rewrite A. lra.
  - destruct A2 as [A|A]; [|exact A]. left. rewrite A in G2. rewrite A. lra.
Qed.

Lemma least_unique K m m' : least_absolute K m -> least_absolute K m' -> m = m'.
Proof. intros [(w & H & E) L] [(w' & H' & E') L']. specialize (L w' H'). specialize (L' w H). lra. Qed.
Lemma range_unique K a b a' b' : range_of K a b -> range_of K a' b' -> a = a' /\ b = b'.
Proof. intros (A & B & C) (A' & B' & C'). pose proof (C _ A'). pose proof (C _ B'). pose proof (C' _ A). pose proof (C' _ B). lra. Qed.

Lemma Forall2_map_changed (f : R * option R -> R * R) (P : R * option R -> R * R -> Prop) :
  (forall p, P p (f p)) -> forall E, Forall2 P E (map f E).
Proof. intros H E. induction E; cbn [map]; constructor; auto. Qed.

(** ** the result *)
(** Points on the diagonal are removed, points without destruction get the smallest absolute weight of an edge,
    absolute values are taken for the filtration by absolute weights, and if requested, and if the data are not
    all equal, both coordinates are scaled such that the smallest data become zero and the largest one. *)
Theorem C153_points big lowest (absolute scale : bool) K D m lo hi :
  (forall w, In w (map snd K) -> lowest <= w /\ Rabs w <= big) ->
  least_absolute K m -> range_of K lo hi ->
  exists E, without_diagonal D E /\
    Forall2 (changed absolute m (fun x : R => if scale then if Req_EM_T lo hi then x else (x - lo) / (hi - lo) else x)) E
      (analysis_diagram big lowest absolute scale K D).
Proof.
  intros B M G. exists (filter off_diagonal D). split; [apply filter_without|].
  assert (NE : K <> []) by (intro Z; subst K; destruct G as [[] _]).
  assert (M' : least_absolute K (minAbsoluteWeightR big K)).
  { apply least_of; [destruct M as [(w & H & _) _]; exists w; exact H|]. intros w (s & I & _ & <-). apply B. apply in_map. exact I. }
  assert (G' : range_of K (fst (data_range big lowest K)) (snd (data_range big lowest K))).
  { apply range_of_data; [exact NE|]. intros w I. pose proof (B w I) as [B1 B2]. split; [exact B1|]. pose proof (Rle_abs w). lra. }
  unfold analysis_diagram. rewrite (least_unique _ _ _ M' M). destruct (range_unique _ _ _ _ _ G' G) as [-> ->].
  set (E := filter off_diagonal D). clearbody E.
  destruct absolute, scale; rewrite ?map_map; apply Forall2_map_changed; intros [x [y|]]; unfold changed, scale_point, absolute_point, close_point; cbn [fst snd]; try reflexivity; destruct (Req_EM_T lo hi); reflexivity.
Qed.

(** The comment in the code: all weights are in [0,1].  This is true if no data are negative and not all are
    equal, for diagrams whose coordinates are data of the complex. *)
Theorem C153_unit big lowest absolute K D :
  (exists w, edge_weight K w) -> (exists v w, In v (map snd K) /\ In w (map snd K) /\ v <> w) ->
  (forall w, In w (map snd K) -> 0 <= w <= big /\ lowest <= w) ->
  (forall x o, In (x, o) D -> In x (map snd K) /\ match o with Some y => In y (map snd K) | None => True end) ->
  forall x y, In (x, y) (analysis_diagram big lowest absolute true K D) -> 0 <= x <= 1 /\ 0 <= y <= 1.
Proof.
  intros (w0 & H0) (v & w & Iv & Iw & N) B HD x y H.
  assert (NE : K <> []) by (intro Z; subst K; destruct Iv).
  assert (M : least_absolute K (minAbsoluteWeightR big K)).
  { apply least_of; [exists w0; exact H0|]. intros u (s & I & _ & <-). apply (in_map snd) in I. destruct (B _ I) as [B1 _]. rewrite Rabs_pos_eq; lra. }
  assert (G : range_of K (fst (data_range big lowest K)) (snd (data_range big lowest K))).
  { apply range_of_data; [exact NE|]. intros u I. destruct (B u I). lra. }
  destruct (C153_points big lowest absolute true K D _ _ _ (fun u I => conj (proj2 (B u I)) (eq_ind_r (fun z => z <= big) (proj2 (proj1 (B u I))) (Rabs_pos_eq u (proj1 (proj1 (B u I)))))) M G) as (E & WE & F).
  set (m := minAbsoluteWeightR big K) in *. set (lo := fst (data_range big lowest K)) in *. set (hi := snd (data_range big lowest K)) in *.
  set (R' := analysis_diagram big lowest absolute true K D) in *. clearbody m lo hi R'.
  assert (LH : lo < hi). { destruct G as (_ & _ & G). pose proof (G v Iv). pose proof (G w Iw). lra. }
  assert (Mem : exists p, In p E /\ changed absolute m (fun x => if true then if Req_EM_T lo hi then x else (x - lo) / (hi - lo) else x) p (x, y)).
  { clear - F H. induction F as [|p q E R' P F IH]; [destruct H|]. destruct H as [->|H]; [exists p; split; [left; reflexivity|exact P]|]. destruct (IH H) as (p' & I & C). exists p'. split; [right; exact I|exact C]. }
  destruct Mem as ([a o] & Ip & C). assert (Id : In (a, o) D).
  { clear - WE Ip. induction WE; [destruct Ip|right; auto| |]; (destruct Ip as [<-|Ip]; [left; reflexivity|right; auto]). }
  destruct (HD a o Id) as [Ia Io].
  assert (Im : In m (map snd K)).
  { destruct M as [(u & (s & I & _ & Es) & Eu) _]. apply (in_map snd) in I. rewrite Es in I. destruct (B u I) as [B1 _]. rewrite Rabs_pos_eq in Eu by lra. subst u. rewrite <- Eu. exact I. }
  assert (U : forall u, In u (map snd K) -> 0 <= (u - lo) / (hi - lo) <= 1).
  { intros u Iu. destruct G as (_ & _ & G). pose proof (G u Iu). assert (P : 0 < / (hi - lo)) by (apply Rinv_0_lt_compat; lra). unfold Rdiv. split.
    - apply Rmult_le_pos; lra.
    - apply (Rmult_le_reg_r (hi - lo)); [lra|]. rewrite Rmult_assoc, Rinv_l by lra. lra. }
  assert (A : forall u, In u (map snd K) -> Rabs u = u). { intros u Iu. apply Rabs_pos_eq. destruct (B u Iu). lra. }
  set (b := match o with Some y => y | None => m end). assert (Ib : In b (map snd K)) by (unfold b; destruct o; assumption).
  unfold changed in C. cbn [fst snd] in C. fold b in C. destruct (Req_EM_T lo hi) as [Z|_]; [lra|].
  destruct absolute; injection C as -> ->; rewrite ?A by assumption; split; apply U; assumption.
Qed.

(** it is false if data are negative, for both filtrations *)
Theorem C153_unit_refuted : forall big lowest, 2 <= big -> lowest <= -2 ->
  let K := [([0%nat], -2); ([1%nat], -2); ([1%nat; 0%nat], -2); ([2%nat], -2); ([2%nat; 1%nat], -1)] in
  let D := [(-2, None); (-2, Some (-1))] in
  analysis_diagram big lowest false true K D = [(0, 3); (0, 1)] /\
  analysis_diagram big lowest true true K D = [(4, 3); (4, 3)].
Proof.
  intros big lowest HB HL K D.
  assert (M : minAbsoluteWeightR big K = 1).
  { unfold minAbsoluteWeightR, edge_weights, K. cbn [filter fst snd length Nat.eqb map fold_left].
    rewrite (Rabs_left (-2)), (Rabs_left (-1)) by lra. unfold Rmin. repeat destruct (Rle_dec _ _); lra. }
  assert (G1 : fst (data_range big lowest K) = -2).
  { unfold data_range, K. cbn [fold_left fst snd]. unfold Rmin. repeat destruct (Rle_dec _ _); lra. }
  assert (G2 : snd (data_range big lowest K) = -1).
  { unfold data_range, K. cbn [fold_left fst snd]. unfold Rmax. repeat destruct (Rle_dec _ _); lra. }
  unfold analysis_diagram. rewrite M, G1, G2. unfold D. cbn [filter]. unfold off_diagonal. cbn [fst snd].
  destruct (Req_EM_T (-2) (-1)) as [Z|_]; [lra|]. unfold scale_point. destruct (Req_EM_T (-2) (-1)) as [Z|_]; [lra|].
  cbn [map close_point absolute_point fst snd].
  rewrite (Rabs_left (-2)), (Rabs_left (-1)) by lra. rewrite (Rabs_pos_eq 1) by lra.
  split; repeat (apply f_equal2 || reflexivity); try field; try lra.
Qed.

(** weights 1 and 3: the point without destruction ends at the smallest weight *)
Example C153_example : analysis_diagram 1000 (-1000) false true
  [([0%nat], 1); ([1%nat], 1); ([1%nat; 0%nat], 1); ([2%nat], 1); ([2%nat; 1%nat], 3)] [(1, None); (1, Some 1); (1, Some 3)] = [(0, 0); (0, 1)].
Proof.
  unfold analysis_diagram. cbn [filter]. unfold off_diagonal. cbn [fst snd].
  destruct (Req_EM_T 1 1) as [_|Z]; [|lra]. destruct (Req_EM_T 1 3) as [Z|_]; [lra|].
  unfold minAbsoluteWeightR, edge_weights. cbn [filter fst snd length Nat.eqb map fold_left].
  rewrite (Rabs_pos_eq 1), (Rabs_pos_eq 3) by lra.
  assert (E : data_range 1000 (-1000) [([0%nat], 1); ([1%nat], 1); ([1%nat; 0%nat], 1); ([2%nat], 1); ([2%nat; 1%nat], 3)] = (1, 3)).
  { unfold data_range. cbn [fold_left fst snd]. unfold Rmin, Rmax. f_equal; repeat destruct (Rle_dec _ _); lra. }
  rewrite E. cbn [fst snd]. unfold scale_point. destruct (Req_EM_T 1 3) as [Z|_]; [lra|].
  assert (Mn : Rmin (Rmin 1000 1) 3 = 1) by (unfold Rmin; repeat destruct (Rle_dec _ _); lra). rewrite Mn.
  cbn [map close_point fst snd]. repeat (apply f_equal2 || reflexivity); field.
Qed.

Print Assumptions C153_points.
Print Assumptions C153_unit.
Print Assumptions C153_unit_refuted.
