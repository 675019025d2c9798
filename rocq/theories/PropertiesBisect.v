(** * Bisection by the Fiedler vector. *)
From Coq Require Import List Arith Bool ZArith Lia Permutation Sorted Relations.
From Verif Require Import Base BaseFacts Simplex SimplexFacts SpecComplex Complex ComplexFacts FiltrationFacts History SubcomplexFacts
  PropertiesComplex RipsFacts PropertiesRips BarycentricFacts SpecComponents Quantiles PropertiesSmall SpecLaplacian Laplacian PropertiesLaplacian.
Import ListNotations.

(** what is required of the solver for a matrix with [n] rows: [n] vectors of this size *)
Definition solver_contract (solver : dense -> list (list Z)) (n : nat) : Prop :=
  forall L, square n L -> length (solver L) = n /\ forall u, In u (solver L) -> length u = n.
(** the mean of two numbers is between them *)
Definition mean_between (mean : Z -> Z -> Z) : Prop := forall x y, (x <= y)%Z -> (x <= mean y x <= y)%Z.

Lemma stable_partition_ok {A} (f : A -> outcome bool) (g : A -> bool) l : (forall x, In x l -> f x = Ok (g x)) ->
  stable_partition f l = Ok (filter g l, filter (fun x => negb (g x)) l).
Proof.
  induction l as [|x l IH]; intro H; [reflexivity|]. cbn [stable_partition]. rewrite (H x) by (simpl; auto). cbn [bind]. rewrite IH by (intros; apply H; simpl; auto). cbn [bind filter fst snd].
  destruct (g x); reflexivity.
Qed.

Lemma partition_at_ok (vs : list nat) (b : nat -> bool) v : In v vs -> NoDup vs -> partition_at (map (fun v => (v, b v)) vs) v = Ok (b v).
Proof.
  intros Hv ND. unfold partition_at. assert (F : find (fun e => fst e =? v) (map (fun v => (v, b v)) vs) = Some (v, b v)); [|rewrite F; reflexivity].
  induction vs as [|w vs IH]; [destruct Hv|]. cbn [map find fst]. destruct (Nat.eqb_spec w v) as [->|Hne]; [reflexivity|]. apply IH; [destruct Hv; [contradiction|assumption]|]. inversion ND; assumption.
Qed.

Lemma all_on_side_ok p (b : nat -> bool) side s : (forall v, In v (verts s) -> partition_at p v = Ok (b v)) ->
  all_on_side p side s = Ok (forallb (fun v => Bool.eqb (b v) side) (verts s)).
Proof.
  intro H. unfold all_on_side.
  assert (G : forall l k, (forall v, In v l -> partition_at p v = Ok (b v)) ->
    foldM (fun n v => let* b := partition_at p v in Ok (if Bool.eqb b side then n + 1 else n)) l k = Ok (k + length (filter (fun v => Bool.eqb (b v) side) l))).
  { clear H. induction l as [|v l IH]; intros k H; cbn [foldM filter length]; [f_equal; lia|]. rewrite H by (simpl; auto). cbn [bind]. rewrite IH by (intros; apply H; simpl; auto).
    destruct (Bool.eqb (b v) side); cbn [length]; f_equal; lia. }
  rewrite G by exact H. cbn [bind Nat.add]. f_equal. clear. induction (verts s) as [|v l IH]; [reflexivity|]. cbn [filter forallb length].
  destruct (Bool.eqb (b v) side); cbn [andb length]; [exact IH|]. assert (L : forall l, length (filter (fun v => Bool.eqb (b v) side) l) <= length l) by (clear; intro l; induction l as [|a l IH]; cbn [filter length]; [lia|]; destruct (Bool.eqb (b a) side); cbn [length]; lia).
  specialize (L l). destruct (Nat.eqb_spec (S (length l)) (length (filter (fun v => Bool.eqb (b v) side) l))); [lia|reflexivity].
Qed.

Lemma NoDup_map_filter' {A B} (f : A -> B) g l : NoDup (map f l) -> NoDup (map f (filter g l)).
Proof. apply NoDup_map_filter. Qed.

Lemma partition_fold (vs : list nat) (val : nat -> Z) fiedler m : length fiedler = length vs -> (forall i v, nth_error vs i = Some v -> nth_error fiedler i = Some (val v)) ->
  foldM (fun p i => let* v := at_ vs i in let* x := get_ fiedler i in Ok (p ++ [(v, Z.ltb x m)])) (seq 0 (length fiedler)) [] = Ok (map (fun v => (v, Z.ltb (val v) m)) vs).
Proof.
  intros HL HV. assert (G : forall k, k <= length vs -> foldM (fun p i => let* v := at_ vs i in let* x := get_ fiedler i in Ok (p ++ [(v, Z.ltb x m)])) (seq 0 k) [] = Ok (map (fun v => (v, Z.ltb (val v) m)) (firstn k vs))).
  { induction k as [|k IH]; intro Hk; [reflexivity|]. rewrite seq_S, foldM_app, IH by lia. cbn [bind foldM Nat.add]. unfold at_, get_.
    destruct (nth_error vs k) as [v|] eqn:Ev; [|apply nth_error_None in Ev; lia]. cbn [bind]. rewrite (HV k v Ev). cbn [bind]. f_equal.
    assert (F : firstn (S k) vs = firstn k vs ++ [v]). { clear - Ev. revert k Ev. induction vs as [|a l IH]; intros k Ev; [destruct k; discriminate|]. destruct k; [simpl in Ev; injection Ev as ->; reflexivity|]. cbn [firstn app]. f_equal. apply IH. exact Ev. }
    rewrite F, map_app. reflexivity. }
  rewrite HL, G by lia. rewrite firstn_all. reflexivity.
Qed.

(** values at the vertices *)
Lemma values_exist (vs : list nat) (fiedler : list Z) : NoDup vs -> length fiedler = length vs -> exists val : nat -> Z, forall i v, nth_error vs i = Some v -> nth_error fiedler i = Some (val v).
Proof.
  revert fiedler. induction vs as [|w vs IH]; intros [|x fi] ND HL; try discriminate.
  - exists (fun _ => 0%Z). intros [|i] v H; discriminate.
  - inversion ND as [|? ? Hn ND']; subst. destruct (IH fi ND' ltac:(simpl in HL; lia)) as [val H]. exists (fun v => if v =? w then x else val v). intros [|i] v Hv; cbn [nth_error] in Hv |- *.
    + injection Hv as ->. rewrite Nat.eqb_refl. reflexivity.
    + destruct (Nat.eqb_spec v w) as [->|]; [elim Hn; eapply nth_error_In; eauto|]. apply H. exact Hv.
Qed.

Lemma values_list (vs : list nat) (fiedler : list Z) val : length fiedler = length vs -> (forall i v, nth_error vs i = Some v -> nth_error fiedler i = Some (val v)) -> fiedler = map val vs.
Proof.
  revert fiedler. induction vs as [|w vs IH]; intros [|x fi] HL H; try discriminate; [reflexivity|]. cbn [map]. pose proof (H 0 w eq_refl) as E. cbn [nth_error] in E. injection E as ->. f_equal.
  apply IH; [simpl in HL; lia|]. intros i v Hv. apply (H (S i)). exact Hv.
Qed.

Definition vertices_complete (K : complex) : Prop := forall s v, In s (by_index K) -> In v (verts s) -> In v (k_vertices K).

Lemma filter_disjoint {A} (f g : A -> bool) l : (forall x, In x l -> f x = true -> g x = true -> False) -> filter g (filter (fun x => negb (f x)) l) = filter g l.
Proof.
  induction l as [|x l IH]; intro H; [reflexivity|]. cbn [filter]. destruct (f x) eqn:F; cbn [negb filter]; [|destruct (g x); rewrite IH by (intros; eapply H; simpl; eauto); reflexivity].
  destruct (g x) eqn:G; [exfalso; apply (H x); simpl; auto|]. apply IH. intros; eapply H; simpl; eauto.
Qed.

Lemma median_bounds ne mean l m : nth_element_contract ne -> mean_between mean -> l <> [] -> median ne mean l = Ok m ->
  2 * length (filter (fun y => (y <? m)%Z) l) <= length l.
Proof.
  intros Hne Hm Hl E. destruct (C50_median ne mean l Hne Hl) as [Ho He]. pose proof (Nat.div_mod (length l) 2 ltac:(lia)) as DM. pose proof (Nat.mod_upper_bound (length l) 2 ltac:(lia)) as MB.
  destruct (Nat.Even_or_Odd (length l)) as [Q|Q].
  - destruct (He Q) as (x & y & E' & [_ Ox] & [_ Oy]). rewrite E in E'. injection E' as ->. assert (Hxy : (x <= y)%Z).
    { destruct (Z_le_gt_dec x y); [assumption|]. exfalso. assert (length (filter (fun z => (z <=? y)%Z) l) <= length (filter (fun z => (z <? x)%Z) l)); [|lia].
      clear - g. induction l as [|z l IH]; cbn [filter length]; [lia|]. destruct (Z.leb_spec z y), (Z.ltb_spec z x); cbn [length]; lia. }
    specialize (Hm x y Hxy). assert (length (filter (fun z => (z <? mean y x)%Z) l) <= length (filter (fun z => (z <? y)%Z) l)); [|lia].
    clear - Hm. induction l as [|z l IH]; cbn [filter length]; [lia|]. destruct (Z.ltb_spec z (mean y x)), (Z.ltb_spec z y); cbn [length]; lia.
  - destruct (Ho Q) as (x & E' & [_ Ox]). rewrite E in E'. injection E' as ->. lia.
Qed.

Lemma median_exists ne mean l : nth_element_contract ne -> l <> [] -> exists m, median ne mean l = Ok m.
Proof. intros Hne Hl. destruct (C50_median ne mean l Hne Hl) as [Ho He]. destruct (Nat.Even_or_Odd (length l)) as [Q|Q]; [destruct (He Q) as (x & y & E & _)|destruct (Ho Q) as (x & E & _)]; eauto. Qed.

(** The results are the subcomplexes that are induced by the vertices whose coefficients are
    smaller than the median, and by the other vertices, with their filtration orders. *)
Theorem C105_bisect : forall solver ne mean K, reachable K -> vertices_complete K -> 2 <= length (k_vertices K) ->
  solver_contract solver (length (k_vertices K)) -> nth_element_contract ne -> mean_between mean ->
  exists L fiedler m val K1 K2, weightedLaplacianMatrix K = Ok L /\ nth_error (solver L) 1 = Some fiedler /\ median ne mean fiedler = Ok m /\
    fiedler = map val (k_vertices K) /\
    bisect solver ne mean K = Ok [K1; K2] /\ reachable K1 /\ reachable K2 /\
    by_index K1 = filter (fun s => forallb (fun v => (val v <? m)%Z) (verts s)) (by_index K) /\
    by_index K2 = filter (fun s => forallb (fun v => (m <=? val v)%Z) (verts s)) (by_index K) /\
    2 * length (filter (fun v => (val v <? m)%Z) (k_vertices K)) <= length (k_vertices K).
Proof.
  intros solver ne mean K HR HV H2 HS Hne Hm. pose proof (reachable_kwf K HR) as HK. set (vs := k_vertices K) in *. assert (ND : NoDup vs) by (apply vertices_NoDup; exact HK).
  destruct (C104_laplacian K HR) as (L & EL & SL & _); [intros s v Hs _ Hv; apply (HV s v); assumption|]. fold vs in SL. destruct (HS L SL) as [S1 S2].
  destruct (nth_error (solver L) 1) as [fiedler|] eqn:E1; [|apply nth_error_None in E1; lia]. assert (LF : length fiedler = length vs) by (apply S2; eapply nth_error_In; eauto).
  assert (Fne : fiedler <> []) by (intros ->; simpl in LF; lia). destruct (median_exists ne mean fiedler Hne Fne) as [m Em]. destruct (values_exist vs fiedler ND LF) as [val Hval].
  assert (LC : (length (concat (solver L)) <? 2) = false).
  { apply Nat.ltb_ge. destruct (solver L) as [|a [|b r]]; cbn [length] in S1; try lia. cbn [concat]. rewrite !app_length. rewrite (S2 a), (S2 b) by (simpl; auto). lia. }
  set (b := fun v => (val v <? m)%Z). set (g1 := fun s => forallb (fun v => Bool.eqb (b v) true) (verts s)). set (g2 := fun s => forallb (fun v => Bool.eqb (b v) false) (verts s)).
  assert (G1 : filter g1 (by_index K) = filter (fun s => forallb (fun v => (val v <? m)%Z) (verts s)) (by_index K)).
  { apply filter_ext. intro s. unfold g1, b. induction (verts s) as [|v l IH]; [reflexivity|]. cbn [forallb]. rewrite IH. destruct (val v <? m)%Z; reflexivity. }
  assert (G2 : filter g2 (by_index K) = filter (fun s => forallb (fun v => (m <=? val v)%Z) (verts s)) (by_index K)).
  { apply filter_ext. intro s. unfold g2, b. induction (verts s) as [|v l IH]; [reflexivity|]. cbn [forallb]. rewrite IH. rewrite (Z.ltb_antisym m (val v)). destruct (m <=? val v)%Z; reflexivity. }
  assert (Good : forall s, In s (by_index K) -> good s) by (intros s Hs; apply (kwf_good K HK s Hs)).
  assert (NDg : forall g, NoDup (map verts (filter g (by_index K)))) by (intro g; apply NoDup_map_filter, kwf_nodup; exact HK).
  destruct (of_range_new (filter g1 (by_index K))) as (K1 & EK1 & HK1 & I1); [intros s Hs; apply filter_In in Hs; apply Good; apply Hs|apply NDg|].
  destruct (of_range_new (filter g2 (by_index K))) as (K2 & EK2 & HK2 & I2); [intros s Hs; apply filter_In in Hs; apply Good; apply Hs|apply NDg|].
  exists L, fiedler, m, val, K1, K2. refine (conj EL (conj E1 (conj Em (conj _ (conj _ (conj _ (conj _ (conj _ (conj _ _))))))))).
  - apply values_list; assumption.
  - unfold bisect. rewrite EL. cbn [bind]. replace (length L) with (length vs) by (symmetry; apply SL). destruct (Nat.eqb_spec (length vs) 0); [lia|]. rewrite LC.
    unfold get_ at 1. rewrite E1. cbn [bind]. rewrite Em. cbn [bind]. fold vs. rewrite (partition_fold vs val fiedler m LF Hval). cbn [bind].
    rewrite (stable_partition_ok _ g1). 2:{ intros s Hs. apply (all_on_side_ok _ b). intros v Hv. apply (partition_at_ok vs b); [apply (HV s v); assumption|exact ND]. }
    cbn [bind fst snd]. rewrite (stable_partition_ok _ g2). 2:{ intros s Hs. apply filter_In in Hs. apply (all_on_side_ok _ b). intros v Hv. apply (partition_at_ok vs b); [apply (HV s v); [apply Hs|exact Hv]|exact ND]. }
    cbn [bind fst snd]. rewrite filter_disjoint. 2:{ intros s Hs A B. unfold g1 in A. unfold g2 in B. destruct (kwf_good K HK s Hs) as [_ Hn]. destruct (verts s) as [|v l]; [contradiction|]. cbn [forallb] in A, B. destruct (b v); discriminate. }
    rewrite EK1. cbn [bind]. rewrite EK2. reflexivity.
  - eapply of_range_reachable; [|exact EK1]. intros s Hs. apply filter_In in Hs. apply Good. apply Hs.
  - eapply of_range_reachable; [|exact EK2]. intros s Hs. apply filter_In in Hs. apply Good. apply Hs.
  - rewrite I1. exact G1.
  - rewrite I2. exact G2.
  - pose proof (median_bounds ne mean fiedler m Hne Hm Fne Em) as B. rewrite LF in B. rewrite (values_list vs fiedler val LF Hval) in B.
    replace (length (filter (fun y => (y <? m)%Z) (map val vs))) with (length (filter (fun v => (val v <? m)%Z) vs)) in B; [exact B|]. clear. induction vs as [|v l IH]; [reflexivity|]. cbn [map filter]. destruct (val v <? m)%Z; cbn [length]; lia.
Qed.

(** What this means: the halves are closed, they share no vertices, every vertex is in one of
    them, and a simplex is lost only if it has vertices in both. *)
Theorem C105_halves : forall solver ne mean K K1 K2, reachable K -> closed (by_index K) -> 2 <= length (k_vertices K) ->
  solver_contract solver (length (k_vertices K)) -> nth_element_contract ne -> mean_between mean ->
  bisect solver ne mean K = Ok [K1; K2] ->
  closed (by_index K1) /\ closed (by_index K2) /\
  (forall v, In v (k_vertices K) -> (In v (k_vertices K1) /\ ~ In v (k_vertices K2)) \/ (~ In v (k_vertices K1) /\ In v (k_vertices K2))) /\
  (forall s, In s (by_index K1) <-> In s (by_index K) /\ subset (verts s) (k_vertices K1)) /\
  (forall s, In s (by_index K2) <-> In s (by_index K) /\ subset (verts s) (k_vertices K2)) /\
  length (k_vertices K1) <= length (k_vertices K2).
Proof.
  intros solver ne mean K K1 K2 HR HC H2 HS Hne Hm EB. pose proof (reachable_kwf K HR) as HK.
  assert (HV : vertices_complete K).
  { intros s v Hs Hv. destruct (HC s [v] Hs) as (t & Ht & Et); [discriminate|intros x [<-|[]]; exact Hv|]. apply (vertices_spec K HK). exists t. split; [exact Ht|].
    change [v] with (verts (Simplex [v] 0)). apply wf_ext; [apply (kwf_good K HK t Ht)|unfold wf; repeat constructor|exact Et]. }
  destruct (C105_bisect solver ne mean K HR HV H2 HS Hne Hm) as (L & fi & m & val & J1 & J2 & _ & _ & _ & _ & EB' & R1 & R2 & I1 & I2 & C). rewrite EB in EB'. injection EB' as <- <-.
  pose proof (reachable_kwf K1 R1) as HK1. pose proof (reachable_kwf K2 R2) as HK2.
  assert (P : forall (p : nat -> bool) J, kwf J -> by_index J = filter (fun s => forallb p (verts s)) (by_index K) ->
    closed (by_index J) /\ (forall v, In v (k_vertices J) <-> In v (k_vertices K) /\ p v = true) /\ (forall s, In s (by_index J) <-> In s (by_index K) /\ subset (verts s) (k_vertices J)) /\ k_vertices J = filter p (k_vertices K)).
  { intros p J HJ I. assert (V : forall v, In v (k_vertices J) <-> In v (k_vertices K) /\ p v = true).
    { intro v. rewrite (proj2 (vertices_spec J HJ) v), (proj2 (vertices_spec K HK) v). split.
      - intros (s & Hs & E). rewrite I in Hs. apply filter_In in Hs. destruct Hs as [Hs F]. rewrite E in F. cbn [forallb] in F. rewrite andb_true_r in F. split; [exists s; auto|exact F].
      - intros [(s & Hs & E) F]. exists s. split; [|exact E]. rewrite I. apply filter_In. split; [exact Hs|]. rewrite E. cbn [forallb]. rewrite F. reflexivity. }
    refine (conj _ (conj V (conj _ _))).
    - intros s ws Hs Hn Hsub. rewrite I in Hs. apply filter_In in Hs. destruct Hs as [Hs F]. destruct (HC s ws Hs Hn Hsub) as (t & Ht & Et). exists t. split; [|exact Et]. rewrite I. apply filter_In. split; [exact Ht|].
      apply forallb_forall. intros v Hv. rewrite forallb_forall in F. apply F, Hsub, Et. exact Hv.
    - intro s. rewrite I, filter_In, forallb_forall. split; intros [Hs F]; (split; [exact Hs|]); intros v Hv; [apply V; split; [apply (HV s v); assumption|apply F; exact Hv]|apply V, F; exact Hv].
    - assert (SS : forall l l', StronglySorted lt l -> StronglySorted lt l' -> (forall v, In v l <-> In v l') -> l = l').
      { clear. induction l as [|a l IH]; intros [|b l'] S1 S2 H; [reflexivity|exfalso; apply (H b); simpl; auto|exfalso; apply (H a); simpl; auto|].
        inversion S1 as [|? ? S1' F1]; inversion S2 as [|? ? S2' F2]; subst. rewrite Forall_forall in F1, F2.
        assert (a = b). { destruct (proj1 (H a) ltac:(simpl; auto)) as [E|E]; [auto|]. destruct (proj2 (H b) ltac:(simpl; auto)) as [E'|E']; [auto|]. specialize (F1 _ E'). specialize (F2 _ E). lia. } subst b.
        f_equal. apply IH; auto. intro v. split; intro Hv.
        - destruct (proj1 (H v) ltac:(simpl; auto)) as [<-|]; [|assumption]. specialize (F1 _ Hv). lia.
        - destruct (proj2 (H v) ltac:(simpl; auto)) as [<-|]; [|assumption]. specialize (F2 _ Hv). lia. }
      apply SS; [apply (vertices_spec J HJ)| |intro v; rewrite V, filter_In; reflexivity].
      pose proof (proj1 (vertices_spec K HK)) as S. clear - S. induction S as [|a l S IH F]; [constructor|]. cbn [filter]. destruct (p a); [|exact IH]. constructor; [exact IH|]. rewrite Forall_forall in F |- *. intros x Hx. apply filter_In in Hx. apply F. apply Hx. }
  destruct (P _ K1 HK1 I1) as (A1 & A2 & A3 & A4). destruct (P _ K2 HK2 I2) as (B1 & B2 & B3 & B4).
  refine (conj A1 (conj B1 (conj _ (conj A3 (conj B3 _))))).
  - intros v Hv. rewrite A2, B2. destruct (Z.ltb_spec (val v) m), (Z.leb_spec m (val v)); try lia; [left|right]; (split; [|]); try tauto; try (intros [_ X]; discriminate).
  - rewrite A4, B4. assert (N : length (filter (fun v => (val v <? m)%Z) (k_vertices K)) + length (filter (fun v => (m <=? val v)%Z) (k_vertices K)) = length (k_vertices K)); [|lia].
    clear. induction (k_vertices K) as [|v l IH]; [reflexivity|]. cbn [filter]. destruct (Z.ltb_spec (val v) m), (Z.leb_spec m (val v)); try lia; cbn [length]; lia.
Qed.

(** A single vertex cannot be bisected. *)
Theorem C105_throws : forall solver ne mean K, reachable K -> vertices_complete K -> length (k_vertices K) = 1 -> solver_contract solver 1 ->
  bisect solver ne mean K = Throw RuntimeError.
Proof.
  intros solver ne mean K HR HV H1 HS. destruct (C104_laplacian K HR) as (L & EL & SL & _); [intros s v Hs _ Hv; apply (HV s v); assumption|]. rewrite H1 in SL. destruct (HS L SL) as [S1 S2].
  unfold bisect. rewrite EL. cbn [bind]. replace (length L) with 1 by (symmetry; apply SL). cbn [Nat.eqb]. destruct (solver L) as [|a [|b r]]; try discriminate. cbn [concat]. rewrite app_nil_r, (S2 a) by (simpl; auto). reflexivity.
Qed.

Definition make (l : list (list nat * Z)) : complex := match k_of_range (map (fun p => simplex_of (fst p) (snd p)) l) with Ok K => K | _ => k_empty end.
Definition sorting (l : list Z) (k : nat) : list Z := cpp_sort Z.ltb l.
Definition half_mean (a b : Z) : Z := Z.div (a + b) 2.

(** FINDING: one of the halves can be empty although the graph is connected.  For a star with
    four leaves, the eigenvalues are 0, 1, 1, 1 and 5; the second eigenvector below belongs to
    the eigenvalue 1, and three of its coefficients are equal to the median. *)
Theorem C105_empty_refuted :
  let K := make [([0], 0%Z); ([1], 0%Z); ([2], 0%Z); ([3], 0%Z); ([4], 0%Z); ([0; 1], 1%Z); ([0; 2], 1%Z); ([0; 3], 1%Z); ([0; 4], 1%Z)] in
  let U := [[1; 1; 1; 1; 1]; [0; 3; -1; -1; -1]; [0; 0; 2; -1; -1]; [0; 0; 0; 1; -1]; [-4; 1; 1; 1; 1]]%Z in
  let eigenvalues := [0; 1; 1; 1; 5]%Z in
  (exists L, weightedLaplacianMatrix K = Ok L /\
     (forall k i, k < 5 -> i < 5 -> sumZ 5 (fun j => ent L i j * ent U k j)%Z = (nth k eigenvalues 0 * ent U k i)%Z) /\
     (forall k l, k < 5 -> l < 5 -> k <> l -> sumZ 5 (fun j => ent U k j * ent U l j)%Z = 0%Z)) /\
  bisect (fun _ => U) sorting half_mean K = Ok [k_empty; K].
Proof.
  split; [|vm_compute; reflexivity]. eexists. split; [vm_compute; reflexivity|]. split.
  - intros k i Hk Hi. do 5 (destruct k as [|k]; [do 5 (destruct i as [|i]; [vm_compute; reflexivity|]); lia|]). lia.
  - intros k l Hk Hl Hne. do 5 (destruct k as [|k]; [do 5 (destruct l as [|l]; [try (vm_compute; reflexivity); elim Hne; reflexivity|]); lia|]). lia.
Qed.

(** two triangles that are connected by an edge; the coefficients are in the order of those
    of the Fiedler vector *)
Example C105_example :
  let K := make [([0], 0%Z); ([1], 0%Z); ([2], 0%Z); ([3], 0%Z); ([4], 0%Z); ([5], 0%Z); ([0; 1], 1%Z); ([0; 2], 1%Z); ([1; 2], 1%Z); ([2; 3], 1%Z); ([3; 4], 1%Z); ([3; 5], 1%Z); ([4; 5], 1%Z); ([0; 1; 2], 1%Z)] in
  bisect (fun _ => [[1; 1; 1; 1; 1; 1]; [-5; -5; -3; 3; 5; 5]]%Z) sorting half_mean K =
  Ok [make [([0], 0%Z); ([1], 0%Z); ([2], 0%Z); ([0; 1], 1%Z); ([0; 2], 1%Z); ([1; 2], 1%Z); ([0; 1; 2], 1%Z)];
      make [([3], 0%Z); ([4], 0%Z); ([5], 0%Z); ([3; 4], 1%Z); ([3; 5], 1%Z); ([4; 5], 1%Z)]] /\
  nth_element_contract sorting /\ mean_between half_mean.
Proof.
  split; [vm_compute; reflexivity|]. split; [apply C50_example|]. intros x y H. unfold half_mean. pose proof (Z.div_mod (y + x) 2). pose proof (Z.mod_pos_bound (y + x) 2). lia.
Qed.

Print Assumptions C105_bisect.
Print Assumptions C105_halves.
Print Assumptions C105_throws.
Print Assumptions C105_empty_refuted.
