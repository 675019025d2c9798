(** * Property C178: persistence diagrams describe the homology of all sublevel complexes and nothing else. *)
From Coq Require Import List Arith Bool ZArith Lia Permutation.
From Verif Require Import Base Simplex SimplexFacts SpecComplex Complex ComplexFacts FiltrationFacts SubcomplexFacts History PropertiesComplex Matrix SpecMatrix ReductionFacts SpecHomology HomologyFacts PropertiesHomology
  SpecDiagram Diagram DiagramFacts PropertiesDiagram PropertiesComponents PropertiesLevels SpecSimplicial SimplicialFacts PropertiesSpineHomology SublevelFacts.
Import ListNotations.

(** ** Specification *)
(** the simplices with data at most [t] *)
Definition below (t : Z) (L : list simplex) : list simplex := filter (fun s => (data s <=? t)%Z) L.
(** the rank of the map which an inclusion of [A] in [B] induces in the [d]-th homology: cycles of [A] modulo those that bound in [B] *)
Definition induced_rank (A B : list simplex) (d n : nat) : Prop :=
  exists z b, p_dim (s_cycles (map verts A) d) z /\ p_dim (fun x => s_cycles (map verts A) d x /\ s_boundaries (map verts B) d x) b /\ z = n + b.
(** the points that are born at [s] or before and die after [t] *)
Definition alive (s t : Z) (l : list point) : nat := length (filter (fun q => (fst q <=? s)%Z && (t <? snd q)%Z) l).
(** the same for filtrations by descending data: points that are born at [s] or before, that is, above, and die below [t] or never *)
Definition above (t : Z) (L : list simplex) : list simplex := filter (fun s => (t <=? data s)%Z) L.
Definition alive_above (inf s t : Z) (l : list point) : nat := length (filter (fun q => (s <=? fst q)%Z && ((snd q <? t)%Z || (snd q =? inf)%Z)) l).

(** ** Facts *)
Lemma below_prefix t L : ascending_data L -> below t L = firstn (length (below t L)) L.
Proof.
  unfold below. induction L as [|s L IH]; intro H; [reflexivity|]. assert (H' : ascending_data L) by (intros i j a b Hij Hi Hj; apply (H (S i) (S j)); auto; lia).
  cbn [filter]. destruct (data s <=? t)%Z eqn:E; [cbn [length firstn]; f_equal; apply IH; exact H'|].
  assert (N : filter (fun s => (data s <=? t)%Z) L = []); [|rewrite N; reflexivity]. apply Z.leb_gt in E. clear IH H'. assert (G : forall u, In u L -> (data s <= data u)%Z).
  { intros u Hu. apply In_nth_error in Hu. destruct Hu as (k & Hk). apply (H 0 (S k)); [lia|reflexivity|exact Hk]. }
  clear H. induction L as [|u L IH]; [reflexivity|]. cbn [filter]. destruct (Z.leb_spec (data u) t) as [F|F]; [specialize (G u (or_introl eq_refl)); lia|]. apply IH. intros w Hw. apply G. right. exact Hw.
Qed.
Lemma induced_link K : reachable K -> closed (by_index K) -> filtration_order (by_index K) -> ascending_data (by_index K) -> exists M, makeBoundaryMatrix K 0 = Ok M /\
  forall s t d n, induced_rank (below s (by_index K)) (below t (by_index K)) d n <-> persistent_betti (cols M) (dims M) (sublevel K s) (sublevel K t) d n.
Proof.
  intros HR HC HF HA. pose proof (kwf_nodup K (reachable_kwf K HR)) as HN. destruct (matrix_link K HR HC HF) as (M & EM & HV & L & D & E & O). exists M. split; [exact EM|]. intros s t d n.
  assert (P : forall r k, entry (cols M) r k = true -> r < k). { intros r k H. destruct HV as (_ & _ & HV & _). apply (HV k r H). }
  assert (B : forall t, map verts (below t (by_index K)) = firstn (sublevel K t) (map verts (by_index K))) by (intro u; rewrite (below_prefix u _ HA), firstn_map; reflexivity).
  assert (S : forall t, sublevel K t <= length (map verts (by_index K))) by (intro u; rewrite map_length; apply sublevel_le).
  unfold induced_rank, persistent_betti. rewrite !B. split; intros (z & b & Hz & Hb & Q); exists z, b; (split; [|split; [|exact Q]]).
  - exact (proj1 (dim_cycles_prefix _ (cols M) (dims M) HN L D E O P _ d z (S s)) Hz).
  - exact (proj1 (dim_both_prefix _ (cols M) (dims M) HN L D E O P _ _ d b (S s) (S t)) Hb).
  - exact (proj2 (dim_cycles_prefix _ (cols M) (dims M) HN L D E O P _ d z (S s)) Hz).
  - exact (proj2 (dim_both_prefix _ (cols M) (dims M) HN L D E O P _ _ d b (S s) (S t)) Hb).
Qed.
Lemma below_perm t L P : Permutation L P -> Permutation (below t L) (below t P).
Proof. induction 1 as [|x l m _ IH|x y l|l m k _ IH1 _ IH2]; cbn; [constructor|destruct (data x <=? t)%Z; auto|destruct (data x <=? t)%Z, (data y <=? t)%Z; auto; apply perm_swap|]. eapply perm_trans; eassumption. Qed.
Lemma induced_perm A B A' B' d n : Permutation A A' -> Permutation B B' -> induced_rank A B d n -> induced_rank A' B' d n.
Proof.
  intros PA PB (z & b & Hz & Hb & E). apply (Permutation_map verts) in PA. apply (Permutation_map verts) in PB. exists z, b. split; [|split; [|exact E]].
  - apply (p_dim_ext (s_cycles (map verts A) d)); [|exact Hz]. intro x. split; apply s_cycles_perm; [exact PA|apply Permutation_sym; exact PA].
  - apply (p_dim_ext (fun x => s_cycles (map verts A) d x /\ s_boundaries (map verts B) d x)); [|exact Hb]. intro x. split; intros [H1 H2]; (split; [eapply s_cycles_perm; [|exact H1]|eapply s_boundaries_perm; [|exact H2]]); auto; apply Permutation_sym; assumption.
Qed.
Lemma boundaries_cycles K i d x : reachable K -> closed (by_index K) -> filtration_order (by_index K) -> i <= k_size K ->
  s_boundaries (map verts (firstn i (by_index K))) d x -> s_cycles (map verts (firstn i (by_index K))) d x.
Proof.
  intros HR HC HF Hi Hx. pose proof (kwf_nodup K (reachable_kwf K HR)) as HN. destruct (matrix_link K HR HC HF) as (M & EM & HV & L & D & E & O).
  assert (P : forall r k, entry (cols M) r k = true -> r < k). { intros r k H. destruct HV as (_ & _ & HV & _). apply (HV k r H). }
  assert (S : i <= length (map verts (by_index K))) by (rewrite map_length; exact Hi). rewrite <- firstn_map in *. set (V := map verts (by_index K)) in *.
  assert (Sx : forall f, x f = true -> In f V) by (intros f Hf; rewrite <- (firstn_skipn i V); apply in_or_app; left; apply (s_boundaries_support _ d x Hx f Hf)).
  apply (boundaries_up_prefix V (cols M) (dims M) HN L D E O P i d x S) in Hx. apply (boundary_is_cycle (cols M) (dims M) HV) in Hx.
  apply (cycles_down_prefix V (cols M) (dims M) HN L D E O P i d _ S) in Hx. destruct Hx as [H1 H2]. pose proof (down_up V HN x Sx) as X. split.
  - intros f Hf. rewrite (X f) in Hf. apply H1. exact Hf.
  - intro f. rewrite (s_bd_ext _ _ _ X f). apply H2.
Qed.
Lemma prefix_same K i d n : reachable K -> closed (by_index K) -> filtration_order (by_index K) -> i <= k_size K ->
  induced_rank (firstn i (by_index K)) (firstn i (by_index K)) d n -> simplicial_betti (firstn i (by_index K)) d n.
Proof.
  intros HR HC HF HA (z & b & Hz & Hb & E). exists z, b. split; [exact Hz|]. split; [|exact E]. eapply p_dim_ext; [|exact Hb]. intro x. split; [intros [_ H]; exact H|]. intro H. split; [apply boundaries_cycles; assumption|exact H].
Qed.
Lemma induced_same K t d n : reachable K -> closed (by_index K) -> filtration_order (by_index K) -> ascending_data (by_index K) ->
  induced_rank (below t (by_index K)) (below t (by_index K)) d n -> simplicial_betti (below t (by_index K)) d n.
Proof. intros HR HC HF HA. rewrite (below_prefix t _ HA). apply prefix_same; auto. apply (sublevel_le K t). Qed.
(** the multiplicity of a point from the numbers of points that are alive *)
Lemma multiplicity a b l : length (filter (point_eqb (a, b)) l) + alive (a - 1) (b - 1) l + alive a b l = alive a (b - 1) l + alive (a - 1) b l.
Proof.
  unfold alive. induction l as [|[x y] l IH]; [reflexivity|]. cbn [filter fst snd]. unfold point_eqb at 1. cbn [fst snd].
  destruct (Z.eqb_spec a x), (Z.eqb_spec b y), (Z.leb_spec x (a - 1)), (Z.leb_spec x a), (Z.ltb_spec (b - 1) y), (Z.ltb_spec b y); cbn [andb length]; lia.
Qed.
Definition point_dec (p q : point) : {p = q} + {p <> q}.
Proof. decide equality; apply Z.eq_dec. Defined.
Lemma count_filter p l : count_occ point_dec l p = length (filter (point_eqb p) l).
Proof.
  induction l as [|q l IH]; [reflexivity|]. cbn [count_occ filter]. destruct p as [a b], q as [x y]. unfold point_eqb at 1. cbn [fst snd].
  destruct (point_dec (x, y) (a, b)) as [E|N]; [injection E as -> ->; rewrite !Z.eqb_refl; cbn [andb length]; f_equal; exact IH|].
  destruct (Z.eqb_spec a x) as [->|]; [destruct (Z.eqb_spec b y) as [->|]; [exfalso; apply N; reflexivity|]|]; cbn [andb]; exact IH.
Qed.
Lemma none_alive inf s t l : (forall q, In q l -> (snd q <= inf)%Z) -> (inf <= t)%Z -> alive s t l = 0.
Proof. intros H Ht. unfold alive. induction l as [|q l IH]; [reflexivity|]. cbn [filter]. pose proof (H q (or_introl eq_refl)). destruct (Z.ltb_spec t (snd q)); [lia|]. rewrite andb_false_r. apply IH. intros r Hr. apply H. right. exact Hr. Qed.

(** ** The theorems *)
Theorem C178_ranks : forall inf order a K dual, (forall l, Permutation (order l) l) -> reachable K -> closed (by_index K) -> filtration_order (by_index K) -> ascending_data (by_index K) ->
  exists ds, calculatePersistenceDiagrams inf order a K dual true = Ok ds /\
    forall d s t, (t < inf)%Z -> induced_rank (below s (by_index K)) (below t (by_index K)) d (alive s t (points_of ds d)).
Proof.
  intros inf order a K dual Ho HR HC HF HA. destruct (C55_diagrams_give_persistent_ranks inf order a K dual true Ho HR HC HF HA) as (M & ds & EM & Ed & H). exists ds. split; [exact Ed|].
  destruct (induced_link K HR HC HF HA) as (M' & EM' & G). rewrite EM in EM'. injection EM' as <-. intros d s t Ht. apply G. apply H; auto.
Qed.

(** In particular, the number of points that are alive at a threshold is the Betti number of its sublevel complex. *)
Theorem C178_betti : forall inf order a K dual, (forall l, Permutation (order l) l) -> reachable K -> closed (by_index K) -> filtration_order (by_index K) -> ascending_data (by_index K) ->
  exists ds, calculatePersistenceDiagrams inf order a K dual true = Ok ds /\
    forall d t, (t < inf)%Z -> simplicial_betti (below t (by_index K)) d (alive t t (points_of ds d)).
Proof.
  intros inf order a K dual Ho HR HC HF HA. destruct (C178_ranks inf order a K dual Ho HR HC HF HA) as (ds & E & H). exists ds. split; [exact E|]. intros d t Ht. apply induced_same; auto.
Qed.
(** The order of simplices with the same data does not matter. *)
Theorem C178_order : forall inf order order' a a' K L dual dual', (forall l, Permutation (order l) l) -> (forall l, Permutation (order' l) l) ->
  reachable K -> closed (by_index K) -> filtration_order (by_index K) -> ascending_data (by_index K) -> (forall s, In s (by_index K) -> (data s < inf)%Z) ->
  reachable L -> filtration_order (by_index L) -> ascending_data (by_index L) -> Permutation (by_index K) (by_index L) ->
  exists ds es, calculatePersistenceDiagrams inf order a K dual true = Ok ds /\ calculatePersistenceDiagrams inf order' a' L dual' true = Ok es /\
    forall d, Permutation (points_of ds d) (points_of es d).
Proof.
  intros inf order order' a a' K L dual dual' Ho Ho' HR HC HF HA HI HRL HFL HAL HP. assert (HCL : closed (by_index L)) by (apply (closed_perm (by_index K)); assumption).
  assert (HIL : forall s, In s (by_index L) -> (data s < inf)%Z) by (intros s Hs; apply HI; apply (Permutation_in _ (Permutation_sym HP)); exact Hs).
  destruct (C178_ranks inf order a K dual Ho HR HC HF HA) as (ds & E & H). destruct (C178_ranks inf order' a' L dual' Ho' HRL HCL HFL HAL) as (es & E' & H'). exists ds, es. split; [exact E|]. split; [exact E'|]. intro d.
  destruct (induced_link L HRL HCL HFL HAL) as (M & _ & G).
  assert (U : forall K order a dual ds, (forall l, Permutation (order l) l) -> reachable K -> closed (by_index K) -> filtration_order (by_index K) -> (forall s, In s (by_index K) -> (data s < inf)%Z) -> calculatePersistenceDiagrams inf order a K dual true = Ok ds -> forall q, In q (points_of ds d) -> (snd q <= inf)%Z).
  { clear. intros K order a dual ds Ho HR HC HF HI E q Hq. destruct (pipeline inf K true HR HC HF) as (M & p & p1 & ds' & _ & HV & HL & Hdims & Hp & Hp1 & Hb & Ed & H). rewrite (H order a dual Ho) in E. injection E as <-.
    rewrite (points_of_pairs inf K p1 ds' d (reachable_kwf _ HR) Hb Ed) in Hq. apply in_map_iff in Hq. destruct Hq as ([u [v|]] & <- & _); cbn [pair_point snd]; [|lia]. destruct (Nat.ltb_spec v (length (by_index K))) as [G|G]; [|lia].
    assert (data_at K v < inf)%Z by (apply HI, nth_In; exact G). lia. }
  assert (A : forall s t, alive s t (points_of ds d) = alive s t (points_of es d)).
  { intros s t. destruct (Z.lt_ge_cases t inf) as [Ht|Ht].
    - apply (C17_rank_unique (cols M) (dims M) (sublevel L s) (sublevel L t) d); apply G; [|apply H'; exact Ht]. apply (induced_perm (below s (by_index K)) (below t (by_index K))); [apply below_perm; exact HP|apply below_perm; exact HP|apply H; exact Ht].
    - rewrite (none_alive inf s t (points_of ds d)), (none_alive inf s t (points_of es d)); auto; [apply (U L order' a' dual'); auto|apply (U K order a dual); auto]. }
  apply (Permutation_count_occ point_dec). intros [x y]. rewrite !count_filter. pose proof (multiplicity x y (points_of ds d)) as M1. pose proof (multiplicity x y (points_of es d)) as M2. rewrite !A in M1. lia.
Qed.

(** ** Superlevel sets *)
Lemma above_prefix t L : descending_data L -> above t L = firstn (length (above t L)) L /\ forall k s, nth_error L k = Some s -> ((t <=? data s)%Z = (k <? length (above t L))).
Proof.
  unfold above. induction L as [|s L IH]; intro H; [split; [reflexivity|intros [|k] s Hk; discriminate]|]. assert (H' : descending_data L) by (intros i j a b Hij Hi Hj; apply (H (S i) (S j)); auto; lia).
  destruct (IH H') as [I1 I2]. cbn [filter]. destruct (t <=? data s)%Z eqn:E.
  - cbn [length firstn]. split; [f_equal; exact I1|]. intros [|k] u Hu; cbn in Hu; [injection Hu as <-; rewrite E; reflexivity|]. rewrite (I2 k u Hu). reflexivity.
  - apply Z.leb_gt in E. assert (G : forall u, In u L -> (data u <= data s)%Z).
    { intros u Hu. apply In_nth_error in Hu. destruct Hu as (k & Hk). apply (H 0 (S k)); [lia|reflexivity|exact Hk]. }
    assert (N : filter (fun s => (t <=? data s)%Z) L = []). { clear - G E. induction L as [|u L IH]; [reflexivity|]. cbn [filter]. destruct (Z.leb_spec t (data u)) as [F|F]; [specialize (G u (or_introl eq_refl)); lia|]. apply IH. intros w Hw. apply G. right. exact Hw. }
    rewrite N. split; [reflexivity|]. intros [|k] u Hu; cbn in Hu; [injection Hu as <-; apply Z.leb_gt; exact E|]. apply Z.leb_gt. apply nth_error_In in Hu. specialize (G u Hu). lia.
Qed.
Lemma prefix_ranks inf K : reachable K -> closed (by_index K) -> filtration_order (by_index K) ->
  exists p ds, (forall order a dual, (forall l, Permutation (order l) l) -> calculatePersistenceDiagrams inf order a K dual true = Ok ds) /\
    (forall d, points_of ds d = map (pair_point inf K) (filter (fun q => dim_at K (fst q) =? d) p)) /\
    (forall u o, In (u, o) p -> u < k_size K /\ match o with Some v => v < k_size K | None => True end) /\
    forall i j d, i <= k_size K -> j <= k_size K ->
      induced_rank (firstn i (by_index K)) (firstn j (by_index K)) d (length (filter (fun q => (dim_at K (fst q) =? d) && ((fst q <? i) && negb (dies j q))) p)).
Proof.
  intros HR HC HF. destruct (pipeline inf K true HR HC HF) as (M & p & p1 & ds & EM & HV & HL & Hdims & Hp & Hp1 & Hb & Ed & H). cbn in Hp1. subst p1. exists p, ds. split; [exact H|]. split; [intro d; apply points_of_pairs; [apply reachable_kwf; exact HR|exact Hb|exact Ed]|].
  assert (Hv : forall u o, In (u, o) p -> u < k_size K /\ match o with Some v => v < k_size K | None => True end).
  { intros u o Hq. split; [apply (Hb _ Hq)|]. destruct o as [v|]; [|trivial]. apply Hp in Hq. rewrite <- HL. apply Hq. }
  split; [exact Hv|]. intros i j d Hi Hj. pose proof (kwf_nodup K (reachable_kwf K HR)) as HN. destruct (matrix_link K HR HC HF) as (M' & EM' & _ & L & D & E & O). rewrite EM in EM'. injection EM' as <-.
  assert (P : forall r k, entry (cols M) r k = true -> r < k). { intros r k Hr. destruct HV as (_ & _ & HV & _). apply (HV k r Hr). }
  assert (S : forall n, n <= k_size K -> n <= length (map verts (by_index K))) by (intros n Hn; rewrite map_length; exact Hn).
  pose proof (persistent_betti_pairing _ _ HV p Hp i j d) as HB. rewrite !HL in HB. specialize (HB Hi Hj).
  replace (filter (fun q => (dim_at K (fst q) =? d) && ((fst q <? i) && negb (dies j q))) p) with (filter (fun q => (fst q <? i) && (nth (fst q) (dims M) 0 =? d) && negb (dies j q)) p).
  - destruct HB as (z & b & Hz & Hbb & Q). exists z, b. rewrite <- !firstn_map. split; [exact (proj2 (dim_cycles_prefix _ (cols M) (dims M) HN L D E O P _ d z (S i Hi)) Hz)|]. split; [exact (proj2 (dim_both_prefix _ (cols M) (dims M) HN L D E O P _ _ d b (S i Hi) (S j Hj)) Hbb)|exact Q].
  - apply filter_ext_in. intros [u o] Hq. cbn [fst]. destruct (Hv u o Hq) as [Hu _]. assert (X : nth u (dims M) 0 = dim_at K u).
    { rewrite Hdims. unfold dim_at. destruct (nth_error (by_index K) u) as [s|] eqn:Es; [|apply nth_error_None in Es; unfold k_size in Hu; lia]. rewrite (nth_error_nth _ _ dummy_simplex Es). apply (map_nth_error sdim) in Es. apply (nth_error_nth _ _ 0 Es). }
    rewrite X. destruct (u <? i), (dim_at K u =? d), (dies j (u, o)); reflexivity.
Qed.
Theorem C178_superlevel : forall inf order a K dual, (forall l, Permutation (order l) l) -> reachable K -> closed (by_index K) -> filtration_order (by_index K) -> descending_data (by_index K) ->
  (forall s, In s (by_index K) -> (data s < inf)%Z) ->
  exists ds, calculatePersistenceDiagrams inf order a K dual true = Ok ds /\
    (forall d s t, induced_rank (above s (by_index K)) (above t (by_index K)) d (alive_above inf s t (points_of ds d))) /\
    forall d t, simplicial_betti (above t (by_index K)) d (alive_above inf t t (points_of ds d)).
Proof.
  intros inf order a K dual Ho HR HC HF HA HI. enough (G : exists ds, calculatePersistenceDiagrams inf order a K dual true = Ok ds /\ forall d s t, induced_rank (above s (by_index K)) (above t (by_index K)) d (alive_above inf s t (points_of ds d))).
  { destruct G as (ds & E & G). exists ds. split; [exact E|]. split; [exact G|]. intros d t. specialize (G d t t). destruct (above_prefix t _ HA) as [At _]. rewrite At in G |- *. apply prefix_same; auto.
    clear. unfold above, k_size. induction (by_index K) as [|x l IH]; cbn; [lia|]. destruct (t <=? data x)%Z; cbn; lia. }
  destruct (prefix_ranks inf K HR HC HF) as (p & ds & H & HP & HB & HX). exists ds. split; [apply H; exact Ho|]. intros d s t.
  destruct (above_prefix s _ HA) as [As Ks]. destruct (above_prefix t _ HA) as [At Kt]. set (i := length (above s (by_index K))) in *. set (j := length (above t (by_index K))) in *.
  assert (L : forall u, length (above u (by_index K)) <= k_size K) by (clear; intro u; unfold above, k_size; induction (by_index K) as [|x l IH]; cbn; [lia|]; destruct (u <=? data x)%Z; cbn; lia).
  rewrite As, At. unfold alive_above. rewrite HP, filter_map_len, filter_filter.
  match goal with |- induced_rank _ _ _ (length (filter ?f p)) => replace (filter f p) with (filter (fun q => (dim_at K (fst q) =? d) && ((fst q <? i) && negb (dies j q))) p); [apply HX; apply L|] end.
  apply filter_ext_in. intros [u o] Hq. destruct (HB u o Hq) as [Hu Hv]. unfold dies, pair_point. cbn [fst snd]. f_equal.
  assert (G : forall k n w, k < k_size K -> (forall k s, nth_error (by_index K) k = Some s -> ((w <=? data s)%Z = (k <? n))) -> (k <? n) = (w <=? data_at K k)%Z).
  { intros k n w Hk G. destruct (nth_error (by_index K) k) as [x|] eqn:Ex; [|apply nth_error_None in Ex; unfold k_size in Hk; lia]. unfold data_at. rewrite (nth_error_nth _ _ dummy_simplex Ex). symmetry. apply G. exact Ex. }
  rewrite (G u i s Hu Ks). f_equal. destruct o as [v|].
  - pose proof Hv as Hv'. unfold k_size in Hv'. apply Nat.ltb_lt in Hv'. rewrite Hv'. rewrite (G v j t Hv Kt). assert (data_at K v < inf)%Z by (apply HI, nth_In; exact Hv).
    destruct (Z.leb_spec t (data_at K v)), (Z.ltb_spec (data_at K v) t), (Z.eqb_spec (data_at K v) inf); cbn; auto; lia.
  - rewrite Z.eqb_refl, orb_true_r. reflexivity.
Qed.

Lemma multiplicity_above inf a b l : b <> inf -> length (filter (point_eqb (a, b)) l) + alive_above inf (a + 1) (b + 1) l + alive_above inf a b l = alive_above inf a (b + 1) l + alive_above inf (a + 1) b l.
Proof.
  intro N. unfold alive_above. induction l as [|[x y] l IH]; [reflexivity|]. cbn [filter fst snd]. unfold point_eqb at 1. cbn [fst snd].
  destruct (Z.eqb_spec a x), (Z.eqb_spec b y), (Z.leb_spec (a + 1) x), (Z.leb_spec a x), (Z.ltb_spec y (b + 1)), (Z.ltb_spec y b), (Z.eqb_spec y inf); cbn [andb orb length]; lia.
Qed.
Lemma multiplicity_unpaired inf a t l : (forall q, In q l -> (t <= snd q)%Z) -> length (filter (point_eqb (a, inf)) l) + alive_above inf (a + 1) t l = alive_above inf a t l.
Proof.
  unfold alive_above. induction l as [|[x y] l IH]; intro H; [reflexivity|]. specialize (IH (fun q Hq => H q (or_intror Hq))). pose proof (H (x, y) (or_introl eq_refl)) as H0. cbn [snd] in H0. cbn [filter fst snd]. unfold point_eqb at 1. cbn [fst snd].
  destruct (Z.eqb_spec a x), (Z.eqb_spec inf y), (Z.leb_spec (a + 1) x), (Z.leb_spec a x), (Z.ltb_spec y t), (Z.eqb_spec y inf); cbn [andb orb length]; lia.
Qed.
Lemma lower_bound (l : list point) : exists t, forall q, In q l -> (t <= snd q)%Z.
Proof. induction l as [|p l (t & IH)]; [exists 0%Z; intros q []|]. exists (Z.min t (snd p)). intros q [<-|Hq]; [lia|]. specialize (IH q Hq). lia. Qed.
Lemma above_perm t L P : Permutation L P -> Permutation (above t L) (above t P).
Proof. induction 1 as [|x l m _ IH|x y l|l m k _ IH1 _ IH2]; cbn; [constructor|destruct (t <=? data x)%Z; auto|destruct (t <=? data x)%Z, (t <=? data y)%Z; auto; apply perm_swap|]. eapply perm_trans; eassumption. Qed.
Theorem C178_superlevel_order : forall inf order order' a a' K L dual dual', (forall l, Permutation (order l) l) -> (forall l, Permutation (order' l) l) ->
  reachable K -> closed (by_index K) -> filtration_order (by_index K) -> descending_data (by_index K) -> (forall s, In s (by_index K) -> (data s < inf)%Z) ->
  reachable L -> filtration_order (by_index L) -> descending_data (by_index L) -> Permutation (by_index K) (by_index L) ->
  exists ds es, calculatePersistenceDiagrams inf order a K dual true = Ok ds /\ calculatePersistenceDiagrams inf order' a' L dual' true = Ok es /\
    forall d, Permutation (points_of ds d) (points_of es d).
Proof.
  intros inf order order' a a' K L dual dual' Ho Ho' HR HC HF HA HI HRL HFL HAL HP. assert (HCL : closed (by_index L)) by (apply (closed_perm (by_index K)); assumption).
  assert (HIL : forall s, In s (by_index L) -> (data s < inf)%Z) by (intros s Hs; apply HI; apply (Permutation_in _ (Permutation_sym HP)); exact Hs).
  destruct (C178_superlevel inf order a K dual Ho HR HC HF HA HI) as (ds & E & H & _). destruct (C178_superlevel inf order' a' L dual' Ho' HRL HCL HFL HAL HIL) as (es & E' & H' & _). exists ds, es. split; [exact E|]. split; [exact E'|]. intro d.
  assert (A : forall s t, alive_above inf s t (points_of ds d) = alive_above inf s t (points_of es d)).
  { intros s t. pose proof (induced_perm _ _ _ _ d _ (above_perm s _ _ HP) (above_perm t _ _ HP) (H d s t)) as R1. pose proof (H' d s t) as R2. destruct (above_prefix s _ HAL) as [As _]. destruct (above_prefix t _ HAL) as [At _]. rewrite As, At in R1, R2.
    pose proof (kwf_nodup L (reachable_kwf L HRL)) as HN. destruct (matrix_link L HRL HCL HFL) as (M & EM & HV & HL & D & EE & O). assert (P : forall r k, entry (cols M) r k = true -> r < k). { intros r k Hr. destruct HV as (_ & _ & HV & _). apply (HV k r Hr). }
    assert (S : forall u, length (above u (by_index L)) <= length (map verts (by_index L))) by (clear; intro u; unfold above; rewrite map_length; induction (by_index L) as [|x l IH]; cbn; [lia|]; destruct (u <=? data x)%Z; cbn; lia).
    assert (Q : forall n, induced_rank (firstn (length (above s (by_index L))) (by_index L)) (firstn (length (above t (by_index L))) (by_index L)) d n -> persistent_betti (cols M) (dims M) (length (above s (by_index L))) (length (above t (by_index L))) d n).
    { intros n (z & b & Hz & Hb & Q). rewrite <- !firstn_map in *. exists z, b. split; [exact (proj1 (dim_cycles_prefix _ (cols M) (dims M) HN HL D EE O P _ d z (S s)) Hz)|]. split; [exact (proj1 (dim_both_prefix _ (cols M) (dims M) HN HL D EE O P _ _ d b (S s) (S t)) Hb)|exact Q]. }
    apply (C17_rank_unique (cols M) (dims M) (length (above s (by_index L))) (length (above t (by_index L))) d); apply Q; assumption. }
  apply (Permutation_count_occ point_dec). intros [x y]. rewrite !count_filter. destruct (Z.eq_dec y inf) as [->|Hy].
  - destruct (lower_bound (points_of ds d ++ points_of es d)) as (t & Ht). pose proof (multiplicity_unpaired inf x t (points_of ds d) (fun q Hq => Ht q (in_or_app _ _ _ (or_introl Hq)))) as M1.
    pose proof (multiplicity_unpaired inf x t (points_of es d) (fun q Hq => Ht q (in_or_app _ _ _ (or_intror Hq)))) as M2. rewrite !A in M1. lia.
  - pose proof (multiplicity_above inf x y (points_of ds d) Hy) as M1. pose proof (multiplicity_above inf x y (points_of es d) Hy) as M2. rewrite !A in M1. lia.
Qed.

(** ** A square that is filled by two triangles, with two orders of the same simplices *)
Definition square_order (b : bool) : complex :=
  mk [InsertRange ([([0], 0%Z); ([1], 0%Z); ([2], 0%Z); ([3], 0%Z)] ++
     (if b then [([0; 1], 1%Z); ([1; 2], 1%Z); ([2; 3], 1%Z); ([0; 3], 1%Z); ([0; 2], 2%Z); ([0; 1; 2], 2%Z); ([0; 2; 3], 3%Z)]
      else [([0; 3], 1%Z); ([2; 3], 1%Z); ([1; 2], 1%Z); ([0; 1], 1%Z); ([0; 2], 2%Z); ([0; 1; 2], 2%Z); ([0; 2; 3], 3%Z)]))].
Example C178_square : forall b, calculatePersistenceDiagrams 9 (fun l => l) AStandard (square_order b) true true =
  Ok [Diagram 0 [(0, 9); (0, 1); (0, 1); (0, 1)]; Diagram 1 [(1, 3); (2, 2)]]%Z.
Proof. intros [|]; vm_compute; reflexivity. Qed.
Example C178_square_betti : simplicial_betti (below 1 (by_index (square_order true))) 1 1 /\ simplicial_betti (below 3 (by_index (square_order true))) 1 0 /\
  induced_rank (below 1 (by_index (square_order true))) (below 2 (by_index (square_order true))) 1 1 /\ reachable (square_order false) /\ map verts (by_index (square_order false)) <> map verts (by_index (square_order true)).
Proof.
  assert (HR : reachable (square_order true)) by apply mk_reachable. assert (HC : closed (by_index (square_order true))) by (apply closed_check; [apply mk_reachable|vm_compute; reflexivity]).
  assert (HF : filtration_order (by_index (square_order true))) by (apply filtration_check; vm_compute; reflexivity).
  assert (HA : ascending_data (by_index (square_order true))).
  { intros i j s t Hij Hi Hj. vm_compute in Hi, Hj. do 11 (destruct i as [|i]; [injection Hi as <-; do 11 (destruct j as [|j]; [try lia; injection Hj as <-; vm_compute; discriminate|]); destruct j; discriminate|]). destruct i; discriminate. }
  destruct (C178_betti 9 (fun l => l) AStandard _ true (fun l => Permutation_refl l) HR HC HF HA) as (ds & E & H). destruct (C178_ranks 9 (fun l => l) AStandard _ true (fun l => Permutation_refl l) HR HC HF HA) as (ds' & E' & H').
  rewrite (C178_square true) in E, E'. injection E as <-. injection E' as <-. split; [apply (H 1 1%Z); lia|]. split; [apply (H 1 3%Z); lia|]. split; [apply (H' 1 1%Z 2%Z); lia|]. split; [apply mk_reachable|vm_compute; discriminate].
Qed.

(** a path whose middle vertex comes last, by descending data *)
Definition path_down : complex := mk [InsertRange [([0], 5%Z); ([2], 4%Z); ([1], 2%Z); ([0; 1], 2%Z); ([1; 2], 1%Z)]].
Example C178_path : exists ds, calculatePersistenceDiagrams 9 (fun l => l) ATwist path_down false true = Ok ds /\ points_of ds 0 = [(5, 9); (4, 1); (2, 2)]%Z /\
  alive_above 9 4 4 (points_of ds 0) = 2 /\ alive_above 9 4 1 (points_of ds 0) = 1 /\ descending_data (by_index path_down).
Proof.
  eexists. split; [vm_compute; reflexivity|]. split; [vm_compute; reflexivity|]. split; [vm_compute; reflexivity|]. split; [vm_compute; reflexivity|].
  intros i j s t Hij Hi Hj. vm_compute in Hi, Hj. do 5 (destruct i as [|i]; [injection Hi as <-; do 5 (destruct j as [|j]; [try lia; injection Hj as <-; vm_compute; discriminate|]); destruct j; discriminate|]). destruct i; discriminate.
Qed.

Print Assumptions C178_ranks.
Print Assumptions C178_betti.
Print Assumptions C178_order.
Print Assumptions C178_superlevel.
Print Assumptions C178_superlevel_order.
