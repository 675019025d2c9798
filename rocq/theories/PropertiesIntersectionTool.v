(** * C169: the tool for persistent intersection homology. *)
From Coq Require Import List Arith Bool ZArith Lia Permutation Sorted.
From Verif Require Import Base BaseFacts Simplex SimplexFacts SpecComplex Matrix Complex ComplexFacts History SubcomplexFacts Subcomplex FiltrationFacts PropertiesComplex
  SpecMatrix SpecHomology SpecDiagram Diagram DiagramFacts PropertiesDiagram PropertiesDiagramDims Perversity Intersections IntersectionHomology SpecAllowable AllowableFacts PropertiesIntersectionHomology
  UnionFind Quotient Barycentric SpecBarycentric PropertiesBarycentric PropertiesVietorisRips PropertiesDowker PropertiesComponents IntersectionTool.
Import ListNotations.
Local Open Scope nat_scope.

(** ** Specification *)
(** the value of a vertex is on the side of singular vertices *)
Definition singular (values : list Z) (threshold : Z) (invert : bool) (v : nat) : Prop :=
  exists x, nth_error values v = Some x /\ if invert then (threshold < x)%Z else (x < threshold)%Z.
Definition singular_edge (values : list Z) (threshold : Z) (invert : bool) (u v : nat) : Prop :=
  exists x y, nth_error values u = Some x /\ nth_error values v = Some y /\ if invert then (threshold < x \/ threshold < y)%Z else (x < threshold /\ y < threshold)%Z.
Definition vertex_stratum (values : list Z) (threshold : Z) (invert : bool) (L L0 : list simplex) : Prop :=
  forall s, In s L0 <-> In s L /\ exists v, verts s = [v] /\ singular values threshold invert v.
Definition edge_stratum (values : list Z) (threshold : Z) (invert : bool) (L L1 : list simplex) : Prop :=
  forall s, In s L1 <-> In s L /\ ((exists v, verts s = [v] /\ singular values threshold invert v) \/ exists u v, verts s = [u; v] /\ singular_edge values threshold invert u v).
Definition covers (values : list Z) (L : list simplex) : Prop := forall s v, In s L -> In v (verts s) -> v < length values.

Lemma beyond_spec threshold invert x : beyond threshold invert x = true <-> if invert then (threshold < x)%Z else (x < threshold)%Z.
Proof. unfold beyond. destruct invert; apply Z.ltb_lt. Qed.
Lemma filter_reachable K f : reachable K -> reachable (k_filter K f).
Proof.
  intro HR. pose proof (reachable_kwf K HR) as HK. unfold k_filter.
  assert (R : forall l K, reachable K -> (forall s, In s l -> good s) -> reachable (push_all K l)).
  { clear. induction l as [|s l IH]; intros K RK H; [exact RK|]. unfold push_all. cbn [fold_left]. fold (push_all (fst (k_push_back K s)) l). apply IH; [|intros; apply H; simpl; auto].
    apply push_reachable; [exact RK|]. apply H. simpl; auto. }
  apply R; [apply empty_reachable|]. intros s Hs. apply filter_In in Hs. apply (kwf_good K HK). apply Hs.
Qed.
Lemma filter_ok K f g : (forall s, In s (by_index K) -> f s = Ok (g s)) -> filter_throwing K f = Ok (k_filter K g).
Proof.
  intro H. unfold filter_throwing, k_filter, push_all.
  assert (G : forall l L, (forall s, In s l -> f s = Ok (g s)) -> foldM (fun L s => let* b := f s in Ok (if b then fst (k_push_back L s) else L)) l L = Ok (fold_left (fun L s => fst (k_push_back L s)) (filter g l) L)).
  { clear. induction l as [|s l IH]; intros L H; [reflexivity|]. cbn [foldM filter]. rewrite (H s (or_introl eq_refl)). cbn [bind]. rewrite IH by (intros; apply H; right; assumption). destruct (g s); reflexivity. }
  rewrite (G _ k_empty H). reflexivity.
Qed.

Definition vertex_test_pure (values : list Z) (threshold : Z) (invert : bool) (s : simplex) : bool :=
  match verts s with [v] => match nth_error values v with Some x => beyond threshold invert x | None => false end | _ => false end.
Definition edge_test_pure (values : list Z) (threshold : Z) (invert : bool) (s : simplex) : bool :=
  match verts s with
  | [v] => match nth_error values v with Some x => beyond threshold invert x | None => false end
  | [u; v] => match nth_error values u, nth_error values v with Some x, Some y => beyond threshold invert (Z.max x y) | _, _ => false end
  | _ => false
  end.
Lemma tests_ok values threshold invert s : good s -> (forall v, In v (verts s) -> v < length values) ->
  vertex_test values threshold invert s = Ok (vertex_test_pure values threshold invert s) /\ edge_test values threshold invert s = Ok (edge_test_pure values threshold invert s).
Proof.
  intros [_ N] H. unfold edge_test, vertex_test, vertex_test_pure, edge_test_pure, sdim, get_, at_. destruct (verts s) as [|u [|v [|w r]]]; [congruence| | |]; cbn [length Nat.sub Nat.eqb nth_error bind].
  - destruct (nth_error values u) as [x|] eqn:E; [split; reflexivity|]. apply nth_error_None in E. specialize (H u (or_introl eq_refl)). lia.
  - split; [reflexivity|]. destruct (nth_error values u) as [x|] eqn:E; [|apply nth_error_None in E; specialize (H u (or_introl eq_refl)); lia].
    destruct (nth_error values v) as [y|] eqn:E'; [reflexivity|]. apply nth_error_None in E'. specialize (H v (or_intror (or_introl eq_refl))). lia.
  - split; reflexivity.
Qed.

Theorem C169_strata : forall values threshold invert K d, reachable K -> k_dimension K = Ok d -> covers values (by_index K) ->
  exists K0 K1 X, value_strata values threshold invert K = Ok (X, K) /\ reachable K0 /\ reachable K1 /\
    vertex_stratum values threshold invert (by_index K) (by_index K0) /\ edge_stratum values threshold invert (by_index K) (by_index K1) /\
    (forall e, X e = if d =? 2 then [K0; K0; K] else [K0; K1; K1; K]) /\
    (closed (by_index K) -> closed (by_index K0) /\ (invert = false -> closed (by_index K1))).
Proof.
  intros values threshold invert K d HR Hd HC. pose proof (reachable_kwf K HR) as HK.
  exists (k_filter K (vertex_test_pure values threshold invert)), (k_filter K (edge_test_pure values threshold invert)). eexists. split.
  { unfold value_strata. rewrite (filter_ok K _ (vertex_test_pure values threshold invert)); [|intros s Hs; apply tests_ok; [apply (kwf_good K HK s Hs)|intros v Hv; apply (HC s v Hs Hv)]]. cbn [bind].
    rewrite (filter_ok K _ (edge_test_pure values threshold invert)); [|intros s Hs; apply tests_ok; [apply (kwf_good K HK s Hs)|intros v Hv; apply (HC s v Hs Hv)]]. cbn [bind]. rewrite Hd. reflexivity. }
  destruct (C42_filter K (vertex_test_pure values threshold invert) HR) as [F0 C0]. destruct (C42_filter K (edge_test_pure values threshold invert) HR) as [F1 C1].
  assert (S0 : forall s, vertex_test_pure values threshold invert s = true <-> exists v, verts s = [v] /\ singular values threshold invert v).
  { intro s. unfold vertex_test_pure, singular. split.
    - destruct (verts s) as [|v [|u r]]; try discriminate. destruct (nth_error values v) as [x|] eqn:E; [|discriminate]. rewrite beyond_spec. intro H. exists v. split; [reflexivity|]. exists x. auto.
    - intros (v & -> & x & -> & H). apply beyond_spec. exact H. }
  assert (S1 : forall s, edge_test_pure values threshold invert s = true <-> (exists v, verts s = [v] /\ singular values threshold invert v) \/ exists u v, verts s = [u; v] /\ singular_edge values threshold invert u v).
  { intro s. unfold edge_test_pure, singular, singular_edge. split.
    - destruct (verts s) as [|v [|u [|w r]]]; try discriminate.
      + destruct (nth_error values v) as [x|] eqn:E; [|discriminate]. rewrite beyond_spec. intro H. left. exists v. split; [reflexivity|]. exists x. auto.
      + destruct (nth_error values v) as [x|] eqn:E; [|discriminate]. destruct (nth_error values u) as [y|] eqn:E'; [|discriminate]. rewrite beyond_spec. intro H. right. exists v, u. split; [reflexivity|]. exists x, y. refine (conj E (conj E' _)). destruct invert; lia.
    - intros [(v & -> & x & -> & H)|(u & v & -> & x & y & -> & -> & H)]; apply beyond_spec; [exact H|destruct invert; lia]. }
  refine (conj (filter_reachable K _ HR) (conj (filter_reachable K _ HR) (conj _ (conj _ (conj (fun _ => eq_refl) _))))).
  - intro s. rewrite F0, filter_In, S0. tauto.
  - intro s. rewrite F1, filter_In, S1. tauto.
  - intro CK. split.
    + apply (C0 CK). intros s t Hs Ht Sub H. apply S0 in H. destruct H as (v & Ev & Hv). apply S0. exists v. split; [|exact Hv].
      destruct (kwf_good K HK t Ht) as [Wt Nt]. rewrite Ev in Sub. assert (ND : NoDup (verts t)) by (apply SSgt_NoDup; exact Wt). destruct (verts t) as [|a [|b r]]; [congruence|destruct (Sub a (or_introl eq_refl)) as [<-|[]]; reflexivity|].
      exfalso. destruct (Sub a (or_introl eq_refl)) as [<-|[]]. destruct (Sub b (or_intror (or_introl eq_refl))) as [<-|[]]. inversion ND as [|? ? N1 _]. apply N1. left. reflexivity.
    + intros ->. apply (C1 CK). intros s t Hs Ht Sub H. apply S1 in H. apply S1. destruct (kwf_good K HK t Ht) as [Wt Nt]. destruct (kwf_good K HK s Hs) as [Ws _]. assert (ND : NoDup (verts t)) by (apply SSgt_NoDup; exact Wt).
      destruct H as [(v & Ev & Hv)|(u & v & Ev & x & y & Hx & Hy & H1 & H2)]; rewrite Ev in Sub.
      * left. exists v. split; [|exact Hv]. destruct (verts t) as [|a [|b r]]; [congruence|destruct (Sub a (or_introl eq_refl)) as [<-|[]]; reflexivity|].
        exfalso. destruct (Sub a (or_introl eq_refl)) as [<-|[]]. destruct (Sub b (or_intror (or_introl eq_refl))) as [<-|[]]. inversion ND as [|? ? N1 _]. apply N1. left. reflexivity.
      * destruct (verts t) as [|a [|b [|c r]]] eqn:Et; [congruence| | |].
        -- left. exists a. split; [reflexivity|]. destruct (Sub a (or_introl eq_refl)) as [<-|[<-|[]]]; [exists x|exists y]; auto.
        -- right. exists a, b. split; [reflexivity|]. assert (Z : forall w, In w [u; v] -> exists z, nth_error values w = Some z /\ (z < threshold)%Z) by (intros w [<-|[<-|[]]]; [exists x|exists y]; auto).
           destruct (Z a (Sub a (or_introl eq_refl))) as (z & Z1 & Z2). destruct (Z b (Sub b (or_intror (or_introl eq_refl)))) as (z' & Z3 & Z4). exists z, z'. auto.
        -- exfalso. assert (3 <= 2); [|lia]. etransitivity; [|apply (NoDup_incl_length ND Sub)]. cbn. lia.
Qed.

(** A vertex without a value *)
Theorem C169_short : forall inf lowest highest sorder order a values threshold invert K s, reachable K -> values <> [] ->
  In s (by_index K) -> length (verts s) = 1 -> (exists v, In v (verts s) /\ length values <= v) ->
  intersection_tool inf lowest highest sorder order a values threshold invert K = Throw Terminated.
Proof.
  intros inf lowest highest sorder order a values threshold invert K s HR Hn Hs Hl (v & Hv & Lv).
  assert (E : filter_throwing K (vertex_test values threshold invert) = Throw Terminated).
  { unfold filter_throwing. assert (G : forall l L, In s l -> (forall t, In t l -> good t) -> exists e, foldM (fun L s => let* b := vertex_test values threshold invert s in Ok (if b then fst (k_push_back L s) else L)) l L = Throw e).
    { induction l as [|t l IH]; intros L Hin Hg; [destruct Hin|]. cbn [foldM]. destruct Hin as [->|Hin].
      - unfold vertex_test, sdim. destruct (verts s) as [|w [|? ?]]; try discriminate. destruct Hv as [->|[]]. cbn [length Nat.sub Nat.eqb get_ nth_error bind]. unfold at_. rewrite (proj2 (nth_error_None _ _) Lv). cbn [bind]. eexists. reflexivity.
      - assert (X : (exists b, vertex_test values threshold invert t = Ok b) \/ exists e, vertex_test values threshold invert t = Throw e).
        { unfold vertex_test, sdim, get_, at_. destruct (Hg t (or_introl eq_refl)) as [_ Nt]. destruct (verts t) as [|w [|? ?]]; [congruence| |]; cbn [length Nat.sub Nat.eqb nth_error bind]; [|left; eexists; reflexivity]. destruct (nth_error values w); cbn [bind]; [left|right]; eexists; reflexivity. }
        destruct X as [(b & ->)|(e & ->)]; cbn [bind]; [apply IH; [exact Hin|intros; apply Hg; right; assumption]|eexists; reflexivity]. }
    destruct (G (by_index K) k_empty Hs) as (e & ->); [intros t Ht; apply (kwf_good K (reachable_kwf K HR) t Ht)|]. reflexivity. }
  unfold intersection_tool, tool_diagrams, strata. destruct values as [|x values]; [congruence|]. unfold value_strata. rewrite E. reflexivity.
Qed.

(** No singular vertex at all *)
Theorem C169_no_singular : forall inf lowest highest sorder order a values threshold invert K, (forall l, Permutation (order l) l) ->
  reachable K -> closed (by_index K) -> filtration_order (by_index K) -> values <> [] -> covers values (by_index K) ->
  (forall s v, In s (by_index K) -> verts s = [v] -> ~ singular values threshold invert v) ->
  intersection_tool inf lowest highest sorder order a values threshold invert K = Throw RuntimeError.
Proof.
  intros inf lowest highest sorder order a values threshold invert K Ho HR HC HF Hn Hc Hs. pose proof (reachable_kwf K HR) as HK.
  unfold intersection_tool, tool_diagrams, strata. destruct values as [|x0 values']; [congruence|]. set (values := x0 :: values') in *. clearbody values.
  destruct (dimension_spec K HK) as [D1 D2]. destruct (by_index K) as [|s0 l0] eqn:EK.
  { unfold value_strata. rewrite (filter_ok K _ (fun _ => true)) by (intros s Hin; rewrite EK in Hin; destruct Hin). cbn [bind]. rewrite (filter_ok K _ (fun _ => true)) by (intros s Hin; rewrite EK in Hin; destruct Hin). cbn [bind]. rewrite D1 by reflexivity. reflexivity. }
  rewrite <- EK in *. destruct D2 as (d & Ed & _); [rewrite EK; discriminate|].
  destruct (C169_strata values threshold invert K d HR Ed Hc) as (K0 & K1 & X & E & R0 & R1 & V0 & V1 & HX & _). rewrite E. cbn [bind].
  destruct (pipeline inf K false HR HC HF) as (M & p & p1 & ds & _ & _ & _ & _ & _ & _ & _ & _ & P). rewrite (P order a true Ho). cbn [bind]. rewrite Ed. cbn [bind]. rewrite HX.
  rewrite C79_rejected; [reflexivity|exact HR| |].
  - intros x Hx. destruct (d =? 2); cbn [In] in Hx; intuition; subst; assumption.
  - right. right. right. left. exists K0. split; [destruct (d =? 2); left; reflexivity|]. destruct (by_index K0) as [|s l] eqn:E0; [reflexivity|]. exfalso. destruct (proj1 (V0 s)) as (Hin & v & Ev & Hv); [left; reflexivity|]. apply (Hs s v Hin Ev Hv).
Qed.

(** Without values, the complex has to have dimension two *)
Theorem C169_dimension : forall inf lowest highest sorder order a threshold invert K, (forall l, Permutation (order l) l) -> (forall m, Permutation (sorder m) m) ->
  reachable K -> closed (by_index K) -> filtration_order (by_index K) -> k_dimension K <> Ok 2 ->
  intersection_tool inf lowest highest sorder order a [] threshold invert K = Throw RuntimeError.
Proof.
  intros inf lowest highest sorder order a threshold invert K Ho Hso HR HC HF Hd. pose proof (reachable_kwf K HR) as HK.
  unfold intersection_tool, tool_diagrams, strata, skeleton_strata.
  destruct (pipeline inf K false HR HC HF) as (M & p & p1 & ds & _ & _ & _ & _ & _ & _ & _ & _ & P).
  destruct (dimension_spec K HK) as [D1 D2]. destruct (by_index K) as [|s0 l0] eqn:EK.
  { assert (EV : k_vertices K = []). { destruct (vertices_spec K HK) as [_ VI]. destruct (k_vertices K) as [|v r]; [reflexivity|]. exfalso. destruct (proj1 (VI v)) as (s & Hs & _); [simpl; auto|]. rewrite EK in Hs. destruct Hs. }
    unfold subdivide. rewrite EV. cbn [last_opt bind]. rewrite (P order a true Ho). cbn [bind]. rewrite D1 by reflexivity. reflexivity. }
  rewrite <- EK in *. destruct D2 as (d & Ed & _); [rewrite EK; discriminate|].
  destruct (C73_subdivision sorder (fun d => if d =? 0 then 0%Z else 1%Z) K Hso HR HC) as (L & b & N & EL & RL & _); [rewrite EK; discriminate|]. rewrite EL. cbn [bind]. rewrite (P order a true Ho). cbn [bind]. rewrite Ed. cbn [bind].
  assert (Nd : (d =? 2) = false) by (apply Nat.eqb_neq; intros ->; congruence). rewrite Nd. set (L' := k_sort data_cmp (recalculateWeights lowest highest true true L)).
  assert (WL : kwf L') by (apply sort_kwf, recalc_kwf, reachable_kwf, RL).
  unfold calculateIntersectionHomology. destruct (check_gm_cases true [skeleton 0 K; skeleton 0 K; K; k_empty]) as [Q|Q]; rewrite Q; cbn [bind]; [|reflexivity].
  assert (CF : check_filtration L' [skeleton 0 K; skeleton 0 K; K; k_empty] = Throw RuntimeError); [|rewrite CF; reflexivity].
  unfold check_filtration. destruct (dimension_spec L' WL) as [F1 F2]. destruct (by_index L') as [|s1 l1] eqn:E1; [rewrite F1 by reflexivity; reflexivity|]. destruct F2 as (e & Ee & _); [discriminate|]. rewrite Ee. cbn [bind].
  unfold k_isempty. rewrite E1. cbn [foldM]. assert (S0 : exists e0, k_dimension (skeleton 0 K) = Ok e0 \/ k_dimension (skeleton 0 K) = Throw RuntimeError).
  { assert (WS : kwf (skeleton 0 K)) by (apply reachable_kwf; apply (filter_reachable K (fun s => sdim s <=? 0) HR)). destruct (dimension_spec (skeleton 0 K) WS) as [G1 G2]. destruct (by_index (skeleton 0 K)); [exists 0; right; apply G1; reflexivity|]. destruct G2 as (e0 & E0 & _); [discriminate|]. exists e0. left. exact E0. }
  destruct S0 as (e0 & [->| ->]); cbn [bind]; [|reflexivity]. rewrite Ed. cbn [bind]. reflexivity.
Qed.

(** ** Results *)
Lemma gm_zero k : 2 <= k -> gm_at [0] k = Ok 0%Z.
Proof. intro H. unfold gm_at, perversityGM_at. cbn [perversityGM gm_from length Nat.add]. destruct (Nat.ltb_spec k 3) as [L|L]; [|reflexivity]. assert (k = 2) by lia. subst k. reflexivity. Qed.

(** the files for given diagrams *)
Lemma tool_files_two D1 D2 : length D1 = 2 ->
  tool_files D1 D2 = match D1, D2 with
                     | [x0; x1], [] => UB
                     | [x0; x1], [y0] => Ok [(0, (removeDiagonal x0, removeDiagonal y0))]
                     | [x0; x1], y0 :: y1 :: _ => Ok [(0, (removeDiagonal x0, removeDiagonal y0)); (1, (removeDiagonal x1, removeDiagonal y1))]
                     | _, _ => UB
                     end.
Proof.
  intro H. destruct D1 as [|x0 [|x1 [|? ?]]]; try discriminate. destruct D2 as [|y0 [|y1 D2]]; try reflexivity.
Qed.

(** Singularity values: a simplex is allowed if it is a triangle or contains no singular vertex, and the diagrams count
    the ranks of persistent intersection homology *)
Theorem C169_values : forall inf lowest highest sorder values threshold invert K,
  reachable K -> closed (by_index K) -> filtration_order (by_index K) -> ascending_data (by_index K) -> k_dimension K = Ok 2 -> values <> [] -> covers values (by_index K) ->
  (exists s v, In s (by_index K) /\ verts s = [v] /\ singular values threshold invert v) ->
  exists f l F D1 D2,
    (forall t, In t (by_index K) -> (f t = true <-> length (verts t) = 3 \/ forall v, In v (verts t) -> ~ singular values threshold invert v)) /\
    l = filter f (by_index K) ++ filter (fun t => negb (f t)) (by_index K) /\ length F = length l /\
    (forall r j, entry F r j = true <-> exists a b, nth_error l j = Some a /\ nth_error l r = Some b /\ subset (verts b) (verts a) /\ length (verts a) = S (length (verts b))) /\
    (forall x y e, (y < inf)%Z ->
       intersection_betti F (map (fun t => length (verts t) - 1) l) (length (filter f (by_index K)))
         (length (filter (fun t => data t <=? x)%Z (filter f (by_index K)))) (length (filter (fun t => data t <=? y)%Z (filter f (by_index K)))) e
         (length (filter (fun q => (fst q <=? x)%Z && (y <? snd q)%Z) (points_of D2 e)))) /\
    map dgm_dim D1 = [0; 1] /\
    forall order a, (forall l, Permutation (order l) l) ->
      calculatePersistenceDiagrams inf order a K true false = Ok D1 /\
      tool_diagrams inf lowest highest sorder order a values threshold invert K = Ok (D1, D2) /\
      intersection_tool inf lowest highest sorder order a values threshold invert K =
        match D1, D2 with
        | [x0; x1], [y0] => Ok [(0, (removeDiagonal x0, removeDiagonal y0))]
        | [x0; x1], y0 :: y1 :: _ => Ok [(0, (removeDiagonal x0, removeDiagonal y0)); (1, (removeDiagonal x1, removeDiagonal y1))]
        | _, _ => UB
        end.
Proof.
  intros inf lowest highest sorder values threshold invert K HR HC HF HA Hd Hn Hc Hs. pose proof (reachable_kwf K HR) as HK.
  destruct (C169_strata values threshold invert K 2 HR Hd Hc) as (K0 & K1 & X & E & R0 & _ & V0 & _ & HX & _). cbn [Nat.eqb] in HX.
  assert (D0 : k_dimension K0 = Ok 0).
  { destruct (dimension_spec K0 (reachable_kwf K0 R0)) as [_ G]. destruct Hs as (s & v & H1 & H2 & H3). assert (I : In s (by_index K0)) by (apply V0; split; [exact H1|exists v; auto]).
    destruct G as (e & Ee & (t & Ht & Lt) & _); [intro Y; rewrite Y in I; destruct I|]. apply V0 in Ht. destruct Ht as (_ & w & Ew & _). rewrite Ew in Lt. cbn in Lt. rewrite Ee. f_equal. lia. }
  destruct (C79_ranks inf true (gm_at [0]) (fun _ => 0%Z) K [K0; K0; K] 2 HR HC HF) as (f & l & F & D2 & Hf & Hl & LF & EF & H2 & B2).
  - intros x [<-|[<-|[<-|[]]]]; assumption.
  - intros k Hk. apply gm_zero. exact Hk.
  - intros _. exists [], K0, K0, K. auto.
  - exact Hd.
  - intros x [<-|[<-|[<-|[]]]]; [exists 0|exists 0|exists 2]; split; auto.
  - exists K. split; [cbn; auto|exact Hd].
  - cbn. lia.
  - destruct (C159_dimensions inf (fun l => l) ATwist K true false (fun l => Permutation_refl _) HR HC HF) as (M & D1 & _ & E1 & Dm & _ & _ & Len).
    destruct (dimension_spec K HK) as [_ G]. destruct G as (d & Ed & Top & All). { destruct Hs as (s & v & H1 & _). intro Y. rewrite Y in H1. destruct H1. }
    rewrite Hd in Ed. injection Ed as <-. specialize (Len 2 Top All). cbn in Len.
    destruct (pipeline inf K false HR HC HF) as (_ & _ & _ & D1' & _ & _ & _ & _ & _ & _ & _ & _ & P). rewrite (P (fun l => l) ATwist true (fun l => Permutation_refl _)) in E1. injection E1 as ->.
    exists f, l, F, D1, D2. refine (conj _ (conj Hl (conj LF (conj EF (conj (B2 HA) (conj _ _)))))).
    + intros t Ht. rewrite (Hf t Ht). unfold allowable. split.
      * intro A. destruct (kwf_good K HK t Ht) as [Wt Nt]. destruct (Nat.eq_dec (length (verts t)) 3) as [L3|L3]; [left; exact L3|]. right. intros v Hv Sv.
        destruct (HC t [v] Ht) as (u & Hu & Eu); [discriminate|intros w [<-|[]]; exact Hv|].
        assert (Ev : verts u = [v]). { change [v] with (verts (Simplex [v] 0)). apply wf_ext; [apply (kwf_good K HK u Hu)|repeat constructor|exact Eu]. }
        specialize (A 2 (le_n _) (le_n _) u). cbn [Nat.sub nth] in A. rewrite Ev in A. specialize (All t Ht).
        assert (I : In u (by_index K0)) by (apply V0; split; [exact Hu|exists v; auto]). specialize (A I ltac:(intros w [<-|[]]; exact Hv)). cbn [length] in A. lia.
      * intros [L3|N] k Hk1 Hk2 u Hu Sub; assert (k = 2) by lia; subst k; cbn [Nat.sub nth] in Hu; apply V0 in Hu; destruct Hu as (_ & v & Ev & Sv); rewrite Ev in *.
        -- rewrite L3. cbn [length]. lia.
        -- exfalso. apply (N v); [apply Sub; left; reflexivity|exact Sv].
    + rewrite Dm, Len. reflexivity.
    + intros order a Ho. assert (TD : tool_diagrams inf lowest highest sorder order a values threshold invert K = Ok (D1, D2)).
      { unfold tool_diagrams, strata. destruct values as [|x0 values']; [congruence|]. rewrite E. cbn [bind]. rewrite (P order a true Ho). cbn [bind]. rewrite Hd. cbn [bind]. rewrite HX. cbn [Nat.eqb]. rewrite (H2 order a true Ho). reflexivity. }
      refine (conj (P order a true Ho) (conj TD _)). unfold intersection_tool. rewrite TD. cbn [bind]. rewrite (tool_files_two D1 D2 Len). destruct D1 as [|x0 [|x1 [|? ?]]]; try discriminate. destruct D2 as [|y0 [|y1 D2]]; reflexivity.
Qed.

(** ** Without values *)
Definition ran (lowest highest : Z) (K : complex) : Prop := exists h, K = k_run lowest highest h.
Lemma insert_ran lowest highest K l L : ran lowest highest K -> (forall s, In s l -> wf s) -> insert_into K l = Ok L -> ran lowest highest L.
Proof.
  intros [h ->] W E. exists (h ++ [InsertRange (map (fun s => (verts s, data s)) l)]). unfold k_run. rewrite fold_left_app. cbn [fold_left k_exec]. rewrite map_map. cbn [fst snd].
  assert (El : map (fun s => simplex_of (verts s) (data s)) l = l).
  { clear E. induction l as [|s l IH]; [reflexivity|]. cbn [map]. rewrite IH by (intros; apply W; right; assumption). f_equal. pose proof (simplex_of_id s (data s) (W s (or_introl eq_refl))) as X. destruct s as [vs d]. unfold simplex_of in *. cbn [verts data] in *. rewrite X. reflexivity. }
  rewrite El. unfold insert_into in E. fold (k_run lowest highest h). destruct (k_insert (k_run lowest highest h) l) as [L' [u| | |]]; try discriminate. injection E as <-. reflexivity.
Qed.
Lemma sub_set_wf m s c : (forall p t, In p m -> In t (snd p) -> wf t) -> (forall t, In t c -> wf t) -> forall p t, In p (sub_set m s c) -> In t (snd p) -> wf t.
Proof.
  intros H Hc. induction m as [|[k d] m IH]; cbn [sub_set].
  - intros p t [<-|[]] Ht. apply Hc, Ht.
  - destruct (s_eqb k s).
    + intros p t [<-|Hp] Ht; [apply Hc, Ht|apply (H p t (or_intror Hp) Ht)].
    + intros p t [<-|Hp] Ht; [apply (H (k, d) t (or_introl eq_refl) Ht)|]. apply (IH (fun p t Hp => H p t (or_intror Hp)) p t Hp Ht).
Qed.
Lemma subdivide_ran lowest highest sorder functor K L : (forall m, Permutation (sorder m) m) -> reachable K -> subdivide sorder functor K = Ok L -> ran lowest highest L.
Proof.
  intros Ho HR E. pose proof (reachable_kwf K HR) as HK. unfold subdivide in E. destruct (last_opt (k_vertices K)) as [v|]; [|injection E as <-; exists []; reflexivity].
  apply bind_ok in E. destruct E as ([[b m] L0] & E1 & E2).
  assert (I : ran lowest highest L0 /\ forall p t, In p m -> In t (snd p) -> wf t).
  { assert (G : forall l b0 m0 K0 b m L0, (forall s, In s l -> wf s) -> ran lowest highest K0 -> (forall p t, In p m0 -> In t (snd p) -> wf t) -> foldM (subdivide_step functor K) l (b0, m0, K0) = Ok (b, m, L0) ->
      ran lowest highest L0 /\ forall p t, In p m -> In t (snd p) -> wf t).
    { clear. induction l as [|s l IH]; intros b0 m0 K0 b m L0 Hw HR Hm E; cbn [foldM] in E; [injection E as <- <- <-; auto|]. apply bind_ok in E. destruct E as ([[b1 m1] K1] & E1 & E2).
      apply (IH b1 m1 K1 b m L0 (fun t Ht => Hw t (or_intror Ht))); [| |exact E2]; clear IH E2; unfold subdivide_step in E1; (destruct (sdim s =? 0); [injection E1 as <- <- <-|]).
      - exact HR.
      - apply bind_ok in E1. destruct E1 as (K2 & F1 & E1). apply bind_ok in E1. destruct E1 as (sb & F2 & E1). apply bind_ok in E1. destruct E1 as (bs & F3 & E1). apply bind_ok in E1. destruct E1 as (K3 & F4 & E1). injection E1 as <- <- <-.
        apply (insert_ran lowest highest K2 _ K3) in F4; [exact F4| |intros t Ht; apply in_map_iff in Ht; destruct Ht as (u & <- & _); apply simplex_of_wf].
        apply (insert_ran lowest highest K0 _ K2) in F1; [exact F1|exact HR|intros t [<-|[]]; repeat constructor].
      - apply sub_set_wf; [exact Hm|]. intros t [<-|[]]. apply Hw. left. reflexivity.
      - apply bind_ok in E1. destruct E1 as (K2 & F1 & E1). apply bind_ok in E1. destruct E1 as (sb & F2 & E1). apply bind_ok in E1. destruct E1 as (bs & F3 & E1). apply bind_ok in E1. destruct E1 as (K3 & F4 & E1). injection E1 as <- <- <-.
        apply sub_set_wf; [exact Hm|]. intros t Ht. apply in_map_iff in Ht. destruct Ht as (u & <- & _). apply simplex_of_wf. }
    apply (G (by_dim K) (v + 1) [] k_empty b m L0); [|exists []; reflexivity|intros p t []|exact E1]. intros s Hs. apply (kwf_good K HK). apply WeightFacts.in_dim; auto. }
  destruct I as [I1 I2]. assert (I3 : forall p t, In p (sorder m) -> In t (snd p) -> wf t) by (intros p t Hp; apply I2; apply (Permutation_in _ (Ho m) Hp)).
  clear E1 I2. revert L0 I1 E2 I3. generalize (sorder m). intro sl. induction sl as [|p sl IH]; intros L0 I1 E2 I3; cbn [foldM] in E2; [injection E2 as <-; exact I1|]. apply bind_ok in E2. destruct E2 as (L1 & F1 & F2).
  apply (IH L1); [|exact F2|intros q t Hq; apply I3; right; exact Hq]. apply (insert_ran lowest highest L0 (snd p) L1 I1); [|exact F1]. intros t. apply I3. left. reflexivity.
Qed.

Theorem C169_canonical : forall inf lowest highest sorder threshold invert K, (forall m, Permutation (sorder m) m) ->
  reachable K -> closed (by_index K) -> filtration_order (by_index K) -> k_dimension K = Ok 2 ->
  (forall s, In s (by_index K) -> (0 <= data s)%Z /\ (length (verts s) = 1 -> data s = 0%Z)) ->
  (lowest <= 0)%Z -> (forall s, In s (by_index K) -> (data s <= highest)%Z) ->
  exists L f l F D1 D2,
    (* the subdivision *)
    (exists L0, subdivide sorder (fun d => if d =? 0 then 0%Z else 1%Z) K = Ok L0 /\ forall vs, has (by_index L) vs <-> has (by_index L0) vs) /\
    reachable L /\ closed (by_index L) /\ filtration_order (by_index L) /\ ascending_data (by_index L) /\
    (* original vertices are singular *)
    (forall t, In t (by_index L) -> (f t = true <-> length (verts t) = 3 \/ forall v, In v (verts t) -> ~ has (by_index K) [v])) /\
    l = filter f (by_index L) ++ filter (fun t => negb (f t)) (by_index L) /\ length F = length l /\
    (forall r j, entry F r j = true <-> exists a b, nth_error l j = Some a /\ nth_error l r = Some b /\ subset (verts b) (verts a) /\ length (verts a) = S (length (verts b))) /\
    (forall x y e, (y < inf)%Z ->
       intersection_betti F (map (fun t => length (verts t) - 1) l) (length (filter f (by_index L)))
         (length (filter (fun t => data t <=? x)%Z (filter f (by_index L)))) (length (filter (fun t => data t <=? y)%Z (filter f (by_index L)))) e
         (length (filter (fun q => (fst q <=? x)%Z && (y <? snd q)%Z) (points_of D2 e)))) /\
    map dgm_dim D1 = [0; 1] /\
    forall order a, (forall l, Permutation (order l) l) ->
      calculatePersistenceDiagrams inf order a K true false = Ok D1 /\
      tool_diagrams inf lowest highest sorder order a [] threshold invert K = Ok (D1, D2) /\
      intersection_tool inf lowest highest sorder order a [] threshold invert K =
        match D1, D2 with
        | [x0; x1], [y0] => Ok [(0, (removeDiagonal x0, removeDiagonal y0))]
        | [x0; x1], y0 :: y1 :: _ => Ok [(0, (removeDiagonal x0, removeDiagonal y0)); (1, (removeDiagonal x1, removeDiagonal y1))]
        | _, _ => UB
        end.
Proof.
  intros inf lowest highest sorder threshold invert K Hso HR HC HF Hd Hdata Hlo Hhi. pose proof (reachable_kwf K HR) as HK.
  destruct (dimension_spec K HK) as [Dn G]. assert (NE : by_index K <> []) by (intro Y; rewrite (Dn Y) in Hd; discriminate). destruct (G NE) as (d & Ed & Top & All). rewrite Hd in Ed. injection Ed as <-. clear Dn G.
  set (fn := fun d : nat => if d =? 0 then 0%Z else 1%Z).
  destruct (C73_subdivision sorder fn K Hso HR HC NE) as (L0 & b & N & EL & RL0 & B1 & _ & B2 & BI & S1 & S2).
  destruct (C73_closed sorder fn K L0 Hso HR HC EL) as [CL0 _]. pose proof (reachable_kwf L0 RL0) as W0.
  assert (CW : forall F, chain (by_index K) F -> (0 <= chain_weight fn F)%Z /\ (chain_weight fn F <= highest)%Z /\ (length F = 1 -> chain_weight fn F = 0%Z)).
  { intros F (N1 & N2 & _). assert (H0 : (0 <= highest)%Z) by (destruct (by_index K) as [|s l]; [congruence|]; pose proof (Hhi s (or_introl eq_refl)); pose proof (proj1 (Hdata s (or_introl eq_refl))); lia).
    destruct F as [|s [|t F]]; [congruence| |]; cbn [chain_weight length]; pose proof (Hdata s (N2 s (or_introl eq_refl))) as [P1 P2]; pose proof (Hhi s (N2 s (or_introl eq_refl))) as P3.
    - destruct (Nat.eqb_spec (length (verts s)) 1) as [X|X]; [rewrite (P2 X); lia|]. unfold fn. cbn [Nat.eqb]. lia.
    - unfold fn. cbn [Nat.eqb]. rewrite Z.mul_1_r. refine (conj P1 (conj P3 _)). discriminate. }
  assert (Wt : forall x, In x (by_index L0) -> (0 <= data x <= highest)%Z /\ (length (verts x) = 1 -> data x = 0%Z)).
  { intros x Hx. destruct (S1 x Hx) as (F & C & V & D). destruct (CW F C) as (C1 & C2 & C3). rewrite D. split; [lia|]. rewrite V, map_length. exact C3. }
  set (R := recalculateWeights lowest highest true true L0). assert (RR : reachable R).
  { destruct (subdivide_ran lowest highest sorder fn K L0 Hso HR EL) as [h Eh]. exists lowest, highest, (h ++ [RecalculateWeights true true]). unfold k_run. rewrite fold_left_app. cbn [fold_left k_exec fst]. fold (k_run lowest highest h). rewrite <- Eh. reflexivity. }
  destruct (C07_skip_one_dimensional lowest highest L0 RL0 CL0) as [RV RW]; [intros s Hs; pose proof (Wt s Hs); lia|]. fold R in RV, RW. pose proof (reachable_kwf R RR) as WR.
  assert (Rdata : forall s, In s (by_index R) -> exists s0, In s0 (by_index L0) /\ verts s0 = verts s /\ (length (verts s0) <= 2 -> data s = data s0) /\ (2 <= length (verts s0) -> is_max_of_faces (by_index L0) 1 s0 (data s))).
  { intros s Hs. apply In_nth_error in Hs. destruct Hs as [i Hi]. assert (X : nth_error (map verts (by_index R)) i = Some (verts s)) by (rewrite nth_error_map, Hi; reflexivity). rewrite RV, nth_error_map in X.
    destruct (nth_error (by_index L0) i) as [s0|] eqn:E0; [|discriminate]. injection X as X. exists s0. split; [eapply nth_error_In; exact E0|]. split; [exact X|]. apply (RW i s0 s E0 Hi). }
  assert (MR : monotone (by_index R)).
  { intros s t Hs Ht Sub. destruct (Rdata s Hs) as (s0 & I0 & V0 & A0 & M0). destruct (Rdata t Ht) as (t0 & I1 & V1 & A1 & M1). destruct (kwf_good L0 W0 t0 I1) as [Wt0 Nt0]. destruct (kwf_good L0 W0 s0 I0) as [Ws0 Ns0].
    rewrite <- V0, <- V1 in Sub. assert (Ls : length (verts t0) <= length (verts s0)) by (apply NoDup_incl_length; [apply SSgt_NoDup; exact Wt0|exact Sub]). assert (1 <= length (verts t0)) by (destruct (verts t0); [congruence|cbn; lia]).
    destruct (Nat.eq_dec (length (verts t0)) 1) as [T1|T1].
    - rewrite (A1 ltac:(lia)), (proj2 (Wt t0 I1) T1). destruct (Nat.eq_dec (length (verts s0)) 1) as [Z1|Z1]; [rewrite (A0 ltac:(lia)); apply (Wt s0 I0)|]. destruct (M0 ltac:(lia)) as [(e & He & _ & _ & <-) _]. apply (Wt e He).
    - destruct (M1 ltac:(lia)) as [(e & He & Se & Le & <-) _]. destruct (M0 ltac:(lia)) as [_ M]. apply M; auto. intros w Hw. apply Sub, Se, Hw. }
  set (L := k_sort data_cmp R). assert (RL : reachable L) by (apply sort_reachable; exact RR). pose proof (reachable_kwf L RL) as WL.
  assert (P : Permutation (by_index L) (by_index R)) by apply cpp_sort_perm.
  assert (HL : forall vs, has (by_index L) vs <-> has (by_index L0) vs) by (intro vs; rewrite (has_perm _ _ vs P); apply (has_verts_eq _ _ vs RV)).
  assert (InL : forall s, In s (by_index L) -> exists F, chain (by_index K) F /\ verts s = map b F).
  { intros s Hs. apply (Permutation_in _ P) in Hs. destruct (Rdata s Hs) as (s0 & I0 & V0 & _). destruct (S1 s0 I0) as (F & C & V & _). exists F. rewrite <- V0. auto. }
  assert (CL : closed (by_index L)).
  { intros s vs Hs Nv Sub. apply HL. apply (Permutation_in _ P) in Hs. destruct (Rdata s Hs) as (s0 & I0 & V0 & _). apply (CL0 s0 vs I0 Nv). rewrite V0. exact Sub. }
  destruct (sorted_filtration R WL) as [FL AL]; [intros s t Hs Ht; apply MR; apply (Permutation_in _ P); assumption|].
  assert (CLen : forall F, chain (by_index K) F -> length F <= 3).
  { intros F (_ & C2 & C3). assert (X : forall F m, (forall s, In s F -> In s (by_index K) /\ length (verts s) <= m) -> StronglySorted (fun s t => proper_face t s) F -> length F <= m).
    { clear -HK. induction F as [|s F IH]; intros m H SS; [cbn; lia|]. inversion SS as [|? ? SS' Fa]; subst. destruct (H s (or_introl eq_refl)) as [Is Lm]. destruct (kwf_good K HK s Is) as [Ws Ns].
      destruct m as [|m]; [destruct (verts s); [congruence|cbn in Lm; lia]|]. cbn [length]. apply le_n_S. apply IH; [|exact SS']. intros t Ht. destruct (H t (or_intror Ht)) as [It _]. split; [exact It|]. rewrite Forall_forall in Fa. destruct (Fa t Ht) as [Sub NS].
      destruct (kwf_good K HK t It) as [Wt _]. destruct (Nat.le_gt_cases (length (verts t)) m) as [Y|Y]; [exact Y|]. exfalso. apply NS. apply NoDup_length_incl; [apply SSgt_NoDup; exact Wt|lia|exact Sub]. }
    apply (X F 3); [|exact C3]. intros s Hs. split; [apply C2, Hs|apply All, C2, Hs]. }
  assert (LDim : k_dimension L = Ok 2).
  { destruct Top as (s & Hs & Ls). destruct (kwf_good K HK s Hs) as [Ws _]. assert (NDs := SSgt_NoDup _ Ws). destruct (verts s) as [|v2 [|v1 [|v0 [|? ?]]]] eqn:Ev; try discriminate.
    destruct (HC s [v2; v1] Hs) as (e & He & Ee); [discriminate|intros w Hw; rewrite Ev; cbn in *; tauto|]. destruct (HC s [v2] Hs) as (p & Hp & Ep); [discriminate|intros w Hw; rewrite Ev; cbn in *; tauto|].
    assert (Ch : chain (by_index K) [s; e; p]).
    { assert (Q1 : proper_face e s). { split; [intros w Hw; apply Ee in Hw; rewrite Ev; cbn in *; tauto|]. intro Q. assert (Y : In v0 [v2; v1]) by (apply Ee, Q; rewrite Ev; cbn; auto). inversion NDs as [|? ? Na Nb]; subst. inversion Nb as [|? ? Nc Ne]; subst. cbn in *. intuition congruence. }
      assert (Q2 : proper_face p e). { split; [intros w Hw; apply Ep in Hw; apply Ee; cbn in *; tauto|]. intro Q. assert (Y : In v1 [v2]) by (apply Ep, Q, Ee; cbn; auto). inversion NDs as [|? ? Na Nb]; subst. cbn in *. intuition congruence. }
      assert (Q3 : proper_face p s). { split; [intros w Hw; apply (proj1 Q1), (proj1 Q2), Hw|]. intro Q. apply (proj2 Q2). intros w Hw. apply Q, (proj1 Q1), Hw. }
      split; [discriminate|]. split; [intros w [<-|[<-|[<-|[]]]]; assumption|]. repeat first [exact Q1|exact Q2|exact Q3|apply SSorted_nil|apply SSorted_cons|apply Forall_nil|apply Forall_cons]. }
    destruct (S2 _ Ch) as (x & Hx & Vx). destruct (proj2 (HL (verts x))) as (y & Hy & Ey); [exists x; split; [exact Hx|intro w; tauto]|].
    assert (Ly : length (verts y) = 3). { assert (verts y = verts x) as ->; [|rewrite Vx; reflexivity]. apply wf_ext; [apply (kwf_good L WL y Hy)|apply (kwf_good L0 W0 x Hx)|exact Ey]. }
    destruct (dimension_spec L WL) as [_ G]. destruct G as (d & Ed & (z & Hz & Lz) & Az); [intro Y; rewrite Y in Hy; destruct Hy|]. rewrite Ed. f_equal. specialize (Az y Hy). destruct (InL z Hz) as (F & C & V). rewrite V, map_length in Lz. pose proof (CLen F C). lia. }
  set (K0 := skeleton 0 K). assert (R0 : reachable K0) by (apply (filter_reachable K (fun s => sdim s <=? 0) HR)). destruct (C42_skeleton 0 K HR) as [I0 _]. fold K0 in I0.
  assert (V0 : forall s, In s (by_index K0) <-> In s (by_index K) /\ exists v, verts s = [v]).
  { intro s. rewrite I0, filter_In, Nat.leb_le. split; intros [H1 H2]; (split; [exact H1|]).
    - destruct (kwf_good K HK s H1) as [_ Ns]. destruct (verts s) as [|v [|? ?]]; [congruence|exists v; reflexivity|cbn in H2; lia].
    - destruct H2 as (v & ->). cbn. lia. }
  assert (D0 : k_dimension K0 = Ok 0).
  { destruct (dimension_spec K0 (reachable_kwf K0 R0)) as [_ G]. destruct (by_index K) as [|s0 r0] eqn:EK; [congruence|]. rewrite <- EK in *. assert (Hs0 : In s0 (by_index K)) by (rewrite EK; left; reflexivity). destruct (kwf_good K HK s0 Hs0) as [_ Ns]. destruct (verts s0) as [|v r] eqn:Ev; [congruence|].
    destruct (HC s0 [v] Hs0) as (u & Hu & Eu); [discriminate|intros w [<-|[]]; rewrite Ev; left; reflexivity|]. assert (Eu' : verts u = [v]) by (change [v] with (verts (Simplex [v] 0)); apply wf_ext; [apply (kwf_good K HK u Hu)|repeat constructor|exact Eu]).
    assert (I : In u (by_index K0)) by (apply V0; split; [exact Hu|exists v; exact Eu']). destruct G as (e & Ee & (t & Ht & Lt) & _); [intro Y; rewrite Y in I; destruct I|]. apply V0 in Ht. destruct Ht as (_ & w & Ew). rewrite Ew in Lt. cbn in Lt. rewrite Ee. f_equal. lia. }
  destruct (C79_ranks inf true (gm_at [0]) (fun _ => 0%Z) L [K0; K0; K] 2 RL CL FL) as (f & l & F & D2 & Hf & Hl & LF & EF & H2 & BB).
  - intros x [<-|[<-|[<-|[]]]]; assumption.
  - intros k Hk. apply gm_zero. exact Hk.
  - intros _. exists [], K0, K0, K. auto.
  - exact LDim.
  - intros x [<-|[<-|[<-|[]]]]; [exists 0|exists 0|exists 2]; split; auto.
  - exists K. split; [cbn; auto|exact Hd].
  - cbn. lia.
  - destruct (C159_dimensions inf (fun l => l) ATwist K true false (fun l => Permutation_refl _) HR HC HF) as (M & D1 & _ & E1 & Dm & _ & _ & Len). specialize (Len 2 Top All). cbn in Len.
    destruct (pipeline inf K false HR HC HF) as (_ & _ & _ & D1' & _ & _ & _ & _ & _ & _ & _ & _ & PP). rewrite (PP (fun l => l) ATwist true (fun l => Permutation_refl _)) in E1. injection E1 as ->.
    exists L, f, l, F, D1, D2. refine (conj _ (conj RL (conj CL (conj FL (conj AL (conj _ (conj Hl (conj LF (conj EF (conj (BB AL) (conj _ _))))))))))).
    + exists L0. split; [exact EL|exact HL].
    + intros t Ht. rewrite (Hf t Ht). unfold allowable. destruct (InL t Ht) as (C & HCh & Vt). pose proof (CLen C HCh) as LC. assert (Lt : length (verts t) <= 3) by (rewrite Vt, map_length; exact LC). split.
      * intro A. destruct (Nat.eq_dec (length (verts t)) 3) as [L3|L3]; [left; exact L3|]. right. intros v Hv (u & Hu & Eu).
        assert (Ev : verts u = [v]). { change [v] with (verts (Simplex [v] 0)). apply wf_ext; [apply (kwf_good K HK u Hu)|repeat constructor|exact Eu]. }
        specialize (A 2 (le_n _) (le_n _) u). cbn [Nat.sub nth] in A. rewrite Ev in A. assert (I : In u (by_index K0)) by (apply V0; split; [exact Hu|exists v; exact Ev]). specialize (A I ltac:(intros w [<-|[]]; exact Hv)). cbn [length] in A. lia.
      * intros [L3|NN] k Hk1 Hk2 u Hu Sub; assert (k = 2) by lia; subst k; cbn [Nat.sub nth] in Hu; apply V0 in Hu; destruct Hu as (Hu & v & Ev); rewrite Ev in *.
        -- rewrite L3. cbn [length]. lia.
        -- exfalso. apply (NN v); [apply Sub; left; reflexivity|]. exists u. split; [exact Hu|]. rewrite Ev. intro w. tauto.
    + rewrite Dm, Len. reflexivity.
    + intros order a Ho. assert (TD : tool_diagrams inf lowest highest sorder order a [] threshold invert K = Ok (D1, D2)).
      { unfold tool_diagrams, strata, skeleton_strata. fold fn. rewrite EL. cbn [bind]. rewrite (PP order a true Ho). cbn [bind]. rewrite Hd. cbn [bind Nat.eqb]. fold R. fold L. fold K0. rewrite (H2 order a true Ho). reflexivity. }
      refine (conj (PP order a true Ho) (conj TD _)). unfold intersection_tool. rewrite TD. cbn [bind]. rewrite (tool_files_two D1 D2 Len). destruct D1 as [|x0 [|x1 [|? ?]]]; try discriminate. destruct D2 as [|y0 [|y1 D2]]; reflexivity.
Qed.

(** ** Examples and findings *)
Definition C169_triangle : complex := mk [PushBack [0] 0; PushBack [1] 0; PushBack [2] 0; PushBack [0;1] 1; PushBack [0;2] 1; PushBack [1;2] 1; PushBack [0;1;2] 2].
Definition C169_sphere : complex := mk [PushBack [0] 0; PushBack [1] 0; PushBack [2] 0; PushBack [3] 0; PushBack [0;1] 1; PushBack [0;2] 1; PushBack [1;2] 1; PushBack [0;3] 1; PushBack [1;3] 1; PushBack [2;3] 1;
  PushBack [0;1;2] 2; PushBack [0;1;3] 2; PushBack [0;2;3] 2; PushBack [1;2;3] 2].
Definition C169_run (values : list Z) (invert : bool) (K : complex) := intersection_tool 99 (-99) 99 (fun m => m) (fun l => l) AStandard values 5 invert K.
Example C169_example :
  C169_run [] false C169_triangle = Ok [(0, (Diagram 0 [(0, 99); (0, 1); (0, 1)]%Z, Diagram 0 [(0, 99); (0, 2); (0, 2); (0, 2)]%Z))] /\
  C169_run [1; 9; 9]%Z false C169_triangle = Ok [(0, (Diagram 0 [(0, 99); (0, 1); (0, 1)]%Z, Diagram 0 [(0, 99); (0, 1)]%Z))] /\
  C169_run [9; 9; 9]%Z false C169_triangle = Throw RuntimeError /\
  C169_run [1; 9]%Z false C169_triangle = Throw Terminated /\
  C169_run [] false (mk [PushBack [0] 0; PushBack [1] 0; PushBack [0;1] 1]) = Throw RuntimeError.
Proof. refine (conj _ (conj _ (conj _ (conj _ _)))); vm_compute; reflexivity. Qed.
(** the hypotheses of the theorems hold *)
Example C169_hypotheses : reachable C169_triangle /\ closed (by_index C169_triangle) /\ filtration_order (by_index C169_triangle) /\ ascending_data (by_index C169_triangle) /\ k_dimension C169_triangle = Ok 2 /\ covers [1; 9; 9]%Z (by_index C169_triangle) /\
  (exists s v, In s (by_index C169_triangle) /\ verts s = [v] /\ singular [1; 9; 9]%Z 5 false v) /\
  (forall s, In s (by_index C169_triangle) -> (0 <= data s)%Z /\ (length (verts s) = 1 -> data s = 0%Z)).
Proof.
  refine (conj (mk_reachable _) (conj _ (conj _ (conj _ (conj eq_refl (conj _ (conj _ _))))))).
  - apply closed_check; [apply mk_reachable|vm_compute; reflexivity].
  - apply filtration_check. vm_compute. reflexivity.
  - intros i j s t Hij Hi Hj. change (by_index C169_triangle) with [Simplex [0] 0; Simplex [1] 0; Simplex [2] 0; Simplex [1;0] 1; Simplex [2;0] 1; Simplex [2;1] 1; Simplex [2;1;0] 2] in Hi, Hj.
    assert (Lj : j < 7) by (apply (nth_error_Some [Simplex [0] 0; Simplex [1] 0; Simplex [2] 0; Simplex [1;0] 1; Simplex [2;0] 1; Simplex [2;1] 1; Simplex [2;1;0] 2]); rewrite Hj; discriminate).
    destruct j as [|[|[|[|[|[|[|j]]]]]]]; destruct i as [|[|[|[|[|[|[|i]]]]]]]; try lia; cbn in Hi, Hj; injection Hi as <-; injection Hj as <-; cbn; lia.
  - intros s v Hs Hv. vm_compute in Hs. repeat destruct Hs as [<-|Hs]; try destruct Hs; cbn in Hv; cbn; lia.
  - exists (Simplex [0] 0), 0. split; [left; reflexivity|]. split; [reflexivity|]. exists 1%Z. split; [reflexivity|lia].
  - intros s Hs. vm_compute in Hs. repeat destruct Hs as [<-|Hs]; try destruct Hs; cbn; (split; [lia|intro; first [reflexivity|discriminate]]).
Qed.

(** With [--invert], an edge is in the second stratum if one of its vertices is: the stratum need not be a complex *)
Theorem C169_inverted_refuted : ~ (forall values threshold K d X K0 K1, reachable K -> closed (by_index K) -> k_dimension K = Ok d -> covers values (by_index K) ->
  value_strata values threshold true K = Ok (X, K) -> X d = [K0; K1; K1; K] -> closed (by_index K1)).
Proof.
  intro H. set (K := mk [PushBack [0] 0; PushBack [1] 0; PushBack [0;1] 1]).
  set (K1 := mk [PushBack [0] 0; PushBack [0;1] 1]).
  specialize (H [9; 1]%Z 5%Z K 1 (fun _ => [mk [PushBack [0] 0]; K1; K1; K]) (mk [PushBack [0] 0]) K1). destruct (H (mk_reachable _)) with (s := Simplex [1; 0] 1) (vs := [1]) as (t & Ht & Et).
  - apply closed_check; [apply mk_reachable|vm_compute; reflexivity].
  - reflexivity.
  - intros s v Hs Hv. vm_compute in Hs. repeat destruct Hs as [<-|Hs]; try destruct Hs; cbn in Hv; cbn; lia.
  - vm_compute. reflexivity.
  - reflexivity.
  - right. left. reflexivity.
  - discriminate.
  - intros w [<-|[]]. left. reflexivity.
  - vm_compute in Ht. destruct Ht as [<-|[<-|[]]].
    + pose proof (proj1 (Et 0) (or_introl eq_refl)) as X. cbn in X. intuition congruence.
    + pose proof (proj1 (Et 0) (or_intror (or_introl eq_refl))) as X. cbn in X. intuition congruence.
Qed.

(** The front of an empty vector is accessed: if all vertices of a triangle are singular, or if there are only points *)
Theorem C169_front_refuted : ~ (forall inf lowest highest sorder order a values threshold invert K, (forall l, Permutation (order l) l) -> (forall m, Permutation (sorder m) m) ->
  reachable K -> closed (by_index K) -> filtration_order (by_index K) -> by_index K <> [] -> values <> [] -> covers values (by_index K) ->
  intersection_tool inf lowest highest sorder order a values threshold invert K <> UB).
Proof.
  intro H. apply (H 99%Z (-99)%Z 99%Z (fun m => m) (fun l => l) AStandard [1; 1; 1]%Z 5%Z false C169_triangle); try (intro; apply Permutation_refl).
  - apply mk_reachable.
  - apply closed_check; [apply mk_reachable|vm_compute; reflexivity].
  - apply filtration_check. vm_compute. reflexivity.
  - vm_compute. discriminate.
  - discriminate.
  - intros s v Hs Hv. vm_compute in Hs. repeat destruct Hs as [<-|Hs]; try destruct Hs; cbn in Hv; cbn; lia.
  - vm_compute. reflexivity.
Qed.
Example C169_points_example : C169_run [1]%Z false (mk [PushBack [0] 0]) = UB.
Proof. vm_compute. reflexivity. Qed.

(** The number of a file is the position of a diagram, not its dimension *)
Theorem C169_file_refuted : ~ (forall inf lowest highest sorder order a values threshold invert K files, (forall l, Permutation (order l) l) -> (forall m, Permutation (sorder m) m) ->
  reachable K -> closed (by_index K) -> filtration_order (by_index K) -> covers values (by_index K) ->
  intersection_tool inf lowest highest sorder order a values threshold invert K = Ok files ->
  forall k x y, In (k, (x, y)) files -> dgm_dim x = k /\ dgm_dim y = k).
Proof.
  intro H. assert (E : intersection_tool 99 (-99) 99 (fun m => m) (fun l => l) AStandard [1; 1; 9; 9]%Z 5 false C169_sphere =
    Ok [(0, (Diagram 0 [(0, 99); (0, 1); (0, 1); (0, 1)]%Z, Diagram 0 [(0, 99); (0, 1)]%Z)); (1, (Diagram 1 [(1, 2); (1, 2); (1, 2)]%Z, Diagram 2 [(2, 99)]%Z))]) by (vm_compute; reflexivity).
  assert (C : closed (by_index C169_sphere)) by (apply closed_check; [apply mk_reachable|vm_compute; reflexivity]).
  assert (FO : filtration_order (by_index C169_sphere)) by (apply filtration_check; vm_compute; reflexivity).
  assert (CV : covers [1; 1; 9; 9]%Z (by_index C169_sphere)) by (intros s v Hs Hv; vm_compute in Hs; repeat destruct Hs as [<-|Hs]; try destruct Hs; cbn in Hv; cbn; lia).
  destruct (H _ _ _ _ _ _ _ _ _ _ _ (fun l => Permutation_refl _) (fun l => Permutation_refl _) (mk_reachable _) C FO CV E 1 _ _ (or_intror (or_introl eq_refl))) as [_ X]. discriminate.
Qed.

(** The files: one for every dimension up to 2 in which both calculations yield a diagram, without the points on the
    diagonal; undefined behaviour if one of them yields no diagram at all. *)
Theorem C169_files : forall D1 D2 : list diagram,
  (D1 = [] \/ D2 = [] -> tool_files D1 D2 = UB) /\
  (D1 <> [] -> D2 <> [] -> exists files, tool_files D1 D2 = Ok files /\ map fst files = seq 0 (Nat.min 3 (Nat.min (length D1) (length D2))) /\
    forall k x y, In (k, (x, y)) files -> exists d e, nth_error D1 k = Some d /\ nth_error D2 k = Some e /\
      dgm_dim x = dgm_dim d /\ points x = filter (fun p => negb (fst p =? snd p)%Z) (points d) /\
      dgm_dim y = dgm_dim e /\ points y = filter (fun p => negb (fst p =? snd p)%Z) (points e)).
Proof.
  intros D1 D2. split.
  - intros [->| ->]; [reflexivity|]. destruct D1; reflexivity.
  - intros H1 H2. destruct D1 as [|x0 [|x1 [|x2 D1]]]; try congruence; (destruct D2 as [|y0 [|y1 [|y2 D2]]]; try congruence); eexists; (split; [reflexivity|]); (split; [reflexivity|]); intros k x y H;
      repeat (destruct H as [H|H]; [injection H as <- <- <-; eexists; eexists; repeat split|]); destruct H.
Qed.
(** The singularity value of a point is the sum of its row in the file. *)
Theorem C169_rows : forall rows i v, nth_error (singularity_values rows) i = Some v <-> exists row, nth_error rows i = Some row /\ v = fold_right Z.add 0%Z row.
Proof.
  assert (G : forall row a, fold_left Z.add row a = (a + fold_right Z.add 0 row)%Z) by (induction row as [|x row IH]; intro a; cbn; [lia|rewrite IH; lia]).
  intros rows i v. unfold singularity_values. rewrite nth_error_map. destruct (nth_error rows i) as [row|]; cbn; split.
  - intro H. injection H as <-. exists row. split; [reflexivity|]. rewrite G. reflexivity.
  - intros (r & H & ->). injection H as <-. rewrite G. reflexivity.
  - discriminate.
  - intros (r & H & _). discriminate H.
Qed.
Example C169_rows_example : singularity_values [[1; 2; 3]; []; [-4; 1]]%Z = [6; 0; -3]%Z.
Proof. reflexivity. Qed.

Print Assumptions C169_files.
Print Assumptions C169_rows.
Print Assumptions C169_strata.
Print Assumptions C169_short.
Print Assumptions C169_no_singular.
Print Assumptions C169_dimension.
Print Assumptions C169_values.
Print Assumptions C169_canonical.
Print Assumptions C169_inverted_refuted.
Print Assumptions C169_front_refuted.
Print Assumptions C169_file_refuted.
