(** * C158: degree filtrations of graphs. *)
From Coq Require Import List Arith Bool ZArith QArith Qfield Lia Permutation Sorted.
From Verif Require Import Base BaseFacts Matrix SpecMatrix Simplex SimplexFacts SpecComplex Complex ComplexFacts ClosureFacts FiltrationFacts
  History Subcomplex SubcomplexFacts PropertiesComplex Rips RipsFacts WeightFacts PropertiesRips SymmetricMatrix FloydWarshall SpecGraph FloydFacts PropertiesGraph
  Diagram SpecHomology SpecDiagram PropertiesDiagram HomologyFacts PropertiesComponents PropertiesDowker PropertiesVietorisRips BarycentricFacts SparseTool.
Import ListNotations.
Local Open Scope nat_scope.

(** ** Specification *)
(** number of edges, triangles, ... that contain a vertex *)
Definition degree_of (L : list simplex) (v : nat) : nat :=
  length (filter (fun s => (2 <=? length (verts s)) && existsb (Nat.eqb v) (verts s)) L).
(** every vertex is a vertex of an edge *)
Definition no_isolated (L : list simplex) : Prop :=
  forall s v, In s L -> verts s = [v] -> exists e, In e L /\ 2 <= length (verts e) /\ In v (verts e).
Definition a_graph (K : complex) : Prop := reachable K /\ closed (by_index K) /\ no_isolated (by_index K) /\ by_index K <> [].
Definition sum_over (f : nat -> Z) (vs : list nat) : Z := fold_right (fun v x => f v + x)%Z 0%Z vs.
(** the data of a simplex: the largest degree of its vertices, or the sum of the degrees *)
Definition degree_data (sum : bool) (L : list simplex) (s : simplex) : Prop :=
  if sum then data s = sum_over (fun v => Z.of_nat (degree_of L v)) (verts s)
  else is_max_over (fun v => Z.of_nat (degree_of L v)) (verts s) (data s).

(** ** Data of simplices *)
Lemma assign_general K values init f : reachable K -> closed (by_index K) -> length (k_vertices K) <= length values ->
  exists S, assignData K values init f = Ok S /\ reachable S /\ map verts (by_index S) = map verts (by_index K) /\
    forall s, In s (by_index S) -> data s = fold_left (fun d v => f d (nth (rank (k_vertices K) v) values 0%Z)) (verts s) init.
Proof.
  intros HR HC Hlen. pose proof (reachable_kwf K HR) as HK. destruct (vertices_spec K HK) as [HVs HV].
  assert (Hall : forall s v, In s (by_index K) -> In v (verts s) -> In v (k_vertices K)).
  { intros s v Hs Hv. destruct (HC s [v]) as (t & Ht & Et); auto; [discriminate|intros x [<-|[]]; auto|].
    apply HV. exists t. split; auto. destruct (kwf_good K HK t Ht) as [Hw _].
    change [v] with (verts (Simplex [v] 0)). apply wf_ext; auto. repeat constructor. }
  set (h := fun d v => f d (nth (rank (k_vertices K) v) values 0%Z)).
  assert (F : forall vs, (forall v, In v vs -> In v (k_vertices K)) -> forall d,
    foldM (fun d v => let* x := get_ values (vertex_index (k_vertices K) v) in Ok (f d x)) vs d = Ok (fold_left h vs d)).
  { induction vs as [|v vs IH]; intros Hin d; [reflexivity|]. cbn [foldM fold_left]. rewrite (vertex_index_rank _ v HVs) by (apply Hin; left; reflexivity).
    pose proof (rank_lt (k_vertices K) v (Hin v (or_introl eq_refl))) as Hr. unfold get_. destruct (nth_error values (rank (k_vertices K) v)) as [x|] eqn:E.
    - cbn [bind]. unfold h at 2. rewrite (nth_error_nth _ _ 0%Z E). apply IH. intros u Hu. apply Hin. right. exact Hu.
    - apply nth_error_None in E. lia. }
  assert (G : forall l2 l1 S, by_index K = l1 ++ l2 -> kwf S -> map verts (by_index S) = map verts l1 ->
     (forall s, In s (by_index S) -> data s = fold_left h (verts s) init) ->
     exists S', foldM (assign_data_step values init f (k_vertices K)) l2 S = Ok S' /\
       map verts (by_index S') = map verts (by_index K) /\
       forall s, In s (by_index S') -> data s = fold_left h (verts s) init).
  { induction l2 as [|s l2 IH]; intros l1 S El HS Hv Hinv.
    - exists S. rewrite app_nil_r in El. rewrite El. auto.
    - assert (Hs : In s (by_index K)) by (rewrite El; apply in_or_app; simpl; auto).
      destruct (push_back_new S (set_data s (fold_left h (verts s) init)) HS) as [E HS'].
      + apply (kwf_good K HK s Hs).
      + apply contains_false. rewrite Hv. cbn [verts set_data]. pose proof (kwf_nodup K HK) as Hn. rewrite El, map_app in Hn. simpl in Hn.
        apply NoDup_remove_2 in Hn. intro H. apply Hn. apply in_or_app; auto.
      + cbn [foldM]. unfold assign_data_step at 1. rewrite (F (verts s) (fun v => Hall s v Hs)). cbn [bind]. rewrite E. cbn [fst].
        apply (IH (l1 ++ [s])); auto.
        * rewrite <- app_assoc. auto.
        * cbn [by_index]. rewrite !map_app, Hv. auto.
        * cbn [by_index]. intros t Ht. apply in_app_or in Ht. destruct Ht as [Ht|[<-|[]]]; auto. }
  destruct (G (by_index K) [] k_empty eq_refl empty_kwf eq_refl) as (S & E & A & B); [intros s []|].
  exists S. refine (conj E (conj _ (conj A B))). apply (assign_data_reachable f init (k_vertices K) values (by_index K) k_empty S empty_reachable); [|exact E].
  intros s Hs. apply (kwf_good K HK s Hs).
Qed.

Lemma rank_nth vs v : StronglySorted lt vs -> In v vs -> nth (rank vs v) vs 0 = v.
Proof.
  unfold rank. induction 1 as [|u vs S IH F]; [intros []|]. intros [->|Hv]; cbn [filter].
  - rewrite Nat.ltb_irrefl, (filter_nil _ vs); [reflexivity|]. intros w Hw. rewrite Forall_forall in F. specialize (F w Hw). apply Nat.ltb_ge. lia.
  - rewrite Forall_forall in F. pose proof (F v Hv). rewrite (proj2 (Nat.ltb_lt u v)) by assumption. cbn [length nth]. apply IH, Hv.
Qed.

Lemma graph_vertices K : a_graph K -> degrees K = map (degree_of (by_index K)) (k_vertices K) /\ (forall s v, In s (by_index K) -> In v (verts s) -> In v (k_vertices K)).
Proof.
  intros (HR & HC & HI & _). pose proof (reachable_kwf K HR) as HK. destruct (vertices_spec K HK) as [HVs HV].
  assert (Hall : forall s v, In s (by_index K) -> In v (verts s) -> In v (k_vertices K)).
  { intros s v Hs Hv. destruct (HC s [v]) as (t & Ht & Et); auto; [discriminate|intros x [<-|[]]; auto|].
    apply HV. exists t. split; auto. destruct (kwf_good K HK t Ht) as [Hw _].
    change [v] with (verts (Simplex [v] 0)). apply wf_ext; auto. repeat constructor. }
  split; [|exact Hall]. destruct (C51_degrees K HR) as (vs & A & B & ->). replace vs with (k_vertices K); [reflexivity|].
  apply SSlt_ext; [exact HVs|exact A|]. intro v. rewrite B, HV. split.
  - intros (s & Hs & E). exact (HI s v Hs E).
  - intros (e & He & _ & Hv). apply HV. exact (Hall e v He Hv).
Qed.

Lemma sum_fold (g : nat -> Z) vs : forall d, fold_left (fun d v => d + g v)%Z vs d = (d + sum_over g vs)%Z.
Proof. induction vs as [|v vs IH]; intro d; [cbn; lia|]. cbn [fold_left]. rewrite IH. change (sum_over g (v :: vs)) with (g v + sum_over g vs)%Z. lia. Qed.
Lemma fold_ext_in {A B} (f g : A -> B -> A) l : (forall a b, In b l -> f a b = g a b) -> forall a, fold_left f l a = fold_left g l a.
Proof. induction l as [|b l IH]; intros H a; cbn [fold_left]; [reflexivity|]. rewrite H by (left; reflexivity). apply IH. intros a' b' Hb. apply H. right. exact Hb. Qed.
Lemma max_fold (g : nat -> Z) vs : forall d, (d <= fold_left (fun d v => Z.max d (g v)) vs d)%Z /\ (forall v, In v vs -> g v <= fold_left (fun d v => Z.max d (g v)) vs d)%Z /\
  (fold_left (fun d v => Z.max d (g v)) vs d = d \/ exists v, In v vs /\ fold_left (fun d v => Z.max d (g v)) vs d = g v).
Proof.
  induction vs as [|u vs IH]; intro d; cbn [fold_left].
  - split; [lia|]. split; [intros v []|left; reflexivity].
  - destruct (IH (Z.max d (g u))) as (A & B & C). split; [lia|]. split; [intros v [<-|Hv]; [lia|exact (B v Hv)]|].
    destruct C as [C|(v & Hv & C)]; [|right; exists v; split; [right; exact Hv|exact C]]. destruct (Z.max_spec d (g u)) as [[_ E]|[_ E]]; rewrite E in C at 2; [right; exists u; split; [left; reflexivity|exact C]|left; exact C].
Qed.
Lemma sum_nonneg g vs : (forall v, 0 <= g v)%Z -> (0 <= sum_over g vs)%Z.
Proof. intro H. induction vs as [|v vs IH]; [cbn; lia|]. specialize (H v). change (sum_over g (v :: vs)) with (g v + sum_over g vs)%Z. lia. Qed.
Lemma sum_app g l1 l2 : sum_over g (l1 ++ l2) = (sum_over g l1 + sum_over g l2)%Z.
Proof. induction l1 as [|v l IH]; [reflexivity|]. cbn [app]. change (sum_over g (v :: l ++ l2)) with (g v + sum_over g (l ++ l2))%Z. change (sum_over g (v :: l)) with (g v + sum_over g l)%Z. lia. Qed.
Lemma sum_subset g : (forall v, 0 <= g v)%Z -> forall vs ws, NoDup vs -> incl vs ws -> (sum_over g vs <= sum_over g ws)%Z.
Proof.
  intros H vs. induction vs as [|v vs IH]; intros ws Hn Hi; [apply sum_nonneg, H|]. inversion Hn as [|? ? Hv Hn']; subst.
  destruct (in_split v ws (Hi v (or_introl eq_refl))) as (l1 & l2 & ->). specialize (IH (l1 ++ l2) Hn').
  change (sum_over g (v :: vs)) with (g v + sum_over g vs)%Z. rewrite sum_app in *. change (sum_over g (v :: l2)) with (g v + sum_over g l2)%Z. enough (incl vs (l1 ++ l2)) as X by (specialize (IH X); lia).
  intros u Hu. assert (X : In u (l1 ++ v :: l2)) by (apply Hi; right; exact Hu). apply in_app_or in X. apply in_or_app. destruct X as [X|[->|X]]; [left; exact X|contradiction|right; exact X].
Qed.

(** ** Filtrations *)
Theorem C158_filtration : forall lowest highest sum superlevel K, a_graph K -> (lowest <= 0)%Z -> (sum = true \/ superlevel = false) ->
  exists S, assign_degrees lowest highest sum superlevel K (graph_degrees K) = Ok S /\
  let L := sort_degrees superlevel S in
  reachable L /\ closed (by_index L) /\ filtration_order (by_index L) /\ ascending_data (by_index L) /\
  (forall vs, has (by_index L) vs <-> has (by_index K) vs) /\ length (by_index L) = length (by_index K) /\
  forall s, In s (by_index L) -> degree_data sum (by_index K) s.
Proof.
  intros lowest highest sum superlevel K HG Hlow Hmode. pose proof HG as (HR & HC & HI & Hne). pose proof (reachable_kwf K HR) as HK.
  destruct (graph_vertices K HG) as [ED Hall]. destruct (vertices_spec K HK) as [HVs HV].
  set (g := fun v => Z.of_nat (degree_of (by_index K) v)).
  assert (EV : graph_degrees K = map g (k_vertices K)) by (unfold graph_degrees; rewrite ED, map_map; reflexivity).
  assert (N : forall v, In v (k_vertices K) -> nth (rank (k_vertices K) v) (graph_degrees K) 0%Z = g v).
  { intros v Hv. rewrite EV, (nth_indep _ 0%Z (g 0)) by (rewrite map_length; apply rank_lt, Hv). rewrite map_nth, rank_nth; auto. }
  set (mode := if sum then (0%Z, Z.add) else (lowest, Z.max)).
  destruct (assign_general K (graph_degrees K) (fst mode) (snd mode) HR HC) as (S & ES & RS & VS & DS); [rewrite EV, map_length; lia|].
  exists S. split. { unfold assign_degrees, assignMaximumData. subst mode. destruct sum; [exact ES|]. destruct Hmode as [Hm| ->]; [discriminate|exact ES]. }
  assert (EL : sort_degrees superlevel S = k_sort data_cmp S) by (destruct superlevel; reflexivity). rewrite EL. cbv zeta.
  assert (VK : forall s, In s (by_index S) -> exists t, In t (by_index K) /\ verts t = verts s).
  { intros s Hs. assert (X : In (verts s) (map verts (by_index K))) by (rewrite <- VS; apply in_map, Hs). apply in_map_iff in X. destruct X as (t & E & Ht). exists t. auto. }
  assert (DD : forall s, In s (by_index S) -> degree_data sum (by_index K) s).
  { intros s Hs. destruct (VK s Hs) as (t & Ht & Et). specialize (DS s Hs).
    rewrite (fold_ext_in _ (fun d v => snd mode d (g v))) in DS by (intros d v Hv; rewrite N; [reflexivity|apply (Hall t v Ht); rewrite Et; exact Hv]).
    unfold degree_data. subst mode. fold g. destruct sum; cbn [fst snd] in DS.
    - rewrite DS, sum_fold. lia.
    - destruct (max_fold g (verts s) lowest) as (A & B & C). rewrite <- DS in *. split; [|intros v Hv; exact (B v Hv)]. destruct C as [C|(v & Hv & C)]; [|exists v; auto].
      destruct (verts s) as [|v vs] eqn:Ev; [destruct (kwf_good S (reachable_kwf _ RS) s Hs) as [_ X]; congruence|]. exists v. split; [left; reflexivity|]. specialize (B v (or_introl eq_refl)). assert (0 <= g v)%Z by apply Nat2Z.is_nonneg. lia. }
  assert (WS : kwf S) by (apply reachable_kwf, RS).
  assert (MS : monotone (by_index S)).
  { intros s t Hs Ht Sub. pose proof (DD s Hs) as Ds. pose proof (DD t Ht) as Dt. unfold degree_data in Ds, Dt. destruct sum.
    - rewrite Ds, Dt. apply sum_subset; [intro v; apply Nat2Z.is_nonneg|apply SSgt_NoDup, (kwf_good S WS t Ht)|exact Sub].
    - destruct Dt as [(v & Hv & <-) _]. apply (proj2 Ds), Sub, Hv. }
  assert (P : Permutation (by_index (k_sort data_cmp S)) (by_index S)) by apply cpp_sort_perm.
  assert (HS : forall vs, has (by_index (k_sort data_cmp S)) vs <-> has (by_index K) vs).
  { intro vs. rewrite (has_perm _ _ vs P). apply (has_verts_eq _ _ vs VS). }
  refine (conj (sort_reachable data_cmp _ RS) (conj _ (conj (filtration_data S WS MS) (conj _ (conj HS (conj _ _)))))).
  - intros s vs Hs Hn Sub. apply HS. destruct (VK s (Permutation_in _ P Hs)) as (t & Ht & Et). apply (HC t vs Ht Hn). rewrite Et. exact Sub.
  - intros i j s t Hij Hi Hj. refine (sorted_by_value data_cmp data (by_index S) data_cmp_swo _ i j s t Hij Hi Hj).
    intros s' t' E. unfold data_cmp in E. destruct (Z.eqb_spec (data t') (data s')); [lia|]. apply Z.ltb_ge in E. lia.
  - rewrite (Permutation_length P), <- (map_length verts (by_index S)), VS, map_length. reflexivity.
  - intros s Hs. apply DD, (Permutation_in _ P Hs).
Qed.

(** ** Files *)
Lemma write_empty n : forall f d, fold_left (fun f d => write d [] f) (seq 0 n) f d = if d <? n then Some [] else f d.
Proof.
  induction n as [|n IH]; intros f d; [reflexivity|]. rewrite seq_S, fold_left_app. cbn [fold_left plus]. unfold write at 1. destruct (Nat.eqb_spec d n) as [->|H].
  - rewrite (proj2 (Nat.ltb_lt n (S n))) by lia. reflexivity.
  - rewrite IH. destruct (Nat.ltb_spec d n), (Nat.ltb_spec d (S n)); try lia; reflexivity.
Qed.
Lemma write_diagrams inf factor m : forall ds f d, StronglySorted lt (map dgm_dim ds) ->
  fold_left (fun f D => write (dgm_dim D) (diagram_lines inf factor m D) f) ds f d =
  if existsb (fun D => dgm_dim D =? d) ds then Some (diagram_lines inf factor m (Diagram d (points_of ds d))) else f d.
Proof.
  induction ds as [|D ds IH]; intros f d Hs; [reflexivity|]. cbn [map] in Hs. apply StronglySorted_inv in Hs. destruct Hs as [Hs HF]. cbn [fold_left existsb]. rewrite (IH _ d Hs). unfold points_of. cbn [flat_map].
  destruct (Nat.eqb_spec (dgm_dim D) d) as [E|E]; cbn [orb].
  - assert (X : existsb (fun D0 => dgm_dim D0 =? d) ds = false).
    { destruct (existsb _ ds) eqn:Ex; [|reflexivity]. apply existsb_exists in Ex. destruct Ex as (D' & HD & E'). apply Nat.eqb_eq in E'. rewrite Forall_forall in HF. specialize (HF _ (in_map dgm_dim _ _ HD)). lia. }
    rewrite X. unfold write. rewrite E, Nat.eqb_refl. fold (points_of ds d). rewrite (points_of_none ds d), app_nil_r.
    + unfold diagram_lines, removeDiagonal. reflexivity.
    + intros D' HD E'. assert (Y : existsb (fun D0 => dgm_dim D0 =? d) ds = true) by (apply existsb_exists; exists D'; split; [exact HD|apply Nat.eqb_eq, E']). congruence.
  - fold (points_of ds d). destruct (existsb _ ds); [reflexivity|]. unfold write. destruct (Nat.eqb_spec d (dgm_dim D)); [congruence|reflexivity].
Qed.

(** lines that are created at [x] or before and destroyed after [y] *)
Definition alive (lines : list point) (x y : Z) : nat := length (filter (fun p => (fst p <=? x)%Z && (y <? snd p)%Z) lines).
Lemma alive_lines inf factor m D x y : (x <= y)%Z -> (y < inf)%Z -> (y < factor * m)%Z ->
  alive (diagram_lines inf factor m D) x y = length (filter (fun q => (fst q <=? x)%Z && (y <? snd q)%Z) (points D)).
Proof.
  intros Hxy Hy Hm. unfold alive, diagram_lines, removeDiagonal. cbn [points]. induction (points D) as [|p l IH]; [reflexivity|]. cbn [filter].
  destruct (Z.eqb_spec (fst p) (snd p)) as [E|E]; cbn [negb].
  - rewrite IH. destruct (Z.leb_spec (fst p) x), (Z.ltb_spec y (snd p)); cbn [andb]; try reflexivity. lia.
  - cbn [map filter]. assert (Eu : isUnpaired inf p = (snd p =? inf)%Z) by reflexivity. destruct (Z.eqb_spec (snd p) inf) as [Ei|Ei]; rewrite Eu; cbn [fst snd].
    + rewrite Ei. rewrite (proj2 (Z.ltb_lt y (factor * m)) Hm), (proj2 (Z.ltb_lt y inf) Hy). destruct ((fst p <=? x)%Z && true); cbn [length]; rewrite IH; reflexivity.
    + destruct ((fst p <=? x)%Z && (y <? snd p)%Z); cbn [length]; rewrite IH; reflexivity.
Qed.

Lemma files_spec inf horder a factor m n L : (forall l, Permutation (horder l) l) -> reachable L -> closed (by_index L) -> filtration_order (by_index L) -> ascending_data (by_index L) ->
  (forall s, In s (by_index L) -> length (verts s) <= S n) ->
  exists f M, graph_files inf horder a factor m n L = Ok f /\ makeBoundaryMatrix L 0 = Ok M /\
    (forall d, n < d -> f d = None) /\
    (forall d, d <= n -> exists lines, f d = Some lines /\ forall x y, (x <= y)%Z -> (y < inf)%Z -> (y < factor * m)%Z ->
       persistent_betti (cols M) (dims M) (sublevel L x) (sublevel L y) d (alive lines x y)).
Proof.
  intros Ho HR HC HF HA Hn. destruct (C55_diagrams_give_persistent_ranks inf horder a L true true Ho HR HC HF HA) as (M & ds & EM & Ed & HB).
  destruct (pipeline inf L true HR HC HF) as (M' & p & p1 & ds' & _ & _ & _ & _ & _ & _ & Hb & Edp & Hall). rewrite (Hall horder a true Ho) in Ed. injection Ed as <-.
  destruct (tabulates_pairing inf L p1 (reachable_kwf _ HR) Hb) as (ds0 & E0 & Hs & H1 & H2). rewrite Edp in E0. injection E0 as <-.
  assert (Dim : forall D, In D ds' -> dgm_dim D <= n).
  { intros D HD. destruct (H1 D HD) as [Hne Hp]. destruct (points D) as [|q l] eqn:Eq; [congruence|]. destruct (filter (fun q => dim_at L (fst q) =? dgm_dim D) p1) as [|q' l'] eqn:El; [discriminate|].
    assert (X : In q' (filter (fun q => dim_at L (fst q) =? dgm_dim D) p1)) by (rewrite El; left; reflexivity). apply filter_In in X. destruct X as [Xp Xd]. apply Nat.eqb_eq in Xd. rewrite <- Xd.
    unfold dim_at. specialize (Hn (nth (fst q') (by_index L) dummy_simplex) (nth_In _ _ (Hb q' Xp))). unfold sdim. lia. }
  unfold graph_files. rewrite (Hall horder a true Ho). cbn [bind]. eexists. exists M. refine (conj eq_refl (conj EM (conj _ _))).
  - intros d Hd. rewrite write_diagrams by exact Hs. destruct (existsb (fun D => dgm_dim D =? d) ds') eqn:E.
    + apply existsb_exists in E. destruct E as (D & HD & E). apply Nat.eqb_eq in E. specialize (Dim D HD). lia.
    + rewrite write_empty. destruct (Nat.ltb_spec d (n + 1)); [lia|reflexivity].
  - intros d Hd. exists (diagram_lines inf factor m (Diagram d (points_of ds' d))). split.
    + rewrite write_diagrams by exact Hs. destruct (existsb (fun D => dgm_dim D =? d) ds') eqn:E; [reflexivity|]. rewrite write_empty, (proj2 (Nat.ltb_lt d (n + 1))) by lia.
      rewrite points_of_none; [reflexivity|]. intros D HD E'. assert (Y : existsb (fun D0 => dgm_dim D0 =? d) ds' = true) by (apply existsb_exists; exists D; split; [exact HD|apply Nat.eqb_eq, E']). congruence.
    + intros x y Hxy Hy Hm. rewrite alive_lines by assumption. cbn [points]. apply HB; [left; reflexivity|exact Hy].
Qed.

Lemma expand_same order dimension Ks : (forall l, Permutation (order l) l) -> (forall K, In K Ks -> reachable K) -> expand order dimension Ks = Ok Ks.
Proof.
  intros Ho HR. unfold expand. destruct (dimension =? 0); [reflexivity|].
  assert (G : forall l acc, (forall K, In K l -> reachable K) -> foldM (fun Ls K => let* _ := ripsExpander order K dimension in Ok (Ls ++ [K])) l acc = Ok (acc ++ l)).
  { induction l as [|K l IH]; intros acc H; cbn [foldM]; [rewrite app_nil_r; reflexivity|]. destruct (C25_expansion order K dimension Ho (H K (or_introl eq_refl))) as (L & -> & _). cbn [bind].
    rewrite IH by (intros; apply H; right; assumption). rewrite <- app_assoc. reflexivity. }
  apply (G Ks [] HR).
Qed.
Lemma maximum_dimension_spec Ks : (forall K, In K Ks -> reachable K /\ by_index K <> []) -> exists n, maximum_dimension Ks = Ok n /\
  (forall K s, In K Ks -> In s (by_index K) -> length (verts s) <= S n) /\ (Ks <> [] -> exists K s, In K Ks /\ In s (by_index K) /\ length (verts s) = S n).
Proof.
  intro H. unfold maximum_dimension.
  assert (G : forall l m, (forall K, In K l -> reachable K /\ by_index K <> []) -> exists n, foldM (fun m K => let* d := k_dimension K in Ok (Nat.max d m)) l m = Ok n /\ m <= n /\
    (forall K s, In K l -> In s (by_index K) -> length (verts s) <= S n) /\ (n = m \/ exists K s, In K l /\ In s (by_index K) /\ length (verts s) = S n)).
  { induction l as [|K l IH]; intros m Hl; cbn [foldM].
    - exists m. refine (conj eq_refl (conj (le_n _) (conj _ (or_introl eq_refl)))). intros K s [].
    - destruct (Hl K (or_introl eq_refl)) as [HR Hne]. destruct (proj2 (dimension_spec K (reachable_kwf _ HR)) Hne) as (d & -> & (s0 & Hs0 & E0) & Hd). cbn [bind].
      destruct (IH (Nat.max d m)) as (n & -> & Hn & A & B); [intros; apply Hl; right; assumption|]. exists n. refine (conj eq_refl (conj _ (conj _ _))); [lia| |].
      + intros L s [<-|HL] Hs; [specialize (Hd s Hs); lia|exact (A L s HL Hs)].
      + destruct B as [->|(L & s & HL & Hs & E)]; [|right; exists L, s; split; [right; exact HL|auto]]. destruct (Nat.max_spec d m) as [[_ ->]|[_ ->]]; [left; reflexivity|]. right. exists K, s0. split; [left; reflexivity|auto]. }
  destruct Ks as [|K Ks].
  - exists 0. split; [reflexivity|]. split; [intros K s []|congruence].
  - destruct (G (K :: Ks) 0 H) as (n & E & _ & A & B). exists n. refine (conj E (conj A _)). intros _. destruct B as [->|B]; [|exact B].
    destruct (H K (or_introl eq_refl)) as [HR Hne]. destruct (by_index K) as [|s r] eqn:Er; [congruence|]. exists K, s. split; [left; reflexivity|]. rewrite Er. split; [left; reflexivity|].
    assert (Hs : In s (by_index K)) by (rewrite Er; left; reflexivity). specialize (A K s (or_introl eq_refl) Hs). destruct (kwf_good K (reachable_kwf _ HR) s Hs) as [_ X]. destruct (verts s); [congruence|]. cbn [length] in *. lia.
Qed.

Lemma update_spec m ds : (m <= update_maximum m ds)%Z /\ (forall d, In d ds -> d <= update_maximum m ds)%Z /\ (update_maximum m ds = m \/ In (update_maximum m ds) ds).
Proof.
  destruct ds as [|d ds]; cbn [update_maximum]; [split; [lia|]; split; [intros d []|left; reflexivity]|].
  assert (G : forall l a, (a <= fold_left Z.max l a)%Z /\ (forall d, In d l -> d <= fold_left Z.max l a)%Z /\ (fold_left Z.max l a = a \/ In (fold_left Z.max l a) l)).
  { induction l as [|e l IH]; intro a; cbn [fold_left]; [split; [lia|]; split; [intros e []|left; reflexivity]|]. destruct (IH (Z.max a e)) as (A & B & C). split; [lia|]. split; [intros f [<-|Hf]; [lia|exact (B f Hf)]|].
    destruct C as [C|C]; [|right; right; exact C]. destruct (Z.max_spec a e) as [[_ E]|[_ E]]; rewrite E in C at 2; [right; left; symmetry; exact C|left; exact C]. }
  destruct (G ds d) as (A & B & C). split; [lia|]. split; [intros e [<-|He]; [lia|specialize (B e He); lia]|].
  destruct (Z.max_spec m (fold_left Z.max ds d)) as [[_ E]|[_ E]]; rewrite E; [right|left; reflexivity]. destruct C as [C|C]; [left; symmetry; exact C|right; exact C].
Qed.

(** what is calculated for a graph *)
Definition filtered (sum : bool) (K L : complex) : Prop :=
  reachable L /\ closed (by_index L) /\ filtration_order (by_index L) /\ ascending_data (by_index L) /\
  (forall vs, has (by_index L) vs <-> has (by_index K) vs) /\ length (by_index L) = length (by_index K) /\
  forall s, In s (by_index L) -> degree_data sum (by_index K) s.
Definition largest_degree (Ks : list complex) (m : Z) : Prop :=
  (forall K v, In K Ks -> In v (k_vertices K) -> Z.of_nat (degree_of (by_index K) v) <= m)%Z /\
  (Ks <> [] -> exists K v, In K Ks /\ In v (k_vertices K) /\ Z.of_nat (degree_of (by_index K) v) = m).

Lemma filtrations_spec lowest highest sum superlevel : (lowest <= 0)%Z -> (sum = true \/ superlevel = false) -> forall Ks m acc, Forall a_graph Ks ->
  exists m' Ls, foldM (degree_step lowest highest sum superlevel) Ks (m, acc) = Ok (m', acc ++ Ls) /\ Forall2 (filtered sum) Ks Ls /\ (m <= m')%Z /\
    (forall K v, In K Ks -> In v (k_vertices K) -> Z.of_nat (degree_of (by_index K) v) <= m')%Z /\
    (m' = m \/ exists K v, In K Ks /\ In v (k_vertices K) /\ Z.of_nat (degree_of (by_index K) v) = m').
Proof.
  intros Hlow Hmode. induction Ks as [|K Ks IH]; intros m acc HG; cbn [foldM].
  - exists m, []. rewrite app_nil_r. refine (conj eq_refl (conj (Forall2_nil _) (conj (Z.le_refl _) (conj _ (or_introl eq_refl))))). intros K v [].
  - pose proof (Forall_inv HG) as HK. apply Forall_inv_tail in HG. destruct (C158_filtration lowest highest sum superlevel K HK Hlow Hmode) as (S & E & HS). unfold degree_step at 1. rewrite E. cbn [bind fst snd].
    destruct (IH (update_maximum m (graph_degrees K)) (acc ++ [sort_degrees superlevel S]) HG) as (m' & Ls & E' & F & Hm & A & B). exists m', (sort_degrees superlevel S :: Ls). rewrite E', <- app_assoc.
    destruct (update_spec m (graph_degrees K)) as (U1 & U2 & U3).
    assert (GD : graph_degrees K = map (fun v => Z.of_nat (degree_of (by_index K) v)) (k_vertices K)) by (unfold graph_degrees; rewrite (proj1 (graph_vertices K HK)), map_map; reflexivity).
    refine (conj eq_refl (conj (Forall2_cons _ _ HS F) (conj _ (conj _ _)))); [lia| |].
    + intros L v [<-|HL] Hv; [|exact (A L v HL Hv)]. assert (X : In (Z.of_nat (degree_of (by_index K) v)) (graph_degrees K)) by (rewrite GD; apply in_map_iff; exists v; auto). specialize (U2 _ X). lia.
    + destruct B as [->|(L & v & HL & Hv & EL)]; [|right; exists L, v; split; [right; exact HL|auto]]. destruct U3 as [U3|U3]; [left; exact U3|]. right. rewrite GD in U3 at 2. apply in_map_iff in U3. destruct U3 as (v & Ev & Hv). exists K, v. split; [left; reflexivity|]. split; [exact Hv|]. rewrite Ev. reflexivity.
Qed.

(** The files of a graph describe persistent homology of the filtration by degrees (below the value that is written for
    points that are never destroyed), and there is a file for every dimension of one of the graphs. *)
Theorem C158_files : forall order lowest highest inf horder a dimension sum superlevel factor Ks,
  (forall l, Permutation (order l) l) -> (forall l, Permutation (horder l) l) -> Forall a_graph Ks -> (lowest <= 0)%Z -> (sum = true \/ superlevel = false) ->
  exists n m Ls fs, degree_diagrams order lowest highest inf horder a dimension sum superlevel factor Ks = Ok fs /\
    ((forall K s, In K Ks -> In s (by_index K) -> length (verts s) <= S n) /\ (Ks <> [] -> exists K s, In K Ks /\ In s (by_index K) /\ length (verts s) = S n)) /\
    largest_degree Ks m /\ Forall2 (filtered sum) Ks Ls /\
    Forall2 (fun L f => exists M, makeBoundaryMatrix L 0 = Ok M /\ (forall d, n < d -> f d = None) /\
      forall d, d <= n -> exists lines, f d = Some lines /\ forall x y, (x <= y)%Z -> (y < inf)%Z -> (y < factor * m)%Z ->
        persistent_betti (cols M) (dims M) (sublevel L x) (sublevel L y) d (alive lines x y)) Ls fs.
Proof.
  intros order lowest highest inf horder a dimension sum superlevel factor Ks Ho Hh HG Hlow Hmode. pose proof HG as HG'. rewrite Forall_forall in HG'. unfold degree_diagrams.
  rewrite (expand_same order dimension Ks Ho (fun K HK => proj1 (HG' K HK))). cbn [bind].
  destruct (maximum_dimension_spec Ks) as (n & -> & N1 & N2); [intros K HK; destruct (HG' K HK) as (A & _ & _ & B); auto|]. cbn [bind].
  destruct (filtrations_spec lowest highest sum superlevel Hlow Hmode Ks 0 [] HG) as (m & Ls & E & F & _ & M1 & M2). unfold degree_filtrations. rewrite E. cbn [bind app].
  exists n, m, Ls.
  assert (G : forall Ks Ls, Forall2 (filtered sum) Ks Ls -> (forall K s, In K Ks -> In s (by_index K) -> length (verts s) <= S n) -> forall acc, exists fs,
    foldM (fun r K => let* f := graph_files inf horder a factor m n K in Ok (r ++ [f])) Ls acc = Ok (acc ++ fs) /\
    Forall2 (fun L f => exists M, makeBoundaryMatrix L 0 = Ok M /\ (forall d, n < d -> f d = None) /\
      forall d, d <= n -> exists lines, f d = Some lines /\ forall x y, (x <= y)%Z -> (y < inf)%Z -> (y < factor * m)%Z ->
        persistent_betti (cols M) (dims M) (sublevel L x) (sublevel L y) d (alive lines x y)) Ls fs).
  { clear - Hh. induction 1 as [|K L Ks Ls HL F IH]; intros N acc; cbn [foldM]; [exists []; rewrite app_nil_r; split; [reflexivity|constructor]|].
    destruct HL as (R & C & FO & AD & HS & _ & _). destruct (files_spec inf horder a factor m n L Hh R C FO AD) as (f & M & -> & EM & A & B).
    { intros s Hs. assert (X : has (by_index K) (verts s)) by (apply HS; exists s; split; [exact Hs|intro v; tauto]). destruct X as (t & Ht & Et). specialize (N K t (or_introl eq_refl) Ht).
      assert (Y : length (verts s) <= length (verts t)) by (apply NoDup_incl_length; [apply SSgt_NoDup, (kwf_good L (reachable_kwf _ R) s Hs)|intros v Hv; apply Et, Hv]). lia. }
    cbn [bind]. destruct (IH (fun K' s HK => N K' s (or_intror HK)) (acc ++ [f])) as (fs & -> & FF). exists (f :: fs). rewrite <- app_assoc. split; [reflexivity|]. constructor; [exists M; auto|exact FF]. }
  destruct (G Ks Ls F N1 []) as (fs & Ef & FF). exists fs. refine (conj Ef (conj (conj N1 N2) (conj (conj M1 _) (conj F FF)))).
  intro Hne. destruct M2 as [->|M2]; [|exact M2]. destruct Ks as [|K Ks]; [congruence|]. destruct (HG' K (or_introl eq_refl)) as (HR & HC & HI & Hn). destruct (by_index K) as [|s r] eqn:Er; [congruence|].
  assert (Hs : In s (by_index K)) by (rewrite Er; left; reflexivity). pose proof (kwf_good K (reachable_kwf _ HR) s Hs) as [_ X]. destruct (verts s) as [|v vs] eqn:Ev; [congruence|].
  assert (Hv : In v (k_vertices K)) by (apply (proj2 (graph_vertices K (HG' K (or_introl eq_refl))) s v Hs); rewrite Ev; left; reflexivity).
  exists K, v. split; [left; reflexivity|]. split; [exact Hv|]. specialize (M1 K v (or_introl eq_refl) Hv). lia.
Qed.

(** FINDING: complexes are not expanded; the dimension has no effect. *)
Theorem C158_dimension_refuted : forall order lowest highest inf horder a dimension sum superlevel factor Ks, (forall l, Permutation (order l) l) -> (forall K, In K Ks -> reachable K) ->
  degree_diagrams order lowest highest inf horder a dimension sum superlevel factor Ks = degree_diagrams order lowest highest inf horder a 0 sum superlevel factor Ks.
Proof. intros. unfold degree_diagrams. rewrite (expand_same order dimension Ks) by assumption. reflexivity. Qed.

(** ** Normalization *)
Lemma q_max_Z a b : q_max (inject_Z a) (inject_Z b) = inject_Z (Z.max a b).
Proof. unfold q_max, Qle_bool. cbn [Qnum Qden inject_Z]. rewrite !Z.mul_1_r. destruct (Z.leb_spec a b); f_equal; lia. Qed.
Lemma q_update_Z m ds : q_update (inject_Z m) ds = inject_Z (update_maximum m (map Z.of_nat ds)).
Proof.
  unfold q_update. destruct ds as [|d ds]; cbn [map update_maximum]; [reflexivity|]. rewrite <- q_max_Z. f_equal. generalize (Z.of_nat d). induction ds as [|e ds IH]; intro a; cbn [map fold_left]; [reflexivity|]. rewrite q_max_Z. apply IH.
Qed.
Lemma degree_positive K v : a_graph K -> In v (k_vertices K) -> 1 <= degree_of (by_index K) v.
Proof.
  intros (HR & HC & HI & _) Hv. destruct (vertices_spec K (reachable_kwf _ HR)) as [_ HV]. apply HV in Hv. destruct Hv as (s & Hs & Ev). destruct (HI s v Hs Ev) as (e & He & Le & Hv).
  unfold degree_of. destruct (filter (fun s0 => (2 <=? length (verts s0)) && existsb (Nat.eqb v) (verts s0)) (by_index K)) as [|x l] eqn:E; [|cbn [length]; lia]. exfalso.
  assert (X : In e []) by (rewrite <- E; apply filter_In; split; [exact He|]; apply andb_true_iff; split; [apply Nat.leb_le, Le|apply existsb_exists; exists v; split; [exact Hv|apply Nat.eqb_refl]]). destruct X.
Qed.
Lemma graph_vertex K : a_graph K -> exists v, In v (k_vertices K).
Proof.
  intro HG. pose proof HG as (HR & HC & HI & Hn). destruct (by_index K) as [|s r] eqn:Er; [congruence|]. assert (Hs : In s (by_index K)) by (rewrite Er; left; reflexivity).
  pose proof (kwf_good K (reachable_kwf _ HR) s Hs) as [_ X]. destruct (verts s) as [|v vs] eqn:Ev; [congruence|]. exists v. apply (proj2 (graph_vertices K HG) s v Hs). rewrite Ev. left. reflexivity.
Qed.
(** The values of each graph are its degrees, divided by its largest degree. *)
Theorem C158_normalised : forall Ks, Forall a_graph Ks ->
  Forall2 (fun K values => exists m, largest_degree [K] m /\
    Forall2 (fun v x => exists q, x = Some q /\ (q == inject_Z (Z.of_nat (degree_of (by_index K) v)) / inject_Z m)%Q /\ (0 < q <= 1)%Q) (k_vertices K) values)
  Ks (snd (normalised_degrees Ks)).
Proof.
  intros Ks HG. unfold normalised_degrees.
  assert (G : forall Ks z acc, Forall a_graph Ks -> (z <= 1)%Z -> exists rs, snd (fold_left normalise_step Ks (inject_Z z, acc)) = acc ++ rs /\
    Forall2 (fun K values => exists m, largest_degree [K] m /\
      Forall2 (fun v x => exists q, x = Some q /\ (q == inject_Z (Z.of_nat (degree_of (by_index K) v)) / inject_Z m)%Q /\ (0 < q <= 1)%Q) (k_vertices K) values) Ks rs).
  { clear. induction Ks as [|K Ks IH]; intros z acc HG Hz; cbn [fold_left].
    - exists []. rewrite app_nil_r. split; [reflexivity|constructor].
    - pose proof (Forall_inv HG) as HK. apply Forall_inv_tail in HG. unfold normalise_step at 2. cbn [fst snd]. change 1%Q with (inject_Z 1).
      destruct (IH 1%Z (acc ++ [map (fun d => quotient d (q_update (inject_Z z) (degrees K))) (degrees K)]) HG (Z.le_refl _)) as (rs & E & F). exists (map (fun d => quotient d (q_update (inject_Z z) (degrees K))) (degrees K) :: rs). rewrite E, <- app_assoc. split; [reflexivity|]. constructor; [|exact F].
      rewrite q_update_Z. destruct (update_spec z (map Z.of_nat (degrees K))) as (U1 & U2 & U3). set (m := update_maximum z (map Z.of_nat (degrees K))) in *. clearbody m. rewrite (proj1 (graph_vertices K HK)) in *.
      assert (Hm : forall v, In v (k_vertices K) -> (Z.of_nat (degree_of (by_index K) v) <= m)%Z) by (intros v Hv; apply U2, in_map, in_map, Hv).
      destruct (graph_vertex K HK) as (v0 & Hv0). pose proof (degree_positive K v0 HK Hv0). pose proof (Hm v0 Hv0).
      exists m. split.
      + split; [intros L v [<-|[]] Hv; exact (Hm v Hv)|]. intros _. destruct U3 as [U3|U3]; [exists K, v0; split; [left; reflexivity|]; split; [exact Hv0|lia]|].
        apply in_map_iff in U3. destruct U3 as (d & Ed & Hd). apply in_map_iff in Hd. destruct Hd as (v & <- & Hv). exists K, v. split; [left; reflexivity|auto].
      + assert (Hp : forall v, In v (k_vertices K) -> 1 <= degree_of (by_index K) v) by (intros v Hv; apply degree_positive; assumption). assert (P : (0 < m)%Z) by lia. clear - Hm Hp P. rewrite map_map. induction (k_vertices K) as [|v vs IH]; cbn [map]; constructor.
        * unfold quotient. destruct (Qeq_bool (inject_Z m) 0) eqn:Eq; [apply Qeq_bool_eq in Eq; unfold Qeq in Eq; cbn in Eq; lia|]. eexists. split; [reflexivity|]. split; [reflexivity|].
          specialize (Hm v (or_introl eq_refl)). specialize (Hp v (or_introl eq_refl)). assert (Pm : (0 < inject_Z m)%Q) by (unfold Qlt; cbn; lia). split.
          -- apply Qlt_shift_div_l; [exact Pm|]. rewrite Qmult_0_l. unfold Qlt. cbn. lia.
          -- apply Qle_shift_div_r; [exact Pm|]. rewrite Qmult_1_l. unfold Qle. cbn. lia.
        * apply IH; intros u Hu; [apply Hm|apply Hp]; right; exact Hu. }
  destruct (G Ks 0%Z [] HG) as (rs & E & F); [lia|]. change (inject_Z 0) with 0%Q in E. rewrite E. exact F.
Qed.

(** ** Centrality *)
Definition finite_sum (es : list ext) : Z := fold_right (fun e x => match e with Fin d => d + x | Inf => x end)%Z 0%Z es.
(** the length of a shortest walk between vertices *)
Definition distance_of (L : list simplex) (u v : nat) (e : ext) : Prop :=
  match e with
  | Fin d => walk L 1 u v d /\ forall d', walk L 1 u v d' -> (d <= d')%Z
  | Inf => forall d, ~ walk L 1 u v d
  end.
Lemma row_sum_spec M i (P : nat -> ext -> Prop) : forall vs j0 s, (forall j v, nth_error vs j = Some v -> exists e, sm_get M i (j0 + j) = Ok e /\ P v e) ->
  exists es, Forall2 P vs es /\ foldM (fun s j => let* e := sm_get M i j in Ok (match e with Fin x => (s + x)%Z | Inf => s end)) (seq j0 (length vs)) s = Ok (s + finite_sum es)%Z.
Proof.
  induction vs as [|v vs IH]; intros j0 s H.
  - exists []. split; [constructor|]. cbn. rewrite Z.add_0_r. reflexivity.
  - destruct (H 0 v eq_refl) as (e & E & Pe). rewrite Nat.add_0_r in E. destruct (IH (S j0) (match e with Fin x => (s + x)%Z | Inf => s end)) as (es & F & Ef).
    { intros j w Hj. destruct (H (S j) w Hj) as (e' & E' & P'). rewrite Nat.add_succ_r in E'. exists e'. auto. }
    exists (e :: es). split; [constructor; assumption|]. cbn [length seq foldM]. rewrite E. cbn [bind]. rewrite Ef. f_equal. destruct e; cbn [finite_sum fold_right]; unfold finite_sum; lia.
Qed.
Lemma order_sorted L : (forall s, In s L -> wf s) -> NoDup (map verts L) -> StronglySorted (fun a b => s_ltb b a = false) L -> StronglySorted lt (vertex_order L).
Proof.
  intros W N S. induction S as [|s L S IH F]; [constructor|]. unfold vertex_order. cbn [flat_map]. fold (vertex_order L). cbn [map] in N. inversion N as [|? ? Hn N']; subst.
  assert (I : StronglySorted lt (vertex_order L)) by (apply IH; [intros; apply W; right; assumption|exact N']). destruct (verts s) as [|v [|w r]] eqn:Ev; cbn [app]; try exact I. constructor; [exact I|].
  apply Forall_forall. intros u Hu. apply in_flat_map in Hu. destruct Hu as (t & Ht & Hu). destruct (verts t) as [|u' [|w r]] eqn:Et; try destruct Hu as []; [subst u'|contradiction]. rewrite Forall_forall in F. specialize (F t Ht). cbn beta in F. unfold s_ltb in F. rewrite Ev, Et in F. cbn [lex_ltb] in F.
  assert (u <> v) by (intros ->; apply Hn; rewrite <- Et; apply in_map, Ht).
  destruct (Nat.ltb_spec u v) as [X|X]; [discriminate|lia].
Qed.
Lemma joined_permutation L L' w u v x : Permutation L L' -> joined L w u v x -> joined L' w u v x.
Proof. intros P (s & Hs & H). exists s. split; [exact (Permutation_in _ P Hs)|exact H]. Qed.
Lemma walk_permutation L L' w u v d : Permutation L L' -> walk L w u v d -> walk L' w u v d.
Proof. intro P. induction 1 as [u|u v t x d J _ IH]; [constructor|]. econstructor; [exact (joined_permutation _ _ _ _ _ _ P J)|exact IH]. Qed.
(** The centrality of a vertex is the number of vertices divided by the sum of its distances to the vertices that can be
    reached; values are in the order of the vertices. *)
Theorem C158_centrality : forall K, reachable K -> closed (by_index K) -> (forall s, In s (by_index K) -> 0 <= data s)%Z ->
  exists L cc, store_centrality K = Ok (L, cc) /\ Permutation (by_index L) (by_index K) /\
  Forall2 (fun u c => exists es, Forall2 (distance_of (by_index K) u) (k_vertices K) es /\
    (finite_sum es = 0%Z -> c = None) /\
    (finite_sum es <> 0%Z -> exists q, c = Some q /\ (q * inject_Z (finite_sum es) == inject_Z (Z.of_nat (length (k_vertices K))))%Q)) (k_vertices K) cc.
Proof.
  intros K HR HC HD. unfold store_centrality. set (L := k_sort_default K).
  assert (P : Permutation (by_index L) (by_index K)) by apply cpp_sort_perm.
  assert (RL : reachable L) by (apply sort_reachable, HR). pose proof (reachable_kwf _ RL) as WL. pose proof (reachable_kwf _ HR) as WK.
  assert (CL : closed (by_index L)) by (intros s vs Hs Hn Sub; apply (has_perm _ _ vs P); apply (HC s vs (Permutation_in _ P Hs) Hn Sub)).
  destruct (C29_shortest_walks L 1 RL CL) as (M & EM & ER & HM).
  { intros u v x (s & Hs & _ & _ & ->). specialize (HD s (Permutation_in _ P Hs)). destruct (data s =? 0)%Z; lia. }
  assert (EV : vertex_order (by_index L) = k_vertices K).
  { destruct (vertices_spec K WK) as [HVs HV]. apply SSlt_ext; [|exact HVs|].
    - apply order_sorted; [intros s Hs; apply (kwf_good L WL s Hs)|apply (kwf_nodup L WL)|]. apply (cpp_sort_sorted s_ltb (by_index K) s_ltb_swo).
    - intro v. rewrite HV. unfold vertex_order. rewrite in_flat_map. split.
      + intros (s & Hs & Hv). exists s. split; [exact (Permutation_in _ P Hs)|]. destruct (verts s) as [|w [|x r]]; try destruct Hv as []; [subst; reflexivity|contradiction].
      + intros (s & Hs & Ev). exists s. split; [exact (Permutation_in _ (Permutation_sym P) Hs)|]. rewrite Ev. left. reflexivity. }
  rewrite EV in *. unfold closenessCentrality. rewrite EM. cbn [bind]. rewrite ER.
  assert (D : forall i j u v, nth_error (k_vertices K) i = Some u -> nth_error (k_vertices K) j = Some v -> exists e, sm_get M i j = Ok e /\ distance_of (by_index K) u v e).
  { intros i j u v Hi Hj. destruct (HM i j u v Hi Hj) as (e & E & He). exists e. split; [exact E|]. unfold distance_of. destruct e as [d|].
    - destruct He as [H1 H2]. split; [exact (walk_permutation _ _ _ _ _ _ P H1)|]. intros d' H. apply H2. exact (walk_permutation _ _ _ _ _ _ (Permutation_sym P) H).
    - intros d H. apply (He d). exact (walk_permutation _ _ _ _ _ _ (Permutation_sym P) H). }
  set (n := length (k_vertices K)).
  assert (G : forall us i0 acc, (forall k u, nth_error us k = Some u -> nth_error (k_vertices K) (i0 + k) = Some u) -> exists cc,
    foldM (fun r i => let* s := row_sum M n i in Ok (r ++ [centrality n s])) (seq i0 (length us)) acc = Ok (acc ++ cc) /\
    Forall2 (fun u c => exists es, Forall2 (distance_of (by_index K) u) (k_vertices K) es /\
      (finite_sum es = 0%Z -> c = None) /\ (finite_sum es <> 0%Z -> exists q, c = Some q /\ (q * inject_Z (finite_sum es) == inject_Z (Z.of_nat n))%Q)) us cc).
  { induction us as [|u us IH]; intros i0 acc H; cbn [length seq foldM].
    - exists []. rewrite app_nil_r. split; [reflexivity|constructor].
    - pose proof (H 0 u eq_refl) as Hu. rewrite Nat.add_0_r in Hu. destruct (row_sum_spec M i0 (distance_of (by_index K) u) (k_vertices K) 0 0%Z) as (es & F & E).
      { intros j v Hj. cbn [plus]. exact (D i0 j u v Hu Hj). }
      unfold row_sum at 1. fold n in E. rewrite E. cbn [bind]. rewrite Z.add_0_l.
      destruct (IH (S i0) (acc ++ [centrality n (finite_sum es)])) as (cc & -> & FF). { intros k w Hk. rewrite <- (H (S k) w Hk). f_equal. lia. }
      exists (centrality n (finite_sum es) :: cc). rewrite <- app_assoc. split; [reflexivity|]. constructor; [|exact FF]. exists es. split; [exact F|]. unfold centrality. split.
      + intros ->. reflexivity.
      + intro Hne. destruct (Z.eqb_spec (finite_sum es) 0) as [X|_]; [contradiction|]. eexists. split; [reflexivity|]. field. intro X. apply Hne. unfold Qeq in X. cbn in X. lia. }
  destruct (G (k_vertices K) 0 []) as (cc & E & FF); [intros k u Hk; exact Hk|]. cbn [app] in E. exists L, cc. fold n in E. rewrite E. cbn [bind]. split; [reflexivity|]. split; [exact P|exact FF].
Qed.

(** ** Findings *)
Definition path_graph : complex := mk [PushBack [0] 0; PushBack [1] 0; PushBack [2] 0; PushBack [0; 1] 0; PushBack [1; 2] 0].
Definition cycle_graph : complex := mk [PushBack [0] 0; PushBack [1] 0; PushBack [2] 0; PushBack [0; 1] 0; PushBack [1; 2] 0; PushBack [0; 2] 0].
Lemma path_is_graph : a_graph path_graph.
Proof.
  refine (conj (mk_reachable _) (conj _ (conj _ _))).
  - apply closed_check; [apply mk_reachable|vm_compute; reflexivity].
  - intros s v Hs E. assert (Hb : forall s, In s (by_index path_graph) -> length (verts s) = 1 -> existsb (fun e => (2 <=? length (verts e)) && existsb (Nat.eqb (hd 0 (verts s))) (verts e)) (by_index path_graph) = true).
    { intros t Ht. vm_compute in Ht. do 5 (destruct Ht as [<-|Ht]; [vm_compute; intro X; try discriminate X; reflexivity|]). destruct Ht. }
    specialize (Hb s Hs). rewrite E in Hb. specialize (Hb eq_refl). apply existsb_exists in Hb. destruct Hb as (e & He & B). apply andb_true_iff in B. destruct B as [B1 B2]. apply Nat.leb_le in B1. apply existsb_exists in B2. destruct B2 as (w & Hw & Ew). apply Nat.eqb_eq in Ew. cbn [hd] in Ew. subst w. exists e. auto.
  - vm_compute. discriminate.
Qed.
(** what is written for a list of graphs, for dimensions up to two *)
Definition written (dimension : nat) (sum superlevel : bool) (Ks : list complex) : option (list (list (option (list point)))) :=
  match degree_diagrams (fun l => l) (-1000) 1000 1000 (fun l => l) AStandard dimension sum superlevel 2 Ks with Ok fs => Some (map (fun f => map f [0; 1; 2]) fs) | _ => None end.

(** FINDING: superlevel sets are sorted in ascending order: an edge precedes one of its vertices, and features are
    destroyed before they are created.  The correct diagram has a single point that is created at degree 2. *)
Theorem C158_superlevel_refuted : exists K L, a_graph K /\ assign_degrees (-1000) 1000 false true K (graph_degrees K) = Ok L /\
  ~ filtration_order (by_index (sort_degrees true L)) /\ written 0 false true [K] = Some [[Some [(1, 4); (2, 1)]; Some []; None]]%Z.
Proof.
  exists path_graph. eexists. refine (conj path_is_graph (conj _ (conj _ _))); [vm_compute; reflexivity| |vm_compute; reflexivity].
  intro F. assert (X : 4 < 2); [|lia]. eapply (F 2 4); [vm_compute; reflexivity|vm_compute; reflexivity|]. split.
  - intros v [<-|[]]. vm_compute. tauto.
  - intro H. assert (Y : In 0 [1]) by (apply H; right; left; reflexivity). destruct Y as [Y|[]]. discriminate.
Qed.
(** FINDING: with sums of degrees, features that are never destroyed are written with a destruction value that does not
    exceed their creation value: the cycle of a triangle gets persistence zero. *)
Theorem C158_sum_refuted : written 0 true false [cycle_graph] = Some [[Some [(2, 4); (2, 4); (2, 4)]; Some [(4, 4)]; None]]%Z.
Proof. vm_compute. reflexivity. Qed.
(** FINDING: a graph without edges is an empty complex; it ends the calculation for all graphs. *)
Theorem C158_empty_refuted : forall order lowest highest inf horder a dimension sum superlevel factor Ks K Ls, (forall l, Permutation (order l) l) -> (forall L, In L (Ks ++ K :: Ls) -> reachable L) ->
  (forall L, In L Ks -> by_index L <> []) -> by_index K = [] ->
  degree_diagrams order lowest highest inf horder a dimension sum superlevel factor (Ks ++ K :: Ls) = Throw RuntimeError.
Proof.
  intros order lowest highest inf horder a dimension sum superlevel factor Ks K Ls Ho HR Hne HK. unfold degree_diagrams. rewrite expand_same by assumption. cbn [bind]. unfold maximum_dimension. rewrite foldM_app.
  destruct (maximum_dimension_spec Ks) as (n & E & _); [intros L HL; split; [apply HR, in_or_app; left; exact HL|exact (Hne L HL)]|]. unfold maximum_dimension in E. rewrite E. cbn [bind foldM].
  rewrite (proj1 (dimension_spec K (reachable_kwf _ (HR K (in_elt K Ks Ls)))) HK). reflexivity.
Qed.
(** FINDING: an isolated vertex has no entry in the list of degrees, which is read out of bounds. *)
Theorem C158_isolated_refuted : forall lowest highest K, reachable K -> closed (by_index K) ->
  (exists s v, In s (by_index K) /\ verts s = [v] /\ forall e, In e (by_index K) -> In v (verts e) -> length (verts e) <= 1) ->
  assign_degrees lowest highest false false K (graph_degrees K) = UB.
Proof.
  intros lowest highest K HR HC (s & v & Hs & Ev & Hi). unfold assign_degrees. apply C27_missing_values; [exact HR|]. unfold graph_degrees. rewrite map_length.
  destruct (C51_degrees K HR) as (vs & A & B & ->). rewrite map_length. destruct (vertices_spec K (reachable_kwf _ HR)) as [HVs HV].
  assert (Hv : In v (k_vertices K)) by (apply HV; exists s; auto).
  assert (Hnv : ~ In v vs) by (intro X; apply B in X; destruct X as (e & He & Le & Hve); specialize (Hi e He Hve); lia).
  assert (I : incl (v :: vs) (k_vertices K)).
  { intros u [<-|Hu]; [exact Hv|]. apply B in Hu. destruct Hu as (e & He & _ & Hue). destruct (HC e [u]) as (t & Ht & Et); auto; [discriminate|intros x [<-|[]]; auto|].
    apply HV. exists t. split; [exact Ht|]. destruct (kwf_good K (reachable_kwf _ HR) t Ht) as [Hw _]. change [u] with (verts (Simplex [u] 0)). apply wf_ext; auto. repeat constructor. }
  apply NoDup_incl_length in I; [cbn [length] in I; lia|]. constructor; [exact Hnv|apply SSlt_NoDup, A].
Qed.

Example C158_example :
  written 0 false false [path_graph; cycle_graph] = Some [[Some [(1, 4); (1, 2)]; Some []; None]; [Some [(2, 4)]; Some [(2, 4)]; None]]%Z /\
  written 2 false false [path_graph; cycle_graph] = written 0 false false [path_graph; cycle_graph] /\
  written 0 true false [path_graph] = Some [[Some [(1, 4); (1, 3); (2, 3)]; Some []; None]]%Z /\
  Forall2 (Forall2 (fun x q => match x with Some r => (r == q)%Q | None => False end)) (snd (normalised_degrees [path_graph; cycle_graph])) [[(1 # 2); 1; (1 # 2)]; [1; 1; 1]]%Q.
Proof. refine (conj _ (conj _ (conj _ _))); [vm_compute; reflexivity|vm_compute; reflexivity|vm_compute; reflexivity|repeat constructor]. Qed.
Example C158_centrality_example : match store_centrality (mk [PushBack [4] 0; PushBack [1] 0; PushBack [2] 0; PushBack [3] 0; PushBack [0] 0; PushBack [0; 1] 0; PushBack [1; 2] 0]) with
  | Ok (_, [Some a; Some b; Some c; None; None]) => (a == 5 # 3 /\ b == 5 # 2 /\ c == 5 # 3)%Q | _ => False end.
Proof. vm_compute. repeat split. Qed.

Print Assumptions C158_filtration.
Print Assumptions C158_files.
Print Assumptions C158_normalised.
Print Assumptions C158_centrality.
Print Assumptions C158_isolated_refuted.
