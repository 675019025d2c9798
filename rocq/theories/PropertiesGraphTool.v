(** * C164: degree filtrations of graphs and clique complexes. *)
From Coq Require Import String Ascii.
From Coq Require Import List Arith Bool ZArith Lia Permutation Sorted.
From Verif Require Import Base BaseFacts Matrix SpecMatrix Simplex SimplexFacts SpecComplex Complex ComplexFacts ClosureFacts FiltrationFacts
  History Subcomplex SubcomplexFacts PropertiesComplex SpecRips Rips RipsFacts WeightFacts PropertiesRips
  Diagram SpecHomology SpecDiagram PropertiesDiagram HomologyFacts PropertiesComponents PropertiesDowker PropertiesVietorisRips BarycentricFacts
  PropertiesDiagramDims PairingFacts DualFacts LoadMatrix StringUtilities ReadMatrices ReadEdges PropertiesReadEdges SparseTool PropertiesSparseTool GraphTool.
Import ListNotations.
Local Open Scope list_scope.
Local Open Scope nat_scope.

(** ** Specification *)
(** the vertex sets of the complex that is analysed: the graph itself, or its cliques *)
Definition analysed (dimension : option nat) (L : list simplex) (vs : list nat) : Prop :=
  match dimension with
  | None => has L vs
  | Some d => clique L vs /\ length vs <= S d /\ forall v, In v vs -> has L [v]
  end.
(** the value of a simplex: the largest degree of its vertices; vertices may be set to zero *)
Definition graph_data (zero : bool) (L : list simplex) (s : simplex) : Prop :=
  if zero && (length (verts s) =? 1) then data s = 0%Z
  else is_max_over (fun v => Z.of_nat (degree_of L v)) (verts s) (data s).
(** the lines of all files of a dimension *)
Definition lines_of (files : list (nat * list point)) (d : nat) : list point :=
  flat_map (fun f => if fst f =? d then snd f else []) files.

(** ** Vertices of weight zero *)
Definition zeroed (s : simplex) : simplex := if length (verts s) =? 1 then set_data s 0%Z else s.
Lemma zeroed_verts s : verts (zeroed s) = verts s.
Proof. unfold zeroed. destruct (_ =? 1); reflexivity. Qed.

Lemma replace_reachable K i s : reachable K -> wf s -> reachable (fst (k_replace K i s)).
Proof.
  intros (lo & hi & h & ->) W. exists lo, hi, (h ++ [Replace i (verts s) (data s)]). unfold k_run. rewrite fold_left_app. cbn [fold_left k_exec].
  assert (E : simplex_of (verts s) (data s) = s).
  { pose proof (simplex_of_id s (data s) W) as E. destruct s as [vs d]. unfold simplex_of in *. cbn [verts data] in *. rewrite E. reflexivity. }
  rewrite E. destruct (k_replace _ i s) as [K' r]. reflexivity.
Qed.

Lemma zero_step_ok a b s L : reachable L -> by_index L = a ++ s :: b -> exists L', zero_step L (length a) = Ok L' /\ reachable L' /\ by_index L' = a ++ zeroed s :: b.
Proof.
  intros HL HI. pose proof (reachable_kwf L HL) as HK. assert (En : nth_error (by_index L) (length a) = Some s).
  { rewrite HI, nth_error_app2, Nat.sub_diag by lia. reflexivity. }
  assert (Hs : good s) by (apply (kwf_good L HK); eapply nth_error_In; exact En).
  unfold zero_step, get_. rewrite En. cbn [bind]. unfold sdim, zeroed. destruct (verts s) as [|v [|u r]] eqn:Ev; [destruct Hs; congruence| |].
  - cbn [length Nat.sub Nat.eqb].
    assert (EK : k_replace L (length a) (set_data s 0) = (Complex (upd (by_index L) (length a) (set_data s 0)) (dim_replace s (set_data s 0) (by_dim L)), Ok true)).
    { unfold k_replace. rewrite En. assert (Eq : s_eqb s (set_data s 0) = true) by (apply s_eqb_eq; reflexivity). rewrite Eq. cbn [negb andb].
      unfold s_dimension. cbn [set_data verts]. rewrite Ev. reflexivity. }
    pose proof (replace_reachable L (length a) (set_data s 0) HL (proj1 Hs)) as HR. rewrite EK in HR |- *. cbn [bind fst] in *. eexists. split; [reflexivity|]. split; [exact HR|].
    cbn [by_index]. rewrite HI.
    assert (U : forall (a : list simplex) x y b, upd (a ++ x :: b) (length a) y = a ++ y :: b).
    { clear. induction a as [|z a IH]; intros x y b; cbn [app length upd]; [reflexivity|]. rewrite IH. reflexivity. }
    apply U.
  - cbn [length Nat.sub Nat.eqb]. eexists. split; [reflexivity|]. auto.
Qed.

Lemma zero_vertices_ok K : reachable K -> exists L, zero_vertices K = Ok L /\ reachable L /\ by_index L = map zeroed (by_index K).
Proof.
  intro HR. unfold zero_vertices.
  assert (G : forall b a L, by_index L = a ++ b -> reachable L -> exists L', foldM zero_step (seq (length a) (length b)) L = Ok L' /\ reachable L' /\ by_index L' = a ++ map zeroed b).
  { induction b as [|s b IH]; intros a L HI HL; cbn [length seq foldM map].
    - exists L. auto.
    - destruct (zero_step_ok a b s L HL HI) as (L1 & E1 & R1 & I1). rewrite E1. cbn [bind].
      destruct (IH (a ++ [zeroed s]) L1) as (L' & E & R & I); [rewrite <- app_assoc; exact I1|exact R1|]. rewrite app_length, Nat.add_1_r in E. exists L'. refine (conj E (conj R _)).
      rewrite I, <- app_assoc. reflexivity. }
  apply (G (by_index K) [] K eq_refl HR).
Qed.

(** ** the filtration *)
Lemma max_degree_spec ds : (forall d, In d ds -> d <= max_degree ds)%Z /\ (ds <> [] -> In (max_degree ds) ds).
Proof.
  destruct ds as [|d ds]; [split; [intros d []|congruence]|]. cbn [max_degree].
  destruct (update_spec d ds) as (A & B & C). assert (E : forall l a, fold_left Z.max l a = Z.max a (fold_left Z.max l a)).
  { clear. intros l a. assert (H : (a <= fold_left Z.max l a)%Z); [|lia]. revert a. induction l as [|b l IH]; intro a; cbn [fold_left]; [lia|]. specialize (IH (Z.max a b)). lia. }
  assert (G : forall l a, (forall x, In x l -> x <= fold_left Z.max l a)%Z /\ (fold_left Z.max l a = a \/ In (fold_left Z.max l a) l)).
  { clear. induction l as [|b l IH]; intro a; cbn [fold_left]; [split; [intros x []|auto]|]. destruct (IH (Z.max a b)) as [H1 H2]. split.
    - intros x [<-|Hx]; [|exact (H1 x Hx)]. assert (Y : (Z.max a b <= fold_left Z.max l (Z.max a b))%Z); [|lia]. clear. generalize (Z.max a b). induction l as [|c l IH]; intro z; cbn [fold_left]; [lia|]. specialize (IH (Z.max z c)). lia.
    - destruct H2 as [H2|H2]; [|right; right; exact H2]. destruct (Z.max_spec a b) as [[_ X]|[_ X]]; rewrite X in H2 at 2; [right; left; auto|auto]. }
  destruct (G ds d) as [H1 H2]. split.
  - intros x [<-|Hx]; [|exact (H1 x Hx)]. rewrite E. lia.
  - intros _. destruct H2 as [->|H2]; [left; reflexivity|right; exact H2].
Qed.

Lemma expansion_ok order dimension K : (forall l, Permutation (order l) l) -> a_graph K ->
  exists L, match dimension with None => Ok K | Some d => ripsExpander order K d end = Ok L /\ reachable L /\ closed (by_index L) /\
    (forall vs, NoDup vs -> vs <> [] -> (has (by_index L) vs <-> analysed dimension (by_index K) vs)) /\ k_vertices L = k_vertices K.
Proof.
  intros Ho (HR & HC & HI & Hne). destruct dimension as [d|].
  2: { exists K. refine (conj eq_refl (conj HR (conj HC (conj _ eq_refl)))). intros; reflexivity. }
  assert (He : forall u v, has (by_index K) [u; v] -> has (by_index K) [u]).
  { intros u v (s & Hs & E). apply (HC s [u] Hs); [discriminate|]. intros x [<-|[]]. apply E. left. reflexivity. }
  destruct (C25_clique_complex order K d Ho HR He) as (L & E & CL & H2 & H1). destruct (C25_expansion order K d Ho HR) as (L' & E' & RL & _). rewrite E in E'. injection E' as <-.
  exists L. refine (conj E (conj RL (conj CL (conj _ _)))).
  - intros vs Hn Hv. cbn [analysed]. destruct vs as [|u [|w vs]]; [congruence| |].
    + rewrite H1. split; [|intros (_ & _ & H); apply H; left; reflexivity]. intro H. refine (conj _ (conj _ _)); [intros a b [<-|[]] [<-|[]] X; congruence|cbn; lia|intros v [<-|[]]; exact H].
    + rewrite H2 by (cbn; auto with arith; lia). split; [|tauto]. intros [Hc Hl]. refine (conj Hc (conj Hl _)). intros v Hv'.
      assert (X : exists v', In v' (u :: w :: vs) /\ v' <> v).
      { inversion Hn as [|? ? N1 N2]; subst. destruct (Nat.eq_dec u v) as [->|X]; [exists w|exists u; simpl; auto]. split; [simpl; auto|]. intros ->. apply N1. left. reflexivity. }
      destruct X as (v' & Hv'' & Hd). apply (He v v'). apply Hc; auto.
  - destruct (vertices_spec K (reachable_kwf _ HR)) as [S1 V1]. destruct (vertices_spec L (reachable_kwf _ RL)) as [S2 V2]. apply SSlt_ext; [exact S2|exact S1|].
    assert (G : forall K0 v, reachable K0 -> (has (by_index K0) [v] <-> exists s, In s (by_index K0) /\ verts s = [v])).
    { intros K0 v R0. split; intros (s & Hs & X); exists s; (split; [exact Hs|]); [|rewrite X; intro; reflexivity].
      change [v] with (verts (Simplex [v] 0)). apply wf_ext; [apply (kwf_good K0 (reachable_kwf _ R0) s Hs)|repeat constructor|exact X]. }
    intro v. rewrite V1, V2, <- (G L v RL), <- (G K v HR). apply H1.
Qed.

Theorem C164_filtration : forall order dimension zero K, (forall l, Permutation (order l) l) -> a_graph K ->
  exists m L, (let* (m, K) := degree_graph order dimension K in let* K := if zero : bool then zero_vertices K else Ok K in Ok (m, k_sort data_cmp K)) = Ok (m, L) /\
    largest_degree [K] m /\
    reachable L /\ closed (by_index L) /\ filtration_order (by_index L) /\ ascending_data (by_index L) /\ NoDup (map verts (by_index L)) /\
    (forall vs, NoDup vs -> vs <> [] -> (has (by_index L) vs <-> analysed dimension (by_index K) vs)) /\
    forall s, In s (by_index L) -> graph_data zero (by_index K) s.
Proof.
  intros order dimension zero K Ho HG. pose proof HG as (HR & HC & HI & Hne). destruct (graph_vertices K HG) as [ED Hall].
  set (g := fun v => Z.of_nat (degree_of (by_index K) v)).
  assert (EV : map Z.of_nat (degrees K) = map g (k_vertices K)) by (rewrite ED, map_map; reflexivity).
  destruct (expansion_ok order dimension K Ho HG) as (X & EX & RX & CX & HX & VX).
  destruct (assign_general X (map Z.of_nat (degrees K)) 0%Z Z.max RX CX) as (S & ES & RS & VS & DS); [rewrite EV, map_length, VX; lia|].
  destruct (vertices_spec X (reachable_kwf _ RX)) as [HVs HV].
  assert (HallX : forall s v, In s (by_index X) -> In v (verts s) -> In v (k_vertices X)).
  { intros s v Hs Hv. destruct (CX s [v]) as (t & Ht & Et); auto; [discriminate|intros x [<-|[]]; auto|].
    apply HV. exists t. split; auto. destruct (kwf_good X (reachable_kwf _ RX) t Ht) as [Hw _].
    change [v] with (verts (Simplex [v] 0)). apply wf_ext; auto. repeat constructor. }
  assert (N : forall v, In v (k_vertices X) -> nth (rank (k_vertices X) v) (map Z.of_nat (degrees K)) 0%Z = g v).
  { intros v Hv. rewrite EV, <- VX, (nth_indep _ 0%Z (g 0)) by (rewrite map_length; apply rank_lt, Hv). rewrite map_nth, rank_nth; auto. }
  assert (WS : kwf S) by (apply reachable_kwf, RS).
  assert (DD : forall s, In s (by_index S) -> is_max_over g (verts s) (data s)).
  { intros s Hs. assert (Y : In (verts s) (map verts (by_index X))) by (rewrite <- VS; apply in_map, Hs). apply in_map_iff in Y. destruct Y as (t & Et & Ht). specialize (DS s Hs).
    rewrite (fold_ext_in _ (fun d v => Z.max d (g v))) in DS by (intros d v Hv; rewrite N; [reflexivity|apply (HallX t v Ht); rewrite Et; exact Hv]).
    destruct (max_fold g (verts s) 0%Z) as (A & B & C). rewrite <- DS in *. split; [|intros v Hv; exact (B v Hv)]. destruct C as [C|(v & Hv & C)]; [|exists v; auto].
    destruct (verts s) as [|v vs] eqn:Ev; [destruct (kwf_good S WS s Hs) as [_ Z]; congruence|]. exists v. split; [left; reflexivity|]. specialize (B v (or_introl eq_refl)). assert (0 <= g v)%Z by apply Nat2Z.is_nonneg. lia. }
  assert (Z1 : exists T, (if zero then zero_vertices S else Ok S) = Ok T /\ reachable T /\ by_index T = map (fun s => if zero then zeroed s else s) (by_index S)).
  { destruct zero; [apply zero_vertices_ok, RS|]. exists S. rewrite map_id. auto. }
  destruct Z1 as (T & ET & RT & IT). assert (WT : kwf T) by (apply reachable_kwf, RT).
  assert (VT : map verts (by_index T) = map verts (by_index S)).
  { rewrite IT, map_map. apply map_ext. intro s. destruct zero; [apply zeroed_verts|reflexivity]. }
  assert (DT : forall s, In s (by_index T) -> graph_data zero (by_index K) s).
  { intros s Hs. rewrite IT in Hs. apply in_map_iff in Hs. destruct Hs as (t & <- & Ht). specialize (DD t Ht). unfold graph_data, zeroed. destruct zero; cbn [andb]; [|exact DD].
    destruct (length (verts t) =? 1) eqn:El; cbn [verts set_data]; rewrite El; [reflexivity|exact DD]. }
  assert (MT : monotone (by_index T)).
  { intros s t Hs Ht Sub. pose proof (DT s Hs) as Ds. pose proof (DT t Ht) as Dt. unfold graph_data in Ds, Dt. fold g in Ds, Dt.
    destruct (kwf_good T WT s Hs) as [W1 N1]. destruct (kwf_good T WT t Ht) as [W2 N2].
    assert (P0 : (0 <= data s)%Z). { destruct (zero && _); [lia|]. destruct Ds as [(v & _ & <-) _]. apply Nat2Z.is_nonneg. }
    destruct (zero && (length (verts t) =? 1)) eqn:E2; [lia|]. destruct (zero && (length (verts s) =? 1)) eqn:E1.
    - exfalso. apply andb_true_iff in E1. destruct E1 as [-> E1]. cbn [andb] in E2. apply Nat.eqb_eq in E1. apply Nat.eqb_neq in E2.
      assert (length (verts t) <= length (verts s)) by (apply NoDup_incl_length; [apply SSgt_NoDup, W2|exact Sub]). destruct (verts t) as [|? [|]]; cbn [length] in *; try lia. congruence.
    - destruct Dt as [(v & Hv & <-) _]. apply (proj2 Ds), Sub, Hv. }
  assert (P : Permutation (by_index (k_sort data_cmp T)) (by_index T)) by apply cpp_sort_perm.
  assert (HT : forall vs, has (by_index (k_sort data_cmp T)) vs <-> has (by_index X) vs).
  { intro vs. rewrite (has_perm _ _ vs P), (has_verts_eq _ _ vs VT). apply (has_verts_eq _ _ vs VS). }
  exists (max_degree (map Z.of_nat (degrees K))), (k_sort data_cmp T).
  refine (conj _ (conj _ (conj (sort_reachable data_cmp _ RT) (conj _ (conj (filtration_data T WT MT) (conj _ (conj _ (conj _ _)))))))).
  - unfold degree_graph. rewrite EX. cbn [bind]. unfold assignMaximumData. rewrite ES. cbn [bind]. rewrite ET. reflexivity.
  - destruct (max_degree_spec (map Z.of_nat (degrees K))) as [M1 M2]. rewrite EV in *. split.
    + intros K0 v [<-|[]] Hv. apply M1. apply in_map_iff. exists v. auto.
    + intros _. destruct (graph_vertex K HG) as (v0 & Hv0). assert (Y : In (max_degree (map g (k_vertices K))) (map g (k_vertices K))) by (apply M2; destruct (k_vertices K); [destruct Hv0|discriminate]).
      apply in_map_iff in Y. destruct Y as (v & Ev & Hv). exists K, v. split; [left; reflexivity|]. split; [exact Hv|exact Ev].
  - intros s vs Hs Hn Sub. apply HT. assert (Y : In (verts s) (map verts (by_index X))) by (rewrite <- VS, <- VT; apply in_map, (Permutation_in _ P Hs)).
    apply in_map_iff in Y. destruct Y as (t & Et & Ht). apply (CX t vs Ht Hn). rewrite Et. exact Sub.
  - intros i j s t Hij Hi Hj. refine (sorted_by_value data_cmp data (by_index T) data_cmp_swo _ i j s t Hij Hi Hj).
    intros s' t' E. unfold data_cmp in E. destruct (Z.eqb_spec (data t') (data s')); [lia|]. apply Z.ltb_ge in E. lia.
  - apply kwf_nodup, reachable_kwf, sort_reachable, RT.
  - intros vs Hn Hv. rewrite HT. apply HX; assumption.
  - intros s Hs. apply DT, (Permutation_in _ P Hs).
Qed.

(** ** Files *)
Lemma lines_alive inf factor m ds d x y : (x <= y)%Z -> (y < inf)%Z -> (0 < factor -> y < (factor * m) mod 2 ^ 32)%Z ->
  alive (lines_of (map (graph_file inf factor m) ds) d) x y = length (filter (fun q => (fst q <=? x)%Z && (y <? snd q)%Z) (points_of ds d)).
Proof.
  intros Hxy Hy Hm. unfold alive, lines_of, points_of.
  assert (L1 : forall l, length (filter (fun p : point => (fst p <=? x)%Z && (y <? snd p)%Z) (map (graph_line inf factor m) l)) = length (filter (fun q : point => (fst q <=? x)%Z && (y <? snd q)%Z) l)).
  { induction l as [|p l IH]; [reflexivity|]. cbn [map filter]. unfold graph_line at 1 2. destruct (isUnpaired inf p && (0 <? factor)%Z) eqn:E.
    - apply andb_true_iff in E. destruct E as [E1 E2]. apply Z.ltb_lt in E2. apply Hm in E2. unfold isUnpaired in E1. apply Z.eqb_eq in E1. cbn [fst snd]. rewrite E1.
      rewrite (proj2 (Z.ltb_lt _ _) E2), (proj2 (Z.ltb_lt _ _) Hy). destruct ((fst p <=? x)%Z && true); cbn [length]; rewrite IH; reflexivity.
    - destruct ((fst p <=? x)%Z && (y <? snd p)%Z); cbn [length]; rewrite IH; reflexivity. }
  induction ds as [|D ds IH]; [reflexivity|]. cbn [map flat_map]. rewrite !filter_app, !app_length. f_equal; [|exact IH].
  assert (Ed : fst (graph_file inf factor m D) = dgm_dim D) by (unfold graph_file; cbn [fst]; destruct (dgm_dim D =? 0); reflexivity). rewrite Ed.
  destruct (dgm_dim D =? d); [|reflexivity]. unfold graph_file. cbn [snd]. rewrite L1. destruct (dgm_dim D =? 0); [|reflexivity].
  unfold removeDiagonal. cbn [points]. induction (points D) as [|p l IH']; [reflexivity|]. cbn [filter]. destruct (Z.eqb_spec (fst p) (snd p)) as [E|E]; cbn [negb].
  - rewrite IH'. destruct (Z.leb_spec (fst p) x), (Z.ltb_spec y (snd p)); cbn [andb]; try reflexivity. lia.
  - cbn [filter]. destruct ((fst p <=? x)%Z && (y <? snd p)%Z); cbn [length]; rewrite IH'; reflexivity.
Qed.

Theorem C164_files : forall order horder a inf factor dimension loops zero K,
  (forall l, Permutation (order l) l) -> (forall l, Permutation (horder l) l) -> a_graph K ->
  exists m L M files, graph_analysis order horder a inf factor dimension loops zero K = Ok files /\
    (* the filtered complex *)
    largest_degree [K] m /\ filtration_order (by_index L) /\ ascending_data (by_index L) /\ NoDup (map verts (by_index L)) /\
    (forall vs, NoDup vs -> vs <> [] -> (has (by_index L) vs <-> analysed dimension (by_index K) vs)) /\
    (forall s, In s (by_index L) -> graph_data zero (by_index K) s) /\
    makeBoundaryMatrix L 0 = Ok M /\
    (* the files *)
    map fst files = seq 0 (length files) /\
    (forall p, In p (lines_of files 0) -> (0 < factor -> fst p < (factor * m) mod 2 ^ 32)%Z -> fst p <> snd p) /\
    forall d x y, (loops = true \/ exists s, In s (by_index L) /\ S d < length (verts s)) ->
      (x <= y)%Z -> (y < inf)%Z -> (0 < factor -> y < (factor * m) mod 2 ^ 32)%Z ->
      persistent_betti (cols M) (dims M) (sublevel L x) (sublevel L y) d (alive (lines_of files d) x y).
Proof.
  intros order horder a inf factor dimension loops zero K Ho Hh HG.
  destruct (C164_filtration order dimension zero K Ho HG) as (m & L & E & Hm & RL & CL & FL & AL & NL & HL & DL).
  destruct (C55_diagrams_give_persistent_ranks inf horder a L true loops Hh RL CL FL AL) as (M & ds & EM & Ed & HB).
  destruct (C159_dimensions inf horder a L true loops Hh RL CL FL) as (_ & ds' & _ & Ed' & Es & _). rewrite Ed in Ed'. injection Ed' as <-.
  exists m, L, M, (map (graph_file inf factor m) ds). refine (conj _ (conj Hm (conj FL (conj AL (conj NL (conj HL (conj DL (conj EM (conj _ (conj _ _)))))))))).
  - unfold graph_analysis. destruct (degree_graph order dimension K) as [[m' K']| | |]; cbn [bind] in E |- *; try discriminate.
    destruct (if zero then zero_vertices K' else Ok K') as [K2| | |]; cbn [bind] in E |- *; try discriminate. injection E as -> ->. rewrite Ed. reflexivity.
  - rewrite map_map, map_length, <- Es. apply map_ext. intro D. unfold graph_file. cbn [fst]. destruct (dgm_dim D =? 0); reflexivity.
  - intros p Hp Hf. unfold lines_of in Hp. apply in_flat_map in Hp. destruct Hp as (f & Hf' & Hp). apply in_map_iff in Hf'. destruct Hf' as (D & <- & HD).
    unfold graph_file in Hp. cbn [fst snd] in Hp. destruct (dgm_dim D =? 0) eqn:E0.
    + cbn [removeDiagonal dgm_dim points] in Hp. rewrite E0 in Hp. apply in_map_iff in Hp. destruct Hp as (q & <- & Hq). apply filter_In in Hq. destruct Hq as [_ Hq].
      apply negb_true_iff, Z.eqb_neq in Hq. unfold graph_line in *. destruct (isUnpaired inf q && (0 <? factor)%Z) eqn:Eq; [|exact Hq].
      apply andb_true_iff in Eq. destruct Eq as [_ Eq]. apply Z.ltb_lt in Eq. cbn [fst snd] in *. specialize (Hf Eq). lia.
    + rewrite E0 in Hp. destruct Hp.
  - intros d x y Hd Hxy Hy Hf. rewrite lines_alive by assumption. apply HB; assumption.
Qed.

(** ** Graphs of files *)
(** every vertex occurs in an edge with different ends *)
Definition proper (T : list (nat * nat * Z)) : Prop :=
  T <> [] /\ forall u v w, In (u, v, w) T -> forall x, x = u \/ x = v -> exists u' v' w', In (u', v', w') T /\ u' <> v' /\ (x = u' \/ x = v').
Theorem C164_edge_lists : forall T K, edge_list_complex T K -> proper T ->
  a_graph K /\ (forall v, In v (k_vertices K) <-> exists u w x, In (u, w, x) T /\ (v = u \/ v = w)) /\
  (* degrees: the number of different neighbours *)
  forall v, In v (k_vertices K) -> exists ns, NoDup ns /\ length ns = degree_of (by_index K) v /\
    forall n, In n ns <-> n <> v /\ exists x, In (v, n, x) T \/ In (n, v, x) T.
Proof.
  intros T K (HR & HC & HF & HH & _ & _) [Tn HT]. pose proof (reachable_kwf K HR) as HK. destruct (vertices_spec K HK) as [HVs HV].
  assert (G : forall v, has (by_index K) [v] <-> exists s, In s (by_index K) /\ verts s = [v]).
  { intro v. split; intros (s & Hs & X); exists s; (split; [exact Hs|]); [|rewrite X; intro; reflexivity].
    change [v] with (verts (Simplex [v] 0)). apply wf_ext; [apply (kwf_good K HK s Hs)|repeat constructor|exact X]. }
  assert (VT : forall v, In v (k_vertices K) <-> exists u w x, In (u, w, x) T /\ (v = u \/ v = w)).
  { intro v. rewrite HV, <- (G v), HH. split; intros (u & w & x & Hin & H); exists u, w, x; (split; [exact Hin|]).
    - destruct H as [H|[H|H]]; pose proof (proj1 (H v) (or_introl eq_refl)) as Y; cbn in Y; intuition auto.
    - destruct H as [->| ->]; [left|right; left]; intro; reflexivity. }
  assert (EG : forall a b, a <> b -> (has (by_index K) [a; b] <-> exists x, In (a, b, x) T \/ In (b, a, x) T)).
  { intros a b Hab. rewrite HH. split.
    - intros (u & v & w & Hin & H). exists w. destruct H as [H|[H|H]]; pose proof (proj1 (H a) (or_introl eq_refl)) as Y1; pose proof (proj1 (H b) (or_intror (or_introl eq_refl))) as Y2; cbn in Y1, Y2; try lia.
      assert (C : (u = a /\ v = b) \/ (u = b /\ v = a)) by lia. destruct C as [[-> ->]|[-> ->]]; auto.
    - intros (x & [Hin|Hin]); [exists a, b, x|exists b, a, x]; (split; [exact Hin|]); right; right; intro y; cbn; tauto. }
  assert (SZ : forall s, In s (by_index K) -> length (verts s) <= 2).
  { intros s Hs. destruct (proj1 (HH (verts s))) as (u & v & w & _ & H); [exists s; split; [exact Hs|intro; reflexivity]|].
    assert (I : incl (verts s) [u; v]) by (destruct H as [H|[H|H]]; intros y Hy; apply H in Hy; cbn in *; tauto).
    apply (NoDup_incl_length (SSgt_NoDup _ (proj1 (kwf_good K HK s Hs))) I). }
  refine (conj (conj HR (conj HC (conj _ _))) (conj VT _)).
  - intros s v Hs Ev. assert (Hv : In v (k_vertices K)) by (apply HV; exists s; auto). apply VT in Hv. destruct Hv as (u & w & x & Hin & Hvx).
    destruct (HT u w x Hin v Hvx) as (u' & v' & w' & Hin' & Hne & Hv').
    destruct (proj2 (EG u' v' Hne) (ex_intro _ w' (or_introl Hin'))) as (e & He & Ee). exists e. refine (conj He (conj _ _)); [|apply Ee; cbn; intuition].
    assert (length [u'; v'] <= length (verts e)); [|cbn in *; lia]. apply NoDup_incl_length; [repeat constructor; cbn; intuition|intros y Hy; apply Ee; exact Hy].
  - destruct T as [|[[u v] w] T']; [congruence|]. intro En. assert (Y : has (by_index K) [u]) by (apply HH; exists u, v, w; split; [left; reflexivity|left; intro; reflexivity]).
    destruct Y as (s & Hs & _). rewrite En in Hs. destruct Hs.
  - intros v Hv. set (p := fun s => (2 <=? length (verts s)) && existsb (Nat.eqb v) (verts s)). set (other := fun s => match verts s with [a; b] => if a =? v then b else a | _ => 0 end).
    assert (Q : forall s, In s (filter p (by_index K)) <-> In s (by_index K) /\ exists n, n <> v /\ other s = n /\ set_eq (verts s) [v; n]).
    { intro s. rewrite filter_In. split; intros [Hs H]; (split; [exact Hs|]).
      - apply andb_true_iff in H. destruct H as [H1 H2]. apply Nat.leb_le in H1. apply existsb_exists in H2. destruct H2 as (v' & Hv' & Ev). apply Nat.eqb_eq in Ev. subst v'.
        specialize (SZ s Hs). pose proof (proj1 (kwf_good K HK s Hs)) as W. unfold other. destruct (verts s) as [|a [|b [|c r]]] eqn:Evs; cbn [length] in *; try lia.
        apply SSgt_NoDup in W. rewrite Evs in W. inversion W as [|? ? N1 _]; subst. assert (a <> b) by (intros ->; apply N1; left; reflexivity).
        destruct (Nat.eqb_spec a v) as [->|Ha]; [exists b|exists a]; (split; [auto|]; split; [reflexivity|]); intro y; cbn in *; intuition (subst; auto).
      - destruct H as (n & Hn & _ & E). apply andb_true_iff. split.
        + apply Nat.leb_le. change 2 with (length [v; n]). apply NoDup_incl_length; [repeat constructor; cbn; intuition|intros y Hy; apply E; exact Hy].
        + apply existsb_exists. exists v. split; [apply E; left; reflexivity|apply Nat.eqb_refl]. }
    exists (map other (filter p (by_index K))). refine (conj _ (conj (map_length _ _) _)).
    + apply NoDup_map_inj_in.
      * intros s t Hs Ht E. apply Q in Hs, Ht. destruct Hs as (Hs & n & Hn & <- & E1). destruct Ht as (Ht & n' & Hn' & <- & E2). rewrite E in E1.
        apply (nodup_verts_eq K s t HK Hs Ht). apply wf_ext; [apply (kwf_good K HK s Hs)|apply (kwf_good K HK t Ht)|]. intro y. rewrite (E1 y), (E2 y). reflexivity.
      * apply NoDup_filter. apply (NoDup_map_inv verts), kwf_nodup, HK.
    + intro n. rewrite in_map_iff. split.
      * intros (s & <- & Hs). apply Q in Hs. destruct Hs as (Hs & n' & Hn' & <- & E). split; [exact Hn'|]. apply EG; [auto|]. exists s. split; [exact Hs|exact E].
      * intros [Hn Hx]. apply EG in Hx; [|auto]. destruct Hx as (s & Hs & E). exists s.
        assert (Y : In s (filter p (by_index K))).
        { apply filter_In. split; [exact Hs|]. apply andb_true_iff. split.
          - apply Nat.leb_le. change 2 with (length [v; n]). apply NoDup_incl_length; [repeat constructor; cbn; intuition|intros y Hy; apply E; exact Hy].
          - apply existsb_exists. exists v. split; [apply E; left; reflexivity|apply Nat.eqb_refl]. }
        split; [|exact Y]. apply Q in Y. destruct Y as (_ & n' & Hn' & <- & E').
        pose proof (proj1 (E' n) (proj2 (E n) (or_intror (or_introl eq_refl)))) as Y. cbn in Y. destruct Y as [Y|[Y|[]]]; [congruence|exact Y].
Qed.

(** FINDING: a line with an edge from a vertex to itself makes this vertex isolated; it has no degree, and
    the degrees of the others are assigned to wrong vertices or read beyond the end of the vector. *)
Definition graph_text (ls : list string) : str := concat (map (fun l => chars l ++ [newline]) ls).
Definition analyse (text : str) : outcome (list (nat * list point)) :=
  let* (K, _) := read_edges 0 255 255 true true isspace [] text in
  graph_analysis (fun l => l) (fun l => l) AStandard 255 2 None true false K.
Theorem C164_isolated_refuted : analyse (graph_text ["0 0"; "1 2"]%string) = UB.
Proof. vm_compute. reflexivity. Qed.

Definition paw : str := graph_text ["4 7 9"; "7 5 1"; "4 5 1"; "5 6 1"]%string.
Example C164_example :
  analyse paw = Ok [(0%nat, [(1, 6); (2, 3)]); (1%nat, [(3, 6)])]%Z /\
  (let* (K, _) := read_edges 0 255 255 true true isspace [] paw in
   graph_analysis (fun l => l) (fun l => l) AStandard 255 0 (Some 2) false true K) =
  Ok [(0%nat, [(0, 255); (0, 3); (0, 3); (0, 2)]); (1%nat, [(3, 3)])]%Z /\
  proper [(4, 7, 9%Z); (7, 5, 1%Z); (4, 5, 1%Z); (5, 6, 1%Z)].
Proof.
  refine (conj _ (conj _ _)); [vm_compute; reflexivity|vm_compute; reflexivity|]. split; [discriminate|].
  intros u v w [E|[E|[E|[E|[]]]]] x Hx; injection E as <- <- <-.
  - exists 4, 7, 9%Z. cbn. intuition.
  - exists 7, 5, 1%Z. cbn. intuition.
  - exists 4, 5, 1%Z. cbn. intuition.
  - exists 5, 6, 1%Z. cbn. intuition.
Qed.

Print Assumptions C164_filtration.
Print Assumptions C164_files.
Print Assumptions C164_edge_lists.
Print Assumptions C164_isolated_refuted.
