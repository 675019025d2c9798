(** * C162, C163: diagrams of connectivity matrices. *)
From Coq Require Import String Ascii.
From Coq Require Import List Arith Bool ZArith Lia Permutation Sorted Relations.
From Verif Require Import DiagramIO PropertiesJSON.
From Verif Require Import Base BaseFacts Matrix SpecMatrix PairingFacts DualFacts RepFacts PropertiesMatrix
  SpecHomology HomologyFacts Simplex SimplexFacts SpecComplex Complex ComplexFacts FiltrationFacts History SubcomplexFacts
  PropertiesComplex SpecDiagram Diagram DiagramFacts PropertiesDiagram PropertiesComponents PropertiesDowker PropertiesDiagramDims PropertiesLevels
  PropertiesFunctionAnalysis LoadMatrix StringUtilities PropertiesString SpecText ReadMatrices ReadFacts PropertiesReadMatrix WeightedGraphFacts PropertiesReadAdjacency
  Rips PropertiesReadEdges ConnectivityTools.
Import ListNotations.
Local Open Scope list_scope.
Local Open Scope nat_scope.

(** ** specification *)
(** [c] is the number of connected components of the graph with the vertices [0..n-1] and the given edges *)
Definition component_count (n : nat) (edge : nat -> nat -> Prop) (c : nat) : Prop :=
  exists r, NoDup r /\ length r = c /\ (forall u, In u r -> u < n) /\
    (forall w, w < n -> exists u, In u r /\ clos_refl_sym_trans nat edge u w) /\
    forall u v, In u r -> In v r -> clos_refl_sym_trans nat edge u v -> u = v.
(** the edges of a matrix: entries above the diagonal that are not zero *)
Definition nonzero (rows : list (list Z)) (u v : nat) : Prop := u < v < length rows /\ weight_of rows u v <> 0%Z.
Definition nonzero_upto (rows : list (list Z)) (f : Z -> Z) (x : Z) (u v : nat) : Prop :=
  nonzero rows u v /\ (f (weight_of rows u v) <= x)%Z.

(** ** one point for every vertex *)
Lemma nth_all {A} (d : A) l : map (fun i => nth i l d) (seq 0 (length l)) = l.
Proof. induction l as [|x l IH]; [reflexivity|]. cbn [length seq map nth]. rewrite <- seq_shift, map_map. f_equal. exact IH. Qed.
Lemma filter_of_map {A B} (g : A -> B) f l : filter f (map g l) = map g (filter (fun x => f (g x)) l).
Proof. induction l as [|x l IH]; [reflexivity|]. cbn [map filter]. destruct (f (g x)); cbn [map]; rewrite IH; reflexivity. Qed.

Theorem C162_vertices : forall inf K all, reachable K -> closed (by_index K) -> filtration_order (by_index K) ->
  (all = true \/ exists s, In s (by_index K) /\ 1 < length (verts s)) ->
  exists ds, (forall order a dual, (forall l, Permutation (order l) l) -> calculatePersistenceDiagrams inf order a K dual all = Ok ds) /\
    Permutation (map fst (points_of ds 0)) (map data (filter (fun s => length (verts s) =? 1) (by_index K))) /\
    forall q, In q (points_of ds 0) -> snd q = inf \/ exists s, In s (by_index K) /\ length (verts s) = 2 /\ snd q = data s.
Proof.
  intros inf K all HR HC HF Hd. destruct (pipeline inf K all HR HC HF) as (M & p & p1 & ds & E & HV & HL & Hdims & Hp & Hp1 & Hb & Ed & H).
  exists ds. refine (conj H _). pose proof (reachable_kwf K HR) as HK.
  assert (Hdim : forall u, u < k_size K -> nth u (dims M) 0 = dim_at K u).
  { intros u Hu. rewrite Hdims. unfold dim_at.
    destruct (nth_error (by_index K) u) as [s|] eqn:Es; [|apply nth_error_None in Es; unfold k_size in Hu; lia].
    rewrite (nth_error_nth _ _ dummy_simplex Es). apply (map_nth_error sdim) in Es. apply (nth_error_nth _ _ 0 Es). }
  assert (Hf : filter (fun q => dim_at K (fst q) =? 0) p1 = filter (fun q => dim_at K (fst q) =? 0) p).
  { subst p1. destruct all; auto. rewrite filter_filter. apply filter_ext_in. intros [u [v|]] Hq; simpl; auto.
    destruct (Nat.eqb_spec (dim_at K u) 0) as [Eu|Eu]; [|apply andb_false_r]. rewrite andb_true_r.
    apply negb_true_iff, Nat.eqb_neq. apply Hp in Hq. rewrite Hdim by (rewrite <- HL; tauto).
    destruct Hd as [Hd|(s & Hs & Hd)]; [discriminate|]. intro Ex.
    assert (sdim s <= List.list_max (dims M)).
    { assert (Q : Forall (fun k => k <= List.list_max (dims M)) (dims M)) by (apply list_max_le; auto).
      rewrite Forall_forall in Q. apply Q. rewrite Hdims. apply in_map; auto. }
    unfold sdim in *. lia. }
  rewrite (points_of_pairs inf K p1 ds 0 HK Hb Ed), Hf.
  destruct (pairing_structure M p HV Hp) as [HP HS]. rewrite HL in HP.
  assert (Hu : forall q, In q p -> fst q < k_size K).
  { intros [u [v|]] Hq; apply Hp in Hq; simpl; rewrite <- HL; [|tauto].
    destruct Hq as (Hv & Hm & _). destruct (valid_low_facts M HV u v Hv Hm) as [Hlt _]. lia. }
  split.
  - rewrite map_map.
    assert (E1 : map (fun x => fst (pair_point inf K x)) (filter (fun q => dim_at K (fst q) =? 0) p) =
                 map (data_at K) (map fst (filter (fun q => dim_at K (fst q) =? 0) p))).
    { rewrite map_map. apply map_ext. intros [u [v|]]; reflexivity. }
    rewrite E1.
    assert (E2 : map data (filter (fun s => length (verts s) =? 1) (by_index K)) = map (data_at K) (filter (fun i => dim_at K i =? 0) (seq 0 (k_size K)))).
    { rewrite <- (nth_all dummy_simplex (by_index K)) at 1. rewrite filter_of_map, map_map. unfold data_at, k_size. f_equal. apply filter_ext_in. intros i Hi.
      apply in_seq in Hi. unfold dim_at. assert (Hin : In (nth i (by_index K) dummy_simplex) (by_index K)) by (apply nth_In; lia).
      destruct (kwf_good K HK _ Hin) as [_ Hne]. destruct (verts (nth i (by_index K) dummy_simplex)) as [|a [|b l]]; [contradiction| |]; reflexivity. }
    rewrite E2. apply Permutation_map. apply NoDup_Permutation.
    + assert (ND : NoDup (map fst p)) by (apply (creators_NoDup (cols M) (dims M) HV p Hp)).
      clear - ND. induction p as [|q l IH]; [constructor|]. cbn [map] in ND. inversion ND as [|? ? Hq Hl]; subst. cbn [filter].
      destruct (dim_at K (fst q) =? 0); [|apply IH; exact Hl]. cbn [map]. constructor; [|apply IH; exact Hl].
      intro Hi. apply Hq. apply in_map_iff in Hi. destruct Hi as (x & <- & Hx). apply filter_In in Hx. apply in_map. tauto.
    + apply NoDup_filter, seq_NoDup.
    + intro u. rewrite filter_In, in_map_iff. split.
      * intros (q & <- & Hq). apply filter_In in Hq. destruct Hq as [Hq Hz]. split; [|exact Hz]. apply in_seq. pose proof (Hu q Hq). lia.
      * intros [Hin Hz]. apply (Permutation_in _ (Permutation_sym HP)) in Hin. unfold pair_indices in Hin. apply in_flat_map in Hin.
        destruct Hin as ([c [v|]] & Hq & Hin); cbn [fst snd app] in Hin.
        -- destruct Hin as [<-|[<-|[]]].
           ++ exists (c, Some v). split; [reflexivity|]. apply filter_In. auto.
           ++ exfalso. destruct (HS c v Hq) as [_ Hdd]. pose proof (Hu _ Hq) as Hc. cbn [fst] in Hc. apply Hp in Hq. destruct Hq as [Hv _]. rewrite HL in Hv.
              rewrite !Hdim in Hdd by assumption. apply Nat.eqb_eq in Hz. lia.
        -- destruct Hin as [<-|[]]. exists (c, None). split; [reflexivity|]. apply filter_In. auto.
  - intros q Hq. apply in_map_iff in Hq. destruct Hq as ([u [v|]] & <- & Hq); apply filter_In in Hq; destruct Hq as [Hq Hz]; unfold pair_point; cbn [fst snd].
    + right. destruct (HS u v Hq) as [_ Hdd]. pose proof (Hu _ Hq) as Hc. cbn [fst] in Hc. apply Hp in Hq. destruct Hq as [Hv _]. rewrite HL in Hv.
      rewrite !Hdim in Hdd by assumption. cbn [fst] in Hz. apply Nat.eqb_eq in Hz. pose proof Hv as Hv'. apply Nat.ltb_lt in Hv'. unfold k_size in Hv'. rewrite Hv'.
      exists (nth v (by_index K) dummy_simplex). refine (conj (nth_In _ _ Hv) (conj _ eq_refl)). rewrite Hz in Hdd. unfold dim_at in Hdd. lia.
    + left. reflexivity.
Qed.

(** ** graphs from matrices *)
Lemma ordered_monotone K : kwf K -> filtration_order (by_index K) -> by_data (by_index K) -> monotone (by_index K).
Proof.
  intros HK HF HD s t Hs Ht Hsub. destruct (kwf_good K HK s Hs) as [Ws _]. destruct (kwf_good K HK t Ht) as [Wt _].
  destruct (In_nth_error _ _ Hs) as [i Hi]. destruct (In_nth_error _ _ Ht) as [j Hj].
  assert (D : subset (verts s) (verts t) \/ ~ subset (verts s) (verts t)).
  { destruct (forallb (fun v => if in_dec Nat.eq_dec v (verts t) then true else false) (verts s)) eqn:E.
    - left. rewrite forallb_forall in E. intros v Hv. specialize (E v Hv). destruct (in_dec Nat.eq_dec v (verts t)); [assumption|discriminate].
    - right. intro H. rewrite (proj2 (forallb_forall _ _)) in E; [discriminate|]. intros v Hv. destruct (in_dec Nat.eq_dec v (verts t)) as [|n]; [reflexivity|elim n; apply H; exact Hv]. }
  destruct D as [D|D].
  - assert (E : verts s = verts t) by (apply wf_ext; auto; intro v; split; auto).
    assert (ij : i = j).
    { pose proof (kwf_nodup K HK) as N. rewrite NoDup_nth_error in N. apply N; [rewrite map_length; apply nth_error_Some; congruence|].
      rewrite !nth_error_map, Hi, Hj. cbn. congruence. }
    subst j. rewrite Hi in Hj. injection Hj as ->. lia.
  - pose proof (HF i j s t Hi Hj (conj Hsub D)) as Hlt. exact (HD j i t s Hlt Hj Hi).
Qed.

(** a complex whose simplices are the vertices [0..n-1] and the edges [edge] *)
Definition graph_of (n : nat) (edge : nat -> nat -> Prop) (L : list simplex) : Prop :=
  forall vs, has L vs <-> (exists v, v < n /\ set_eq vs [v]) \/ (exists u v, u < v < n /\ edge u v /\ set_eq vs [u; v]).

Lemma graph_linked n edge L : graph_of n edge L -> (forall u v, edge u v -> u < v < n) ->
  forall u v, linked L u v <-> clos_refl_sym_trans nat edge u v.
Proof.
  intros HG HE u v. split; intro H.
  - induction H as [u v H| | |]; [|apply rst_refl|apply rst_sym; assumption|eapply rst_trans; eassumption].
    apply HG in H. destruct H as [(x & _ & Hx)|(x & y & Hxy & He & Hx)].
    + assert (u = v); [|subst; apply rst_refl]. pose proof (proj1 (Hx u) (or_introl eq_refl)) as A. pose proof (proj1 (Hx v) (or_intror (or_introl eq_refl))) as B.
      cbn [In] in A, B. intuition congruence.
    + pose proof (proj1 (Hx u) (or_introl eq_refl)) as A. pose proof (proj1 (Hx v) (or_intror (or_introl eq_refl))) as B.
      pose proof (proj2 (Hx x) (or_introl eq_refl)) as C. pose proof (proj2 (Hx y) (or_intror (or_introl eq_refl))) as D. cbn [In] in A, B, C, D.
      destruct (Nat.eq_dec u x) as [->|Ne].
      * assert (y = v) by (destruct D as [D|[D|[]]]; [lia|congruence]). subst v. apply rst_step. exact He.
      * assert (u = y) by (destruct A as [A|[A|[]]]; congruence). subst u. assert (x = v) by (destruct C as [C|[C|[]]]; [lia|congruence]). subst v. apply rst_sym, rst_step. exact He.
  - induction H as [u v H| | |]; [|apply rst_refl|apply rst_sym; assumption|eapply rst_trans; eassumption].
    apply rst_step. apply HG. right. exists u, v. refine (conj (HE u v H) (conj H _)). intro x. reflexivity.
Qed.

Lemma graph_has_vertex n edge L v : graph_of n edge L -> (has L [v] <-> v < n).
Proof.
  intro HG. rewrite (HG [v]). split.
  - intros [(x & Hx & E)|(x & y & Hxy & _ & E)].
    + pose proof (proj1 (E v) (or_introl eq_refl)) as A. cbn [In] in A. destruct A as [<-|[]]. exact Hx.
    + pose proof (proj2 (E x) (or_introl eq_refl)) as A. pose proof (proj2 (E y) (or_intror (or_introl eq_refl))) as B. cbn [In] in A, B. intuition lia.
  - intro H. left. exists v. split; [exact H|]. intro x. reflexivity.
Qed.

Lemma graph_count n edge L r : graph_of n edge L -> (forall u v, edge u v -> u < v < n) -> representatives L L r -> component_count n edge (length r).
Proof.
  intros HG HE (H1 & H2 & H3 & H4). exists r. refine (conj H1 (conj eq_refl (conj _ (conj _ _)))).
  - intros u Hu. apply (graph_has_vertex n edge L u HG). auto.
  - intros w Hw. apply (graph_has_vertex n edge L w HG) in Hw. destruct (H3 w Hw) as (u & Hu & Hl). exists u. split; [exact Hu|]. apply (graph_linked n edge L HG HE). exact Hl.
  - intros u v Hu Hv Hl. apply H4; auto. apply (graph_linked n edge L HG HE). exact Hl.
Qed.

(** the simplices of a graph *)
Lemma graph_simplices_of n edge K : kwf K -> graph_of n edge (by_index K) -> (forall u v, edge u v -> u < v < n) ->
  (forall s, In s (by_index K) -> (exists v, v < n /\ verts s = [v]) \/ (exists u v, edge u v /\ verts s = [v; u])) /\
  (forall v, v < n -> exists s, In s (by_index K) /\ verts s = [v]) /\
  (forall u v, edge u v -> exists s, In s (by_index K) /\ verts s = [v; u]).
Proof.
  intros HK HG HE.
  assert (W1 : forall s v, wf s -> set_eq (verts s) [v] -> verts s = [v]).
  { intros s v W E. apply (wf_ext s (Simplex [v] 0%Z)); [exact W|repeat constructor|exact E]. }
  assert (W2 : forall s u v, wf s -> u < v -> set_eq (verts s) [u; v] -> verts s = [v; u]).
  { intros s u v W Huv E. apply (wf_ext s (Simplex [v; u] 0%Z)); [exact W|repeat constructor; exact Huv|]. intro x. rewrite (E x). cbn. tauto. }
  refine (conj _ (conj _ _)).
  - intros s Hs. destruct (kwf_good K HK s Hs) as [W _]. assert (Hh : has (by_index K) (verts s)) by (exists s; split; [exact Hs|intro x; reflexivity]).
    apply HG in Hh. destruct Hh as [(v & Hv & E)|(u & v & Huv & He & E)].
    + left. exists v. auto.
    + right. exists u, v. split; [exact He|]. apply W2; auto. lia.
  - intros v Hv. apply (graph_has_vertex n edge _ v HG) in Hv. destruct Hv as (s & Hs & E). exists s. split; [exact Hs|]. apply W1; [apply (kwf_good K HK s Hs)|exact E].
  - intros u v He. pose proof (HE u v He) as Huv. assert (Hh : has (by_index K) [u; v]) by (apply HG; right; exists u, v; refine (conj Huv (conj He _)); intro x; reflexivity).
    destruct Hh as (s & Hs & E). exists s. split; [exact Hs|]. apply W2; [apply (kwf_good K HK s Hs)|lia|exact E].
Qed.

Lemma count_vertices n edge K : kwf K -> graph_of n edge (by_index K) -> (forall u v, edge u v -> u < v < n) ->
  length (filter (fun s => length (verts s) =? 1) (by_index K)) = n.
Proof.
  intros HK HG HE. destruct (graph_simplices_of n edge K HK HG HE) as (S1 & S2 & _).
  set (F := filter (fun s => length (verts s) =? 1) (by_index K)).
  assert (P : Permutation (map (fun s => hd 0 (verts s)) F) (seq 0 n)).
  { apply NoDup_Permutation; [|apply seq_NoDup|].
    - apply NoDup_map_inj_in.
      + intros s t Hs Ht E. unfold F in Hs, Ht. apply filter_In in Hs, Ht. destruct Hs as [Hs Ls], Ht as [Ht Lt].
        apply Nat.eqb_eq in Ls, Lt. assert (EV : verts s = verts t).
        { destruct (verts s) as [|a [|b l]]; try discriminate. destruct (verts t) as [|c [|d m]]; try discriminate. cbn in E. congruence. }
        pose proof (kwf_nodup K HK) as N. rewrite NoDup_nth_error in N. destruct (In_nth_error _ _ Hs) as [i Hi]. destruct (In_nth_error _ _ Ht) as [j Hj].
        assert (i = j) by (apply N; [rewrite map_length; apply nth_error_Some; congruence|rewrite !nth_error_map, Hi, Hj; cbn; congruence]).
        subst j. congruence.
      + apply NoDup_filter. apply (NoDup_map_inv verts). apply (kwf_nodup K HK).
    - intro x. rewrite in_map_iff, in_seq. split.
      + intros (s & <- & Hs). apply filter_In in Hs. destruct Hs as [Hs Ls]. destruct (S1 s Hs) as [(v & Hv & Ev)|(u & v & _ & Ev)]; rewrite Ev in *; [cbn; lia|discriminate].
      + intros [_ Hx]. destruct (S2 x Hx) as (s & Hs & Es). exists s. rewrite Es. split; [reflexivity|]. apply filter_In. rewrite Es. auto. }
  apply Permutation_length in P. rewrite map_length, seq_length in P. exact P.
Qed.

Lemma matrix_graph lo hi strat f rows text : adjacency_file lo hi rows text -> rows <> [] ->
  exists K mn mx, extremes (concat rows) mn mx /\ load_graph lo hi strat f text = Ok K /\
    reachable K /\ closed (by_index K) /\ by_data (by_index K) /\ graph_of (length rows) (nonzero rows) (by_index K) /\
    (forall s v, In s (by_index K) -> verts s = [v] ->
       data s = match strat with AssignGlobalMaximum => f mx mn mx | AssignGlobalMinimum => f mx mn mn | AssignZero => 0%Z end) /\
    (forall s u v, In s (by_index K) -> verts s = [v; u] -> data s = f mx mn (weight_of rows u v)) /\
    ((forall z, In z (concat rows) ->
       (match strat with AssignGlobalMaximum => f mx mn mx | AssignGlobalMinimum => f mx mn mn | AssignZero => 0 end <= f mx mn z)%Z) ->
     filtration_order (by_index K)).
Proof.
  intros Hf Hne. destruct (C87_adjacency lo hi true strat f rows text Hf Hne) as (K & mn & mx & X & E & HR & HC & HD & HG & H1 & H2 & H3).
  exists K, mn, mx. refine (conj X (conj _ (conj HR (conj HC (conj HD (conj _ (conj H1 (conj H2 H3)))))))); [unfold load_graph; rewrite E; reflexivity|].
  intro vs. rewrite (HG vs). split; (intros [H|(u & v & A & B & C)]; [left; exact H|right]).
  - exists u, v. refine (conj A (conj (conj A (B eq_refl)) C)).
  - exists u, v. refine (conj A (conj (fun _ => proj2 B) C)).
Qed.

Lemma weight_in rows u v : (forall r, In r rows -> length r = length rows) -> u < length rows -> v < length rows -> In (weight_of rows u v) (concat rows).
Proof.
  intros Hl Hu Hv. unfold weight_of. apply in_concat. assert (Hin : In (nth u rows []) rows) by (apply nth_In; exact Hu).
  exists (nth u rows []). split; [exact Hin|]. apply nth_In. rewrite (Hl _ Hin). exact Hv.
Qed.
Lemma file_rows lo hi rows text : adjacency_file lo hi rows text -> forall r, In r rows -> length r = length rows.
Proof. intros (lines & all & _ & _ & _ & H) r Hr. apply (H r Hr). Qed.

(** ** C162: connectivity_matrix_analysis *)
Theorem C162_diagrams : forall inf order a lo hi keepUnpaired rows text,
  (forall l, Permutation (order l) l) -> adjacency_file lo hi rows text -> rows <> [] ->
  (keepUnpaired = true \/ exists u v, nonzero rows u v) ->
  (forall y z, In y (concat rows) -> In z (concat rows) -> (y - z < inf)%Z) ->
  exists mx ds, In mx (concat rows) /\ (forall z, In z (concat rows) -> (z <= mx)%Z) /\
    connectivity_file inf order a lo hi None keepUnpaired text = Ok ds /\
    map dgm_dim ds = seq 0 (length ds) /\
    (* one point for every vertex, which is created at 0 and destroyed by an edge or not at all *)
    length (points_of ds 0) = length rows /\
    (forall q, In q (points_of ds 0) -> fst q = 0%Z /\ (snd q = inf \/ exists u v, nonzero rows u v /\ snd q = (mx - weight_of rows u v)%Z)) /\
    component_count (length rows) (nonzero rows) (length (filter (fun q => (snd q =? inf)%Z) (points_of ds 0))) /\
    (* a finite value replaces infinity *)
    forall x, connectivity_file inf order a lo hi (Some x) keepUnpaired text =
      Ok (map (fun D => Diagram (dgm_dim D) (map (fun p => (fst p, if (snd p =? inf)%Z then x else snd p)) (points D))) ds).
Proof.
  intros inf order a lo hi keep rows text Ho Hf Hne Hk HI.
  destruct (matrix_graph lo hi AssignZero (fun mx _ w => mx - w)%Z rows text Hf Hne) as (K & mn & mx & (X1 & X2 & X3) & E & HR & HC & _ & HG & D1 & D2 & _).
  pose proof (file_rows lo hi rows text Hf) as Hl.
  assert (HE : forall u v, nonzero rows u v -> u < v < length rows) by (intros u v H; apply H).
  destruct (C08_default_order K HR) as [HP HF].
  assert (HR' : reachable (k_sort_default K)) by (apply sort_reachable; exact HR).
  assert (HC' : closed (by_index (k_sort_default K))) by (apply (closed_permutation (by_index K)); [apply Permutation_sym; exact HP|exact HC]).
  assert (HG' : graph_of (length rows) (nonzero rows) (by_index (k_sort_default K))).
  { intro vs. rewrite <- (HG vs). split; apply has_permutation; [exact HP|apply Permutation_sym; exact HP]. }
  pose proof (reachable_kwf _ HR') as HK'.
  destruct (graph_simplices_of _ _ _ HK' HG' HE) as (S1 & S2 & S3).
  assert (HI' : forall s, In s (by_index (k_sort_default K)) -> (data s < inf)%Z).
  { intros s Hs. pose proof (Permutation_in _ HP Hs) as Hs'. destruct (S1 s Hs) as [(v & Hv & Ev)|(u & v & [Huv Hw] & Ev)].
    - rewrite (D1 s v Hs' Ev). pose proof (HI mx mx X2 X2). lia.
    - rewrite (D2 s u v Hs' Ev). apply HI; [exact X2|]. apply weight_in; [exact Hl|lia|lia]. }
  assert (Hd : keep = true \/ exists s, In s (by_index (k_sort_default K)) /\ 1 < length (verts s)).
  { destruct Hk as [Hk|(u & v & Huv)]; [auto|]. right. destruct (S3 u v Huv) as (s & Hs & Es). exists s. rewrite Es. split; [exact Hs|cbn; lia]. }
  destruct (C162_vertices inf _ keep HR' HC' HF Hd) as (ds & Ed & HPt & Hq).
  destruct (levels_count inf _ keep HR' HC' HF Hd) as (ds' & Ed' & HLv). pose proof (Ed order a true Ho) as Ed1. rewrite (Ed' order a true Ho) in Ed1. injection Ed1 as ->.
  destruct (C159_dimensions inf order a _ true keep Ho HR' HC' HF) as (M & ds'' & _ & Ed2 & Es & _). rewrite (Ed order a true Ho) in Ed2. injection Ed2 as <-.
  exists mx, ds. refine (conj X2 (conj (fun z Hz => proj2 (X3 z Hz)) (conj _ (conj Es (conj _ (conj _ (conj _ _))))))).
  - unfold connectivity_file. rewrite E. cbn [bind]. rewrite (Ed order a true Ho). cbn [bind]. rewrite map_id. reflexivity.
  - apply Permutation_length in HPt. rewrite !map_length in HPt. etransitivity; [exact HPt|]. apply (count_vertices _ _ _ HK' HG' HE).
  - intros q Hin. split.
    + assert (Hx : In (fst q) (map fst (points_of ds 0))) by (apply in_map; exact Hin). apply (Permutation_in _ HPt) in Hx. apply in_map_iff in Hx.
      destruct Hx as (s & <- & Hs). apply filter_In in Hs. destruct Hs as [Hs Ls]. destruct (S1 s Hs) as [(v & Hv & Ev)|(u & v & _ & Ev)]; [|rewrite Ev in Ls; discriminate].
      apply (D1 s v); [apply (Permutation_in _ HP); exact Hs|exact Ev].
    + destruct (Hq q Hin) as [Hi|(s & Hs & Ls & ->)]; [auto|]. right. destruct (S1 s Hs) as [(v & Hv & Ev)|(u & v & Huv & Ev)]; [rewrite Ev in Ls; discriminate|].
      exists u, v. split; [exact Huv|]. apply D2; [apply (Permutation_in _ HP); exact Hs|exact Ev].
  - destruct (HLv (fun _ => true) (fun _ => true) (fun q => (snd q =? inf)%Z)) as (r & Hr & Lr).
    + intros ? ? ? ? _ _ _ _. reflexivity.
    + intros ? ? ? ? _ _ _ _. reflexivity.
    + intros. reflexivity.
    + intros u Hu. cbn [snd]. apply Z.eqb_refl.
    + intros u v Hu Hv. cbn [snd negb andb]. assert (data_at (k_sort_default K) v < inf)%Z by (apply HI'; apply nth_In; exact Hv). apply Z.eqb_neq. lia.
    + rewrite filter_all in Hr by reflexivity. pose proof (graph_count _ _ _ r HG' HE Hr) as Hc. rewrite Lr in Hc. exact Hc.
  - intro x. unfold connectivity_file. rewrite E. cbn [bind]. rewrite (Ed order a true Ho). cbn [bind]. f_equal. apply map_ext. intros [d ps]. cbn [replace_unpaired dgm_dim points].
    f_equal. apply map_ext. intros [px py]. unfold isUnpaired. cbn [fst snd]. destruct (py =? inf)%Z; reflexivity.
Qed.

Lemma nodup_simplex K s t : kwf K -> In s (by_index K) -> In t (by_index K) -> verts s = verts t -> s = t.
Proof. apply nodup_verts_eq. Qed.

(** ** C163: ephemeral *)
Lemma resize_nth n ds i : nth i (resize_diagrams n ds) empty_diagram = if i <? n then nth i ds empty_diagram else empty_diagram.
Proof.
  unfold resize_diagrams. destruct (Nat.ltb_spec i n) as [H|H].
  - destruct (Nat.lt_ge_cases i (length ds)) as [L|L].
    + rewrite app_nth1 by (rewrite firstn_length; lia). rewrite <- (firstn_skipn n ds) at 2. rewrite app_nth1 by (rewrite firstn_length; lia). reflexivity.
    + rewrite app_nth2 by (rewrite firstn_length; lia). rewrite nth_repeat, nth_overflow by lia. reflexivity.
  - apply nth_overflow. rewrite app_length, firstn_length, repeat_length. lia.
Qed.
Lemma resize_length n ds : length (resize_diagrams n ds) = n.
Proof. unfold resize_diagrams. rewrite app_length, firstn_length, repeat_length. lia. Qed.

Lemma indexing_holds n ds : map dgm_dim ds = seq 0 (length ds) -> follows_indexing (resize_diagrams n ds) = true.
Proof.
  intro E. unfold follows_indexing. apply forallb_forall. intros [i D] Hin. cbn [fst snd].
  destruct (In_nth_error _ _ Hin) as [k Hk].
  assert (Hk' : i = k /\ D = nth k (resize_diagrams n ds) empty_diagram).
  { assert (Hlen : k < length (combine (seq 0 (length (resize_diagrams n ds))) (resize_diagrams n ds))) by (apply nth_error_Some; congruence).
    rewrite combine_length, seq_length in Hlen. apply (nth_error_nth _ _ (0, empty_diagram)) in Hk. rewrite combine_nth in Hk by apply seq_length.
    rewrite seq_nth in Hk by lia. injection Hk as <- <-. auto. }
  destruct Hk' as [-> ->]. rewrite resize_nth. destruct (k <? n); [|reflexivity]. destruct (Nat.lt_ge_cases k (length ds)) as [L|L].
  - assert (X : dgm_dim (nth k ds empty_diagram) = k).
    { rewrite <- (map_nth dgm_dim ds empty_diagram k), E. change (dgm_dim empty_diagram) with 0. rewrite seq_nth by exact L. reflexivity. }
    rewrite X, Nat.eqb_refl. destruct (points _); reflexivity.
  - rewrite nth_overflow by exact L. reflexivity.
Qed.

Lemma first_points ds : map dgm_dim ds = seq 0 (length ds) -> points (nth 0 ds empty_diagram) = points_of ds 0.
Proof.
  intro E. destruct ds as [|D ds]; [reflexivity|]. cbn [nth]. assert (X : dgm_dim D = 0) by (cbn [map length seq] in E; injection E; auto).
  rewrite <- X. symmetry. apply points_of_one; [rewrite E; apply RepFacts.seq_sorted|left; reflexivity].
Qed.

(** the edges of a sublevel set *)
Lemma sublevel_graph rows f x wt K : kwf K -> graph_of (length rows) (nonzero rows) (by_index K) -> (wt <= x)%Z ->
  (forall s v, In s (by_index K) -> verts s = [v] -> data s = wt) ->
  (forall s u v, In s (by_index K) -> verts s = [v; u] -> data s = f (weight_of rows u v)) ->
  graph_of (length rows) (nonzero_upto rows f x) (filter (fun s => (data s <=? x)%Z) (by_index K)).
Proof.
  intros HK HG Hx D1 D2. assert (HE : forall u v, nonzero rows u v -> u < v < length rows) by (intros u v H; apply H).
  destruct (graph_simplices_of _ _ _ HK HG HE) as (S1 & S2 & S3). intro vs. split.
  - intros (s & Hs & E). apply filter_In in Hs. destruct Hs as [Hs L]. apply Z.leb_le in L. destruct (S1 s Hs) as [(v & Hv & Ev)|(u & v & Huv & Ev)].
    + left. exists v. split; [exact Hv|]. rewrite Ev in E. intro y. symmetry. apply E.
    + right. exists u, v. refine (conj (HE u v Huv) (conj (conj Huv _) _)); [rewrite <- (D2 s u v Hs Ev); exact L|]. rewrite Ev in E. intro y. rewrite <- (E y). cbn. tauto.
  - intros [(v & Hv & E)|(u & v & Huv & [He L] & E)].
    + destruct (S2 v Hv) as (s & Hs & Es). exists s. split; [apply filter_In; split; [exact Hs|]; apply Z.leb_le; rewrite (D1 s v Hs Es); exact Hx|].
      rewrite Es. intro y. symmetry. apply E.
    + destruct (S3 u v He) as (s & Hs & Es). exists s. split; [apply filter_In; split; [exact Hs|]; apply Z.leb_le; rewrite (D2 s u v Hs Es); exact L|].
      rewrite Es. intro y. rewrite (E y). cbn. tauto.
Qed.

Lemma ascending_result inf order horder a lo hi (keep distance : bool) (n : nat) (strat : strategy) rows text (wt : Z) :
  (forall l, Permutation (order l) l) -> adjacency_file lo hi rows text -> rows <> [] -> 0 < n ->
  (keep = true \/ exists u v, nonzero rows u v) ->
  let f := (if distance then fun z : Z => 1 - z else fun z : Z => z)%Z in
  (forall mn mx, extremes (concat rows) mn mx -> match strat with AssignGlobalMaximum => f mx | AssignGlobalMinimum => f mn | AssignZero => 0 end = wt)%Z ->
  (forall z, In z (concat rows) -> (wt <= f z)%Z) -> (wt < inf)%Z ->
  exists ds, processFilename inf order horder a lo hi None 0 keep false distance n strat text = Ok ds /\ length ds = n /\
    (forall i D, nth_error ds i = Some D -> points D = [] \/ dgm_dim D = i) /\
    map fst (points (nth 0 ds empty_diagram)) = repeat wt (length rows) /\
    forall x, (wt <= x < inf)%Z ->
      component_count (length rows) (nonzero_upto rows f x)
        (length (filter (fun q => (fst q <=? x)%Z && (x <? snd q)%Z) (points (nth 0 ds empty_diagram)))).
Proof.
  intros Ho Hf Hne Hn Hk f Hwt Hle Hinf.
  destruct (matrix_graph lo hi strat (if distance then fun _ _ w => 1 - w else fun _ _ w => w)%Z rows text Hf Hne) as (K & mn & mx & X & E & HR & HC & HD & HG & D1 & D2 & HF).
  assert (Ef : forall b c z : Z, (if distance then fun _ _ w : Z => 1 - w else fun _ _ w : Z => w)%Z b c z = f z) by (intros; unfold f; destruct distance; reflexivity).
  pose proof (Hwt mn mx X) as Ew.
  assert (D1' : forall s v, In s (by_index K) -> verts s = [v] -> data s = wt).
  { intros s v Hs Ev. rewrite (D1 s v Hs Ev), <- Ew. rewrite !Ef. reflexivity. }
  assert (D2' : forall s u v, In s (by_index K) -> verts s = [v; u] -> data s = f (weight_of rows u v)).
  { intros s u v Hs Ev. rewrite (D2 s u v Hs Ev), Ef. reflexivity. }
  assert (HF' : filtration_order (by_index K)).
  { apply HF. intros z Hz. rewrite !Ef. rewrite Ew. apply Hle. exact Hz. }
  clear D1 D2 HF.
  assert (HE : forall u v, nonzero rows u v -> u < v < length rows) by (intros u v H; apply H).
  pose proof (ordered_monotone K (reachable_kwf K HR) HF' HD) as HM.
  destruct (C08_data_filtration K HR HM) as (HP & HF2 & HA2). set (K2 := k_sort data_cmp K) in *.
  assert (HR2 : reachable K2) by (apply sort_reachable; exact HR).
  assert (HC2 : closed (by_index K2)) by (apply (closed_permutation (by_index K)); [apply Permutation_sym; exact HP|exact HC]).
  assert (HG2 : graph_of (length rows) (nonzero rows) (by_index K2)).
  { intro vs. rewrite <- (HG vs). split; apply has_permutation; [exact HP|apply Permutation_sym; exact HP]. }
  pose proof (reachable_kwf _ HR2) as HK2. destruct (graph_simplices_of _ _ _ HK2 HG2 HE) as (S1 & S2 & S3).
  assert (Hd : keep = true \/ exists s, In s (by_index K2) /\ 1 < length (verts s)).
  { destruct Hk as [Hk|(u & v & Huv)]; [auto|]. right. destruct (S3 u v Huv) as (s & Hs & Es). exists s. rewrite Es. split; [exact Hs|cbn; lia]. }
  destruct (C162_vertices inf _ keep HR2 HC2 HF2 Hd) as (ds & Ed & HPt & Hq).
  destruct (C156_levels inf order a K2 true keep Ho HR2 HC2 HF2 Hd) as (ds' & Ed' & HLv & _). rewrite (Ed order a true Ho) in Ed'. injection Ed' as <-.
  destruct (C159_dimensions inf order a _ true keep Ho HR2 HC2 HF2) as (M & ds'' & _ & Ed2 & Es & _). rewrite (Ed order a true Ho) in Ed2. injection Ed2 as <-.
  exists (resize_diagrams n ds). refine (conj _ (conj (resize_length n ds) (conj _ (conj _ _)))).
  - unfold processFilename. rewrite E. cbn [bind]. change (0 =? 0) with true. cbv iota. cbn [bind]. rewrite andb_false_r. cbv zeta. fold K2. rewrite (Ed order a true Ho). cbn [bind].
    rewrite (indexing_holds n ds Es). cbn [negb]. f_equal. apply map_id.
  - intros i D Hi. pose proof (indexing_holds n ds Es) as HX. unfold follows_indexing in HX. rewrite forallb_forall in HX.
    specialize (HX (i, D)). cbn [fst snd] in HX. destruct (points D) eqn:EP; [auto|]. right. apply Nat.eqb_eq. apply HX.
    assert (Hlt : i < length (resize_diagrams n ds)) by (apply nth_error_Some; congruence).
    replace (i, D) with (nth i (combine (seq 0 (length (resize_diagrams n ds))) (resize_diagrams n ds)) (0, empty_diagram)).
    + apply nth_In. rewrite combine_length, seq_length. lia.
    + rewrite combine_nth by apply seq_length. rewrite seq_nth by exact Hlt. rewrite (nth_error_nth _ _ _ Hi). reflexivity.
  - rewrite resize_nth. destruct (Nat.ltb_spec 0 n); [|lia]. rewrite (first_points ds Es).
    assert (Hall : Forall (eq wt) (map fst (points_of ds 0))).
    { apply Forall_forall. intros y Hy. apply (Permutation_in _ HPt) in Hy. apply in_map_iff in Hy. destruct Hy as (s & <- & Hs). apply filter_In in Hs.
      destruct Hs as [Hs Ls]. destruct (S1 s Hs) as [(v & Hv & Ev)|(u & v & _ & Ev)]; [|rewrite Ev in Ls; discriminate].
      symmetry. apply (D1' s v); [apply (Permutation_in _ HP); exact Hs|exact Ev]. }
    assert (Hlen : length (map fst (points_of ds 0)) = length rows).
    { rewrite (Permutation_length HPt), map_length. apply (count_vertices _ _ _ HK2 HG2 HE). }
    rewrite <- Hlen. clear - Hall. induction Hall as [|y l <- _ IH]; [reflexivity|]. cbn [length repeat]. f_equal. exact IH.
  - intros x [Hx1 Hx2]. rewrite resize_nth. destruct (Nat.ltb_spec 0 n); [|lia]. rewrite (first_points ds Es).
    destruct (HLv HA2 x x) as (r & Hr & Lr); [lia|].
    assert (HGx : graph_of (length rows) (nonzero_upto rows f x) (filter (fun s => (data s <=? x)%Z) (by_index K2))).
    { apply (sublevel_graph rows f x wt K2 HK2 HG2 Hx1).
      - intros s v Hs. apply D1'. apply (Permutation_in _ HP). exact Hs.
      - intros s u v Hs. apply D2'. apply (Permutation_in _ HP). exact Hs. }
    assert (HEx : forall u v, nonzero_upto rows f x u v -> u < v < length rows) by (intros u v [H' _]; apply H').
    pose proof (graph_count _ _ _ r HGx HEx Hr) as Hc. rewrite Lr in Hc. exact Hc.
Qed.

(** the ascending filtration, and the one of distances *)
Theorem C163_ascending : forall inf order horder a lo hi keepUnpaired numDiagrams rows text,
  (forall l, Permutation (order l) l) -> adjacency_file lo hi rows text -> rows <> [] -> 0 < numDiagrams ->
  (keepUnpaired = true \/ exists u v, nonzero rows u v) -> (forall z, In z (concat rows) -> (z < inf)%Z) ->
  exists mn ds, In mn (concat rows) /\ (forall z, In z (concat rows) -> (mn <= z)%Z) /\
    processFilename inf order horder a lo hi None 0 keepUnpaired false false numDiagrams AssignGlobalMinimum text = Ok ds /\ length ds = numDiagrams /\
    (forall i D, nth_error ds i = Some D -> points D = [] \/ dgm_dim D = i) /\
    map fst (points (nth 0 ds empty_diagram)) = repeat mn (length rows) /\
    forall x, (mn <= x < inf)%Z ->
      component_count (length rows) (fun u v => nonzero rows u v /\ (weight_of rows u v <= x)%Z)
        (length (filter (fun q => (fst q <=? x)%Z && (x <? snd q)%Z) (points (nth 0 ds empty_diagram)))).
Proof.
  intros inf order horder a lo hi keep n rows text Ho Hf Hne Hn Hk HI.
  destruct (matrix_graph lo hi AssignZero (fun _ _ w => w) rows text Hf Hne) as (_ & mn & mx & (X1 & X2 & X3) & _).
  destruct (ascending_result inf order horder a lo hi keep false n AssignGlobalMinimum rows text mn Ho Hf Hne Hn Hk) as (ds & E & L & H1 & H2 & H3).
  - intros m M (Y1 & Y2 & Y3). pose proof (proj1 (X3 m Y1)). pose proof (proj1 (Y3 mn X1)). lia.
  - intros z Hz. apply X3. exact Hz.
  - apply HI. exact X1.
  - exists mn, ds. refine (conj X1 (conj (fun z Hz => proj1 (X3 z Hz)) (conj E (conj L (conj H1 (conj H2 H3)))))).
Qed.

Theorem C163_distance : forall inf order horder a lo hi keepUnpaired numDiagrams rows text,
  (forall l, Permutation (order l) l) -> adjacency_file lo hi rows text -> rows <> [] -> 0 < numDiagrams ->
  (keepUnpaired = true \/ exists u v, nonzero rows u v) -> (0 < inf)%Z -> (forall z, In z (concat rows) -> (z <= 1)%Z) ->
  exists ds, processFilename inf order horder a lo hi None 0 keepUnpaired false true numDiagrams AssignZero text = Ok ds /\ length ds = numDiagrams /\
    (forall i D, nth_error ds i = Some D -> points D = [] \/ dgm_dim D = i) /\
    map fst (points (nth 0 ds empty_diagram)) = repeat 0%Z (length rows) /\
    forall x, (0 <= x < inf)%Z ->
      component_count (length rows) (fun u v => nonzero rows u v /\ (1 - weight_of rows u v <= x)%Z)
        (length (filter (fun q => (fst q <=? x)%Z && (x <? snd q)%Z) (points (nth 0 ds empty_diagram)))).
Proof.
  intros inf order horder a lo hi keep n rows text Ho Hf Hne Hn Hk Hi Hz.
  destruct (ascending_result inf order horder a lo hi keep true n AssignZero rows text 0%Z Ho Hf Hne Hn Hk) as (ds & E & L & H1 & H2 & H3).
  - reflexivity.
  - intros z Hin. cbv iota beta zeta. apply Hz in Hin. lia.
  - exact Hi.
  - exists ds. refine (conj E (conj L (conj H1 (conj H2 H3)))).
Qed.

(** ** the collection of both filtrations *)
Lemma merge_all_spec : forall ds current, length ds <= length current ->
  exists r, merge_all current ds = Ok r /\ length r = length current /\
    forall i, points (nth i r empty_diagram) = points (nth i current empty_diagram) ++ points (nth i ds empty_diagram).
Proof.
  induction ds as [|D ds IH]; intros [|C current] H; cbn [length] in H.
  - exists []. refine (conj eq_refl (conj eq_refl _)). intros [|i]; reflexivity.
  - exists (C :: current). refine (conj eq_refl (conj eq_refl _)). intro i. assert (E : nth i (@nil diagram) empty_diagram = empty_diagram) by (destruct i; reflexivity).
    rewrite E. cbn [points empty_diagram]. rewrite app_nil_r. reflexivity.
  - lia.
  - destruct (IH current ltac:(lia)) as (r & E & L & Hr). cbn [merge_all]. rewrite E. cbn [bind]. eexists. refine (conj eq_refl (conj _ _)); [cbn [length]; lia|].
    intros [|i]; [reflexivity|apply Hr].
Qed.

Section Collection.
  Variables (process : str -> outcome (list diagram)) (n : nat).
  Hypothesis Hn : forall text ds, process text = Ok ds -> length ds = n.
  (** all entries have [n] diagrams *)
  Definition sized (names : list str) (c : collection) : Prop :=
    forall s, match c s with Some r => length r = n | None => ~ In s names end.

  Lemma process_all_spec names : forall files c c', NoDup (map fst files) -> (forall f, In f files -> In (fst f) names) -> sized names c ->
    process_all process files c = Ok c' ->
    sized names c' /\
    (forall s, ~ In s (map fst files) -> c' s = c s) /\
    forall f, In f files -> exists ds r0 r, process (snd f) = Ok ds /\ c (fst f) = Some r0 /\ c' (fst f) = Some r /\
      forall i, points (nth i r empty_diagram) = points (nth i r0 empty_diagram) ++ points (nth i ds empty_diagram).
  Proof.
    induction files as [|f files IH]; intros c c' ND HN HS E.
    - cbn in E. injection E as <-. refine (conj HS (conj (fun _ _ => eq_refl) _)). intros f [].
    - unfold process_all in E. cbn [foldM] in E. destruct (process (snd f)) as [ds| | |] eqn:Ep; cbn [bind] in E; try discriminate.
      pose proof (HS (fst f)) as Hc. unfold update_collection in E at 1. destruct (c (fst f)) as [r0|] eqn:E0; [|elim Hc; apply HN; left; reflexivity].
      destruct (merge_all_spec ds r0) as (r & Er & Lr & Hr); [rewrite (Hn _ _ Ep), Hc; lia|]. rewrite Er in E. cbn [bind] in E.
      fold (process_all process files (fun s => if str_eqb s (fst f) then Some r else c s)) in E.
      cbn [map] in ND. inversion ND as [|? ? Nf ND']; subst.
      assert (HN' : forall g, In g files -> In (fst g) names) by (intros g Hg; apply HN; right; exact Hg).
      assert (HS' : sized names (fun s => if str_eqb s (fst f) then Some r else c s)).
      { intro s. destruct (str_eqb s (fst f)); [lia|apply HS]. }
      destruct (IH _ c' ND' HN' HS' E) as (I1 & I2 & I3).
      { refine (conj I1 (conj _ _)).
        * intros s Hs. rewrite I2 by (intro X; apply Hs; right; exact X). destruct (str_eqb s (fst f)) eqn:Es; [|reflexivity].
          apply str_eqb_eq in Es. elim Hs. left. auto.
        * intros g [<-|Hg].
          -- exists ds, r0, r. refine (conj Ep (conj E0 (conj _ Hr))). rewrite I2 by exact Nf. rewrite (proj2 (str_eqb_eq _ _) eq_refl). reflexivity.
          -- destruct (I3 g Hg) as (ds' & r0' & r' & P1 & P2 & P3 & P4). exists ds', r0', r'. refine (conj P1 (conj _ (conj P3 P4))).
             destruct (str_eqb (fst g) (fst f)) eqn:Es; [|exact P2]. apply str_eqb_eq in Es. elim Nf. rewrite <- Es. apply in_map. exact Hg. }
  Qed.
End Collection.

Lemma process_length inf order horder a lo hi infinity dimension keep reverse distance n strat text ds :
  processFilename inf order horder a lo hi infinity dimension keep reverse distance n strat text = Ok ds -> length ds = n.
Proof.
  unfold processFilename. destruct (load_graph _ _ _ _ _) as [K| | |]; cbn [bind]; try discriminate.
  destruct (if dimension =? 0 then Ok K else _) as [K1| | |]; cbn [bind]; try discriminate. destruct (distance && reverse); [discriminate|]. cbv zeta.
  destruct (calculatePersistenceDiagrams _ _ _ _ _ _) as [d| | |]; cbn [bind]; try discriminate. destruct (negb _); [discriminate|].
  intro E. injection E as <-. rewrite map_length. apply resize_length.
Qed.

Theorem C163_collection : forall inf order horder a lo hi infinity dimension keepUnpaired distance files c,
  NoDup (map fst files) -> ephemeral inf order horder a lo hi infinity dimension keepUnpaired distance files = Ok c ->
  let n := (if keepUnpaired then 1 else 0) + dimension + 1 in
  let process := processFilename inf order horder a lo hi infinity dimension keepUnpaired in
  forall name text, In (name, text) files -> exists r, c name = Some r /\ length r = n /\
    if distance then
      exists ds, process false true n AssignZero text = Ok ds /\ forall i, points (nth i r empty_diagram) = points (nth i ds empty_diagram)
    else
      exists up down, process false false n AssignGlobalMinimum text = Ok up /\ process true false n AssignGlobalMaximum text = Ok down /\
        forall i, points (nth i r empty_diagram) = points (nth i up empty_diagram) ++ points (nth i down empty_diagram).
Proof.
  intros inf order horder a lo hi infinity dimension keep distance files c ND E n process name text Hin. unfold ephemeral in E. fold n process in E.
  assert (S0 : sized n (map fst files) (new_collection n (map fst files))).
  { intro s. unfold new_collection. destruct (existsb (str_eqb s) (map fst files)) eqn:Ex; [apply repeat_length|].
    intro X. assert (Y : existsb (str_eqb s) (map fst files) = true) by (apply existsb_exists; exists s; split; [exact X|apply str_eqb_eq; reflexivity]). congruence. }
  assert (N0 : forall f, In f files -> In (fst f) (map fst files)) by (intros f Hf; apply in_map; exact Hf).
  assert (E0 : forall r0, new_collection n (map fst files) name = Some r0 -> forall i, points (nth i r0 empty_diagram) = []).
  { unfold new_collection. intros r0 Er i. destruct (existsb _ _); [|discriminate]. injection Er as <-. rewrite nth_repeat. reflexivity. }
  cbv zeta in E. destruct distance.
  - destruct (process_all_spec (process false true n AssignZero) n (fun t ds => process_length _ _ _ _ _ _ _ _ _ _ _ _ _ _ _) _ _ _ _ ND N0 S0 E) as (S1 & _ & H).
    destruct (H _ Hin) as (ds & r0 & r & P1 & P2 & P3 & P4). cbn [fst snd] in P1, P2, P3. exists r. pose proof (S1 name) as L. rewrite P3 in L. refine (conj P3 (conj L _)).
    exists ds. split; [exact P1|]. intro i. rewrite P4, (E0 r0 P2). reflexivity.
  - destruct (process_all (process false false n AssignGlobalMinimum) files (new_collection n (map fst files))) as [c1| | |] eqn:E1; cbn [bind] in E; try discriminate.
    destruct (process_all_spec (process false false n AssignGlobalMinimum) n (fun t ds => process_length _ _ _ _ _ _ _ _ _ _ _ _ _ _ _) _ _ _ _ ND N0 S0 E1) as (S1 & _ & H1).
    destruct (process_all_spec (process true false n AssignGlobalMaximum) n (fun t ds => process_length _ _ _ _ _ _ _ _ _ _ _ _ _ _ _) _ _ _ _ ND N0 S1 E) as (S2 & _ & H2).
    destruct (H1 _ Hin) as (up & r0 & r1 & P1 & P2 & P3 & P4). destruct (H2 _ Hin) as (down & r1' & r & Q1 & Q2 & Q3 & Q4). cbn [fst snd] in P1, P2, P3, Q1, Q2, Q3.
    rewrite P3 in Q2. injection Q2 as <-. exists r. pose proof (S2 name) as L. rewrite Q3 in L. refine (conj Q3 (conj L _)).
    exists up, down. refine (conj P1 (conj Q1 _)). intro i. rewrite Q4, P4, (E0 r0 P2). reflexivity.
Qed.

(** ** Examples *)
Definition text_lines (ls : list string) : str := SpecText.text_of (map chars ls) [].
Lemma small_file (r0 r1 r2 : Z * Z * Z) :
  let show r := print_Z (fst (fst r)) ++ chars " " ++ print_Z (snd (fst r)) ++ chars " " ++ print_Z (snd r) in
  let row r := [fst (fst r); snd (fst r); snd r] in
  Forall no_newline [show r0; show r1; show r2] ->
  Forall (fun z => (-128 <= z <= 127)%Z) (row r0 ++ row r1 ++ row r2) ->
  adjacency_file (-128) 127 [row r0; row r1; row r2] (SpecText.text_of [show r0; show r1; show r2] []).
Proof.
  intros show row Hn Hz. exists [show r0; show r1; show r2], [row r0; row r1; row r2].
  assert (T : forall r, denotes (show r) (row r)).
  { intros [[a b] c]. unfold show, row. cbn [fst snd]. apply (denotes_cons []); [constructor|intros x t E; injection E as <- _; reflexivity|].
    apply (denotes_cons (chars " ")); [repeat constructor|intros x t E; injection E as <- _; reflexivity|].
    rewrite <- (app_nil_r (print_Z c)). apply (denotes_cons (chars " ")); [repeat constructor|intros x t E; discriminate|constructor; constructor]. }
  refine (conj (file_terminated _ Hn) (conj _ (conj eq_refl _))).
  - repeat constructor; auto; discriminate.
  - apply Forall_app in Hz. destruct Hz as [H0 Hz]. apply Forall_app in Hz. destruct Hz as [H1 H2].
    intros r [<-|[<-|[<-|[]]]]; (split; [reflexivity|assumption]).
Qed.

Definition rows_a : list (list Z) := [[0; 1; 5]; [1; 0; 2]; [5; 2; 0]]%Z.
Definition text_a : str := text_lines ["0 1 5"; "1 0 2"; "5 2 0"]%string.
Definition rows_b : list (list Z) := [[0; 1; 2]; [1; 0; 5]; [2; 5; 0]]%Z.
Definition text_b : str := text_lines ["0 1 2"; "1 0 5"; "2 5 0"]%string.
Lemma file_a : adjacency_file (-128) 127 rows_a text_a.
Proof. apply (small_file (0, 1, 5) (1, 0, 2) (5, 2, 0))%Z; [|apply Forall_forall; intros z Hz; cbn in Hz; lia]. apply Forall_forall. intros l [<-|[<-|[<-|[]]]]; unfold no_newline; cbn; intuition discriminate. Qed.
Lemma file_b : adjacency_file (-128) 127 rows_b text_b.
Proof. apply (small_file (0, 1, 2) (1, 0, 5) (2, 5, 0))%Z; [|apply Forall_forall; intros z Hz; cbn in Hz; lia]. apply Forall_forall. intros l [<-|[<-|[<-|[]]]]; unfold no_newline; cbn; intuition discriminate. Qed.

Example C162_example :
  connectivity_file 99 (fun l => l) AStandard (-128) 127 None true text_a = Ok [Diagram 0 [(0, 99); (0, 4); (0, 0)]%Z; Diagram 1 [(3, 99)]%Z] /\
  connectivity_file 99 (fun l => l) AStandard (-128) 127 (Some 7%Z) true text_b = Ok [Diagram 0 [(0, 7); (0, 4); (0, 3)]%Z; Diagram 1 [(0, 7)]%Z].
Proof. split; vm_compute; reflexivity. Qed.

(** the diagrams depend on the numbers of the vertices: this is the same graph, with two vertices swapped *)
Theorem C162_numbering_refuted : exists rows text rows' text' (swap : nat -> nat) ds ds',
  adjacency_file (-128) 127 rows text /\ adjacency_file (-128) 127 rows' text' /\ length rows = length rows' /\
  (forall u, u < length rows -> swap u < length rows /\ swap (swap u) = u) /\
  (forall u v, u < length rows -> v < length rows -> weight_of rows' (swap u) (swap v) = weight_of rows u v /\ weight_of rows v u = weight_of rows u v) /\
  connectivity_file 99 (fun l => l) AStandard (-128) 127 None true text = Ok ds /\
  connectivity_file 99 (fun l => l) AStandard (-128) 127 None true text' = Ok ds' /\
  In (0, 0)%Z (points_of ds 0) /\ ~ In (0, 0)%Z (points_of ds' 0).
Proof.
  exists rows_a, text_a, rows_b, text_b, (fun u => match u with 0 => 1 | 1 => 0 | _ => u end). eexists. eexists.
  refine (conj file_a (conj file_b (conj eq_refl (conj _ (conj _ (conj _ (conj _ (conj _ _)))))))).
  - intros u Hu. cbn in Hu. do 3 (destruct u as [|u]; [cbn; lia|]). lia.
  - intros u v Hu Hv. cbn in Hu, Hv. do 3 (destruct u as [|u]; [do 3 (destruct v as [|v]; [split; reflexivity|]); lia|]). lia.
  - vm_compute. reflexivity.
  - vm_compute. reflexivity.
  - vm_compute. tauto.
  - vm_compute. intuition discriminate.
Qed.

(** A document with one diagram is JSON. *)
Theorem C162_document : forall (V : Type) (show : V -> str) inf D name kvs, (forall p, In p (dg_points D) -> jplain (show (fst p)) /\ jplain (show (snd p))) ->
  jplain name -> (forall kv, In kv kvs -> jplain (fst kv) /\ jplain (snd kv)) ->
  exists text v, connectivity_output show inf [(D, name, kvs)] = text ++ [newline] /\ jtext (writeJSON show inf D name kvs) v /\
    jtext text (JObj [(chars "diagrams", JArr [v])]).
Proof.
  intros V show inf D name kvs H1 H2 H3. eexists. eexists. refine (conj _ (conj (C124_write V show inf D name kvs H1 H2 H3) _)).
  2: { eapply (J_obj _ _ _ (M_one [newline] (chars "diagrams") [] (chars " ") _ _ [newline] _ ltac:(blank) ltac:(vm_compute; intuition (subst; intuition (try discriminate; lia))) ltac:(blank) ltac:(blank)
         (J_arr _ _ _ (E_one [newline] _ _ [newline] _ ltac:(blank) (C124_write V show inf D name kvs H1 H2 H3) ltac:(blank) eq_refl) eq_refl) ltac:(blank) eq_refl)). reflexivity. }
  unfold connectivity_output. cbn [map concat fst snd]. rewrite app_nil_r. rewrite <- !app_assoc. reflexivity.
Qed.
Theorem C162_json_refuted : parse (connectivity_output print_Z top [(example_diagram, chars "x", []); (example_diagram, chars "y", [])]) = None /\
  parse (connectivity_output print_Z top [(example_diagram, chars "x", [])]) <> None.
Proof. split; [vm_compute; reflexivity|vm_compute; discriminate]. Qed.

Example C163_example : exists c, ephemeral 99 (fun l => l) (fun l => l) AStandard (-128) 127 None 0 true false [(chars "a", text_a); (chars "b", text_b)] = Ok c /\
  c (chars "a") = Some [Diagram 0 [(0, 99); (0, 1); (0, 2); (5, 99); (5, 1); (5, 2)]%Z; Diagram 0 [(5, 99); (5, 99)]%Z] /\ c (chars "c") = None.
Proof. eexists. refine (conj _ (conj _ _)); vm_compute; reflexivity. Qed.

(** "the descending filtration": a class with the value [5] at creation should be alive at a level [x] that is at most [5] and greater than
    the value of its destruction; there are three such classes at the level [5], although the graph of edges of weight at least [5] has two components *)
Theorem C163_descending_refuted : exists rows text ds c,
  adjacency_file (-128) 127 rows text /\
  processFilename 99 (fun l => l) (fun l => l) AStandard (-128) 127 None 0 true true false 2 AssignGlobalMaximum text = Ok ds /\
  component_count (length rows) (fun u v => nonzero rows u v /\ (5 <= weight_of rows u v)%Z) c /\
  c <> length (filter (fun q => (5 <=? fst q)%Z && ((snd q <? 5)%Z || (snd q =? 99)%Z)) (points (nth 0 ds empty_diagram))).
Proof.
  exists rows_a, text_a. eexists. exists 2. refine (conj file_a (conj _ (conj _ _))).
  - vm_compute. reflexivity.
  - exists [0; 1]. set (E := fun u v => nonzero rows_a u v /\ (5 <= weight_of rows_a u v)%Z).
    assert (HE : forall u v, E u v <-> u = 0 /\ v = 2).
    { intros u v. unfold E, nonzero. cbn [length rows_a]. split.
      - intros [[H _] W]. assert (u < 3 /\ v < 3) as [Hu Hv] by lia. do 3 (destruct u as [|u]; [do 3 (destruct v as [|v]; [cbn in W; lia|]); lia|]). lia.
      - intros [-> ->]. cbn. split; [split; [lia|discriminate]|lia]. }
    refine (conj _ (conj eq_refl (conj _ (conj _ _)))).
    + repeat constructor; cbn; intuition discriminate.
    + intros u [<-|[<-|[]]]; cbn; lia.
    + intros w Hw. cbn in Hw. destruct w as [|[|[|w]]]; [exists 0|exists 1|exists 0|lia]; (split; [cbn; tauto|]); try apply rst_refl. apply rst_step. apply HE. auto.
    + assert (HI : forall u v, clos_refl_sym_trans nat E u v -> (u = 1 <-> v = 1)).
      { intros u v H. induction H as [u v H|u|u v _ IH|u v w _ I1 _ I2]; [apply HE in H; lia|tauto|tauto|tauto]. }
      intros u v [<-|[<-|[]]] [<-|[<-|[]]] H; auto; apply HI in H; lia.
  - vm_compute. discriminate.
Qed.

Print Assumptions C162_diagrams.
Print Assumptions C162_numbering_refuted.
Print Assumptions C162_document.
Print Assumptions C162_json_refuted.
Print Assumptions C163_ascending.
Print Assumptions C163_distance.
Print Assumptions C163_collection.
Print Assumptions C163_descending_refuted.
