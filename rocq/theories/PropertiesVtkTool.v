(** * Property C181: the example for structured grids. *)
From Coq Require Import String Ascii.
From Coq Require Import List Arith Bool NArith ZArith Lia Sorted Permutation.
From Verif Require Import Base BaseFacts Simplex SimplexFacts SpecComplex Complex ComplexFacts FiltrationFacts Quotient History PropertiesSparseAdjacency SubcomplexFacts PropertiesComplex PropertiesDowker PropertiesComponents PropertiesIntersectionTool PropertiesLevels
  Matrix SpecMatrix SpecDiagram Diagram DiagramFacts PropertiesDiagram PropertiesDiagramDims SpecSimplicial SimplicialFacts SublevelFacts PropertiesSublevel
  LoadMatrix SpecText LoadFacts StringUtilities PropertiesString PropertiesPajek PropertiesJSON PropertiesPly Vtk PropertiesVtk DiagramIO ImageTool PropertiesImage PropertiesPlyTool VtkTool.
Import ListNotations.
Local Open Scope list_scope.
Local Open Scope nat_scope.

(** ** Specification *)
(** a file with a grid of [nx] times [ny] times [nz] points, and their values *)
Definition vtk_grid (conv : str -> Z) (nx ny nz : nat) (values : list Z) (text : str) : Prop :=
  exists n size header points es body, text = text_of (header ++ points ++ body) [] /\ (forall l, In l (header ++ points ++ body) -> ~ In newline l) /\
    vtk_header nx ny nz n size header /\ vtk_points n points /\ Forall2 (entry_line n) es body /\ values = map conv (values_of es) /\ length values = nx * ny * nz.
(** the points of the grid and the pairs of neighbours *)
Definition grid_graph (nx ny nz : nat) (K : complex) : Prop :=
  reachable K /\ closed (by_index K) /\
  forall vs, has (by_index K) vs <-> (exists v, v < nx * ny * nz /\ set_eq [v] vs) \/ exists p q, grid nx ny nz p /\ precedes q p /\ set_eq [number nx ny p; number nx ny q] vs.
(** the part of the grid with values at most (at least) [t] *)
Definition grid_part (superlevel : bool) (values : list Z) (t : Z) (K : complex) : list simplex :=
  filter (fun s => forallb (fun v => if superlevel then (t <=? nth v values 0)%Z else (nth v values 0 <=? t)%Z) (verts s)) (by_index K).

(** ** Facts *)
Lemma vtk_reachable conv f text v : readVTK conv f text = Ok (Some v) -> reachable (vtk_complex v).
Proof.
  unfold readVTK. intro E. apply bind_ok in E. destruct E as ([[[[[[nx ny] nz] n] [s|]] lines]|] & _ & E); try discriminate. apply bind_ok in E. destruct E as ([[values name] type] & _ & E).
  apply bind_ok in E. destruct E as (l & E1 & E). apply bind_ok in E. destruct E as (K & E2 & E). injection E as <-. cbn [vtk_complex].
  assert (W : forall s, In s l -> wf s).
  { unfold vtk_edges in E1. refine (foldM_keeps _ (fun l : list simplex => forall s, In s l -> wf s) _ _ _ _ _ E1).
    - clear. intros a z a' Ha E. refine (foldM_keeps _ (fun l : list simplex => forall s, In s l -> wf s) _ _ _ _ Ha E). clear. intros a y a' Ha E. refine (foldM_keeps _ (fun l : list simplex => forall s, In s l -> wf s) _ _ _ _ Ha E).
      clear. intros a x a' Ha E. refine (foldM_keeps _ (fun l : list simplex => forall s, In s l -> wf s) _ _ _ _ Ha E). clear. intros a j a' Ha E. unfold vtk_edge in E. destruct (_ <? j) in E; [injection E as <-; exact Ha|].
      apply bind_ok in E. destruct E as (s & _ & E). apply bind_ok in E. destruct E as (t & _ & E). injection E as <-. intros u Hu. apply in_app_or in Hu. destruct Hu as [Hu|[<-|[]]]; [apply Ha; exact Hu|apply simplex_of_wf].
    - intros u Hu. apply in_map_iff in Hu. destruct Hu as (p & <- & _). repeat constructor. }
  assert (R : ran 0 0 K) by (apply (insert_ran 0 0 k_empty l K); [exists []; reflexivity|exact W|exact E2]). destruct R as [ops ->]. exists 0%Z, 0%Z, ops. reflexivity.
Qed.
(** a part of a graph whose values are the maxima (minima) of those of the vertices *)
Lemma graph_values super nx ny nz values K E : length values = nx * ny * nz -> by_index K = map (fun p => Simplex [fst p] (snd p)) (combine (seq 0 (nx * ny * nz)) values) ++ E -> grid_edges (if super : bool then Z.min else Z.max) nx ny nz values E ->
  forall s, In s (by_index K) -> (exists v, v < nx * ny * nz /\ s = Simplex [v] (nth v values 0%Z)) \/
    exists p q, grid nx ny nz p /\ precedes q p /\ s = Simplex [number nx ny p; number nx ny q] ((if super then Z.min else Z.max) (nth (number nx ny p) values 0%Z) (nth (number nx ny q) values 0%Z)).
Proof.
  intros HL EK [_ HE] s Hs. rewrite EK in Hs. apply in_app_or in Hs. destruct Hs as [Hs|Hs].
  - left. apply in_map_iff in Hs. destruct Hs as ([v z] & <- & Hp). rewrite <- HL in Hp. apply combine_seq_In in Hp. destruct Hp as [_ Hp]. rewrite Nat.sub_0_r in Hp. exists v. cbn [fst snd]. rewrite (nth_error_nth _ _ 0%Z Hp). split; [|reflexivity]. rewrite <- HL. apply nth_error_Some. rewrite Hp. discriminate.
  - right. apply HE in Hs. destruct Hs as (p & q & a & b & G & P & Ea & Eb & ->). exists p, q. rewrite (nth_error_nth _ _ 0%Z Ea), (nth_error_nth _ _ 0%Z Eb). auto.
Qed.
Lemma precedes_grid nx ny nz p q : grid nx ny nz p -> precedes q p -> grid nx ny nz q.
Proof. destruct p as [[x y] z]. intros G [[-> H]|[[-> H]|[-> H]]]; cbn in *; lia. Qed.
Definition value_at (super : bool) (values : list Z) (s : simplex) : Prop :=
  forall t, if super then (t <= data s)%Z <-> forall v, In v (verts s) -> (t <= nth v values 0)%Z
            else (data s <= t)%Z <-> forall v, In v (verts s) -> (nth v values 0 <= t)%Z.
Lemma vtk_facts conv (super : bool) nx ny nz values text : vtk_grid conv nx ny nz values text ->
  exists K, vtk_sorted conv super text = Ok K /\ grid_graph nx ny nz K /\ filtration_order (by_index K) /\
    (if super then descending_data (by_index K) else ascending_data (by_index K)) /\
    (forall s, In s (by_index K) -> length (verts s) <= 2 /\ exists v, v < nx * ny * nz /\ data s = nth v values 0%Z) /\
    forall t, grid_part super values t K = if super then above t (by_index K) else below t (by_index K).
Proof.
  intros (n & size & header & points & es & body & -> & Hnl & Hh & Hp & Hb & -> & HL). rewrite map_length in HL.
  destruct (C132_read conv (if super then Z.min else Z.max) nx ny nz n size header points es body Hnl Hh Hp Hb HL) as (K & E & name & type & ER & _ & EK & HE). set (values := map conv (values_of es)) in *.
  assert (HLv : length values = nx * ny * nz) by (unfold values; rewrite map_length; exact HL). clearbody values. clear HL Hh Hp Hb.
  pose proof (vtk_reachable _ _ _ _ ER) as HR. cbn [vtk_complex] in HR. pose proof (reachable_kwf K HR) as HK. pose proof (graph_values super nx ny nz values K E HLv EK HE) as HG.
  assert (HV : forall s, In s (by_index K) -> value_at super values s).
  { intros s Hs t. destruct (HG s Hs) as [(v & _ & ->)|(p & q & _ & _ & ->)]; cbn [data verts]; clear; destruct super.
    - split; [intros H u [<-|[]]; exact H|intro H; apply H; simpl; auto].
    - split; [intros H u [<-|[]]; exact H|intro H; apply H; simpl; auto].
    - split; [intros H u [<-|[<-|[]]]; lia|intro H; pose proof (H (number nx ny p) ltac:(simpl; auto)); pose proof (H (number nx ny q) ltac:(simpl; auto)); lia].
    - split; [intros H u [<-|[<-|[]]]; lia|intro H; pose proof (H (number nx ny p) ltac:(simpl; auto)); pose proof (H (number nx ny q) ltac:(simpl; auto)); lia]. }
  assert (HH : forall vs, has (by_index K) vs <-> (exists v, v < nx * ny * nz /\ set_eq [v] vs) \/ exists p q, grid nx ny nz p /\ precedes q p /\ set_eq [number nx ny p; number nx ny q] vs).
  { intro vs. split.
    - intros (s & Hs & Q). destruct (HG s Hs) as [(v & Hv & ->)|(p & q & G & P & ->)]; cbn [verts] in Q; [left; exists v; auto|right; exists p, q; auto].
    - rewrite EK. intros [(v & Hv & Q)|(p & q & G & P & Q)].
      + exists (Simplex [v] (nth v values 0%Z)). split; [|exact Q]. apply in_or_app. left. apply in_map_iff. exists (v, nth v values 0%Z). split; [reflexivity|]. rewrite <- HLv. apply combine_seq_In. split; [lia|]. rewrite Nat.sub_0_r. apply nth_error_nth'. lia.
      + pose proof (number_lt nx ny nz p G) as Lp. pose proof (number_lt nx ny nz q (precedes_grid _ _ _ _ _ G P)) as Lq.
        exists (Simplex [number nx ny p; number nx ny q] ((if super then Z.min else Z.max) (nth (number nx ny p) values 0%Z) (nth (number nx ny q) values 0%Z))). split; [|exact Q]. apply in_or_app. right. apply HE.
        exists p, q, (nth (number nx ny p) values 0%Z), (nth (number nx ny q) values 0%Z). repeat split; auto; apply nth_error_nth'; lia. }
  assert (HC : closed (by_index K)).
  { intros s vs Hs N Sub. apply HH. destruct (HG s Hs) as [(v & Hv & ->)|(p & q & G & P & ->)]; cbn [verts] in Sub.
    - left. exists v. split; [exact Hv|]. intro u. split; [|apply Sub]. intros [<-|[]]. destruct vs as [|w vs]; [contradiction|]. destruct (Sub w (or_introl eq_refl)) as [->|[]]. left. reflexivity.
    - pose proof (number_lt nx ny nz p G) as Lp. pose proof (number_lt nx ny nz q (precedes_grid _ _ _ _ _ G P)) as Lq. destruct (in_dec Nat.eq_dec (number nx ny p) vs) as [Ip|Ip], (in_dec Nat.eq_dec (number nx ny q) vs) as [Iq|Iq].
      + right. exists p, q. split; [exact G|]. split; [exact P|]. intro u. split; [intros [<-|[<-|[]]]; assumption|apply Sub].
      + left. exists (number nx ny p). split; [exact Lp|]. intro u. split; [intros [<-|[]]; exact Ip|]. intro Hu. destruct (Sub u Hu) as [<-|[<-|[]]]; [left; reflexivity|contradiction].
      + left. exists (number nx ny q). split; [exact Lq|]. intro u. split; [intros [<-|[]]; exact Iq|]. intro Hu. destruct (Sub u Hu) as [<-|[<-|[]]]; [contradiction|left; reflexivity].
      + exfalso. destruct vs as [|w vs]; [contradiction|]. destruct (Sub w (or_introl eq_refl)) as [<-|[<-|[]]]; [apply Ip|apply Iq]; left; reflexivity. }
  set (cmp := if super then data_cmp_greater else data_cmp). exists (k_sort cmp K). assert (P : Permutation (by_index K) (by_index (k_sort cmp K))) by (unfold k_sort; cbn [by_index]; apply Permutation_sym, cpp_sort_perm).
  split; [unfold vtk_sorted; rewrite ER; reflexivity|]. split.
  { split; [apply sort_reachable; exact HR|]. split; [eapply closed_perm; [exact P|exact HC]|]. intro vs. rewrite <- (HH vs). unfold has. split; intros (s & Hs & Q); exists s; (split; [|exact Q]).
    - eapply Permutation_in; [apply Permutation_sym; exact P|exact Hs].
    - eapply Permutation_in; [exact P|exact Hs]. }
  refine (conj _ (conj _ (conj _ _))).
  - unfold cmp. destruct super.
    + apply filtration_data_greater; [exact HK|]. intros s t Hs Ht HS. apply (HV t Ht). intros v Hv. apply (proj1 (HV s Hs (data s))); [lia|apply HS; exact Hv].
    + apply filtration_data; [exact HK|]. intros s t Hs Ht HS. apply (HV t Ht). intros v Hv. apply (proj1 (HV s Hs (data s))); [lia|apply HS; exact Hv].
  - unfold cmp. clear. destruct super; intros i j s t Hij Hs Ht; unfold k_sort in Hs, Ht; cbn [by_index] in Hs, Ht.
    + assert (X : (- data s <= - data t)%Z); [|lia].
      eapply (sorted_by_value data_cmp_greater (fun s => (- data s)%Z)); [apply data_cmp_greater_swo| |exact Hij|exact Hs|exact Ht].
      clear. intros s t H. unfold data_cmp_greater in H. destruct (Z.eqb_spec (data t) (data s)); [lia|]. apply Z.ltb_ge in H. lia.
    + eapply (sorted_by_value data_cmp data); [apply data_cmp_swo| |exact Hij|exact Hs|exact Ht].
      clear. intros s t H. unfold data_cmp in H. destruct (Z.eqb_spec (data t) (data s)); [lia|]. apply Z.ltb_ge in H. lia.
  - intros s Hs. apply (Permutation_in _ (Permutation_sym P)) in Hs. destruct (HG s Hs) as [(v & Hv & ->)|(p & q & G & Pq & ->)]; cbn [verts data length]; (split; [lia|]); [exists v; auto|].
    pose proof (number_lt nx ny nz p G) as Lp. pose proof (number_lt nx ny nz q (precedes_grid _ _ _ _ _ G Pq)) as Lq. set (a := nth (number nx ny p) values 0%Z). set (b := nth (number nx ny q) values 0%Z).
    assert (X : (if super then Z.min else Z.max) a b = a \/ (if super then Z.min else Z.max) a b = b) by (destruct super; lia). destruct X as [->| ->]; [exists (number nx ny p)|exists (number nx ny q)]; auto.
  - intro t. unfold grid_part, above, below. destruct super; apply filter_ext_in; intros s Hs; apply (Permutation_in _ (Permutation_sym P)) in Hs; apply eq_true_iff_eq; rewrite forallb_forall, Z.leb_le; pose proof (HV s Hs t) as X; cbn in X; (split; intro H).
    + apply X. intros v Hv. apply Z.leb_le. apply H. exact Hv.
    + intros v Hv. apply Z.leb_le. apply X; assumption.
    + apply X. intros v Hv. apply Z.leb_le. apply H. exact Hv.
    + intros v Hv. apply Z.leb_le. apply X; assumption.
Qed.

(** ** The example for grids *)
(** The program prints the points of dimension 0, which describe the connected components of the
    parts of the grid. *)
Theorem C181_grid : forall conv inf order a superlevel nx ny nz values text, (forall l, Permutation (order l) l) ->
  vtk_grid conv nx ny nz values text -> 2 <= nx * ny * nz -> (forall z, In z values -> (z < inf)%Z) ->
  exists K D, grid_graph nx ny nz K /\
    vtk_example conv inf order a superlevel text = Ok (flat_map (point_text inf) D ++ [newline]) /\
    (forall p, In p D -> fst p <> snd p) /\
    (forall s t, (if superlevel then t <= s else s <= t < inf)%Z -> induced_rank (grid_part superlevel values s K) (grid_part superlevel values t K) 0 (living superlevel inf s t D)) /\
    forall t, (t < inf)%Z -> simplicial_betti (grid_part superlevel values t K) 0 (living superlevel inf t t D).
Proof.
  intros conv inf order a superlevel nx ny nz values text Ho HM Hn Hinf. destruct (vtk_facts conv superlevel nx ny nz values text HM) as (K & E & HI & HF & HA & HD & HP). pose proof HI as (HR & HC & HH). pose proof (reachable_kwf K HR) as HK.
  assert (HLv : length values = nx * ny * nz) by (destruct HM as (n & size & header & points & es & body & _ & _ & _ & _ & _ & _ & HL); exact HL).
  assert (HIn : forall s, In s (by_index K) -> (data s <= inf - 1)%Z). { intros s Hs. destruct (HD s Hs) as [_ (v & Hv & ->)]. assert (nth v values 0 < inf)%Z by (apply Hinf, nth_In; lia). lia. }
  assert (HT : exists s, In s (by_index K) /\ length (verts s) = 2).
  { assert (exists p q, grid nx ny nz p /\ precedes q p) as (p & q & G & P).
    { assert (Nx : 1 <= nx) by (destruct nx; [cbn in Hn; lia|lia]). assert (Ny : 1 <= ny) by (destruct ny; [rewrite Nat.mul_0_r in Hn; cbn in Hn; lia|lia]). assert (Nz : 1 <= nz) by (destruct nz; [rewrite Nat.mul_0_r in Hn; lia|lia]). clear - Hn Nx Ny Nz.
      destruct (Nat.le_gt_cases 2 nx) as [H|H]; [exists (1, 0, 0), (0, 0, 0); split; [cbn; lia|left; split; [reflexivity|lia]]|].
      destruct (Nat.le_gt_cases 2 ny) as [H'|H']; [exists (0, 1, 0), (0, 0, 0); split; [cbn; lia|right; left; split; [reflexivity|lia]]|].
      assert (nx = 1) as -> by lia. assert (ny = 1) as -> by lia. exists (0, 0, 1), (0, 0, 0). split; [cbn; lia|right; right; split; [reflexivity|lia]]. }
    destruct (proj2 (HH [number nx ny p; number nx ny q])) as (s & Hs & Q); [right; exists p, q; split; [exact G|split; [exact P|intro u; tauto]]|]. exists s. split; [exact Hs|].
    assert (N : number nx ny p <> number nx ny q). { destruct p as [[x y] z]. cbn in G. unfold precedes in P. destruct P as [[-> P]|[[-> P]|[-> P]]]; cbn; nia. }
    apply Nat.le_antisymm; [apply (HD s Hs)|]. change 2 with (length [number nx ny p; number nx ny q]). apply NoDup_incl_length; [repeat constructor; simpl; intuition|]. intros v Hv. apply Q. exact Hv. }
  destruct (C159_dimensions inf order a K true false Ho HR HC HF) as (M & ds & _ & Ed & Es & _ & _ & Hlen). specialize (Hlen 1 HT (fun s Hs => proj1 (HD s Hs))). cbn in Hlen.
  rewrite Hlen in Es. destruct ds as [|E0 [|]]; try discriminate. cbn in Es. injection Es as e0. set (off := filter (fun p : Diagram.point => negb (fst p =? snd p)%Z)).
  assert (Q : points_of [E0] 0 = points E0) by (unfold points_of; cbn [filter flat_map]; rewrite e0; cbn; rewrite ?app_nil_r; reflexivity).
  exists K, (off (points E0)). split; [exact HI|]. split.
  { unfold vtk_example. rewrite E. cbn [bind]. rewrite Ed. cbn [bind]. unfold image_output. cbn [flat_map]. unfold print_points, removeDiagonal. cbn [dg_points points]. rewrite app_nil_r. reflexivity. }
  split. { intros p Hp. unfold off in Hp. apply filter_In in Hp; destruct Hp as [_ Hp]; apply negb_true_iff, Z.eqb_neq in Hp; exact Hp. }
  assert (Hdim : exists s, In s (by_index K) /\ 1 < length (verts s)) by (destruct HT as (s & Hs & L); exists s; split; [exact Hs|lia]).
  destruct (all_points inf order a K true 0 Ho HR HC HF Hdim) as (ds' & es & Ed' & Ee & Epts). rewrite Ed in Ed'. injection Ed' as <-. rewrite Q in Epts.
  assert (HB : forall p, In p (points E0) -> (fst p < inf)%Z). { intros p Hp. rewrite Epts in Hp. pose proof (births_below inf order a K true true es (inf - 1) 0 p Ho HR HC HF HIn Ee Hp). lia. }
  assert (HIn' : forall s, In s (by_index K) -> (data s < inf)%Z) by (intros s Hs; specialize (HIn s Hs); lia).
  destruct superlevel.
  - destruct (C178_superlevel inf order a K true Ho HR HC HF HA HIn') as (es' & Ee' & R1 & R2). rewrite Ee in Ee'. injection Ee' as <-. split.
    + intros s t Hst. pose proof (living_off true inf s t (points E0) Hst HB) as X. change (living true inf s t (off (points E0)) = living true inf s t (points E0)) in X. rewrite X, !HP, Epts. apply R1.
    + intros t _. pose proof (living_off true inf t t (points E0) (Z.le_refl t) HB) as X. change (living true inf t t (off (points E0)) = living true inf t t (points E0)) in X. rewrite X, HP, Epts. apply R2.
  - destruct (C178_ranks inf order a K true Ho HR HC HF HA) as (es' & Ee' & R1). rewrite Ee in Ee'. injection Ee' as <-.
    destruct (C178_betti inf order a K true Ho HR HC HF HA) as (es' & Ee' & R2). rewrite Ee in Ee'. injection Ee' as <-. split.
    + intros s t Hst. pose proof (living_off false inf s t (points E0) (proj1 Hst) HB) as X. change (living false inf s t (off (points E0)) = living false inf s t (points E0)) in X. rewrite X, !HP, Epts. apply R1; lia.
    + intros t Ht. pose proof (living_off false inf t t (points E0) (Z.le_refl t) HB) as X. change (living false inf t t (off (points E0)) = living false inf t t (points E0)) in X. rewrite X, HP, Epts. apply R2; lia.
Qed.

(** FINDING: a grid with a single point has one component, but nothing is printed. *)
Definition point_text_file : str := vtk_with "1 1 1" "1 float" ["0 0 0"; "POINT_DATA 1"; "7"]%string.
Definition grid_file : str := vtk_with "3 2 1" "6 float" ["0 0 0 1 0 0"; "2 0 0 0 1 0"; "1 1 0  2 1 0 "; "POINT_DATA 6"; "SCALARS density double 1"; "LOOKUP_TABLE default"; " 5 3"; "4 1 2 6"]%string.
Ltac expression k e := exists k; split; [exact (padded_of k)|refine (proj1 (e _ _) _) || refine (proj1 (e _ _ _) _) || refine (proj1 (e _ _ _ _) _) || refine (proj1 (e _) _); vm_compute; reflexivity].
Lemma no_newlines (ls : list str) : forallb (fun l => negb (existsb (Ascii.eqb newline) l)) ls = true -> forall l, In l ls -> ~ In newline l.
Proof.
  intros F l Hl X. rewrite forallb_forall in F. specialize (F l Hl). apply negb_true_iff in F. assert (existsb (Ascii.eqb newline) l = true) by (apply existsb_exists; exists newline; split; [exact X|apply Ascii.eqb_refl]). congruence.
Qed.
Lemma point_file_ok : vtk_grid int_conv 1 1 1 [7%Z] point_text_file.
Proof.
  pose proof C132_expressions as (e1 & e2 & e3 & e4 & e5 & _ & _).
  exists 1%N, 4, (map chars ["# vtk DataFile Version 3.0"; "any text"; " ASCII "; "DATASET STRUCTURED_GRID"; "DIMENSIONS 1 1 1"; "POINTS 1 float"]%string), [chars "0 0 0"], [Attribute; Values [chars "7"]], (map chars ["POINT_DATA 1"; "7"]%string).
  split; [reflexivity|]. split; [apply no_newlines; vm_compute; reflexivity|]. split; [|split; [|split; [|split; reflexivity]]].
  - do 6 eexists. exists (chars "3"), (chars "0"), (chars "1"), (chars "1"), (chars "1"), (chars "1"), "float"%string. split; [reflexivity|].
    split; [expression (chars "# vtk DataFile Version 3.0") e1|]. split; [exact (padded_of (chars " ASCII "))|]. split; [expression (chars "DATASET STRUCTURED_GRID") e2|]. split; [expression (chars "DIMENSIONS 1 1 1") e3|].
    do 3 (split; [split; [exact (print_nat_numeral 1)|reflexivity]|]). split; [expression (chars "POINTS 1 float") e4|]. split; [split; [exact (print_nat_numeral 1)|reflexivity]|]. simpl. tauto.
  - split; [discriminate|]. split; [reflexivity|]. exists [[chars "0"; chars "0"; chars "0"]]. split; [constructor; [apply words_iff; reflexivity|constructor]|]. split; [repeat constructor; discriminate|reflexivity].
  - constructor; [apply (line_count 1 (chars "1")); [apply e5; vm_compute; reflexivity|split; [exact (print_nat_numeral 1)|reflexivity]]|]. constructor; [|constructor]. apply line_values; [apply words_iff; reflexivity|]. do 3 eexists. split; [reflexivity|]. vm_compute. intuition discriminate.
Qed.
Theorem C181_single_point_refuted : ~ (forall conv inf order a superlevel z text, (forall l, Permutation (order l) l) -> vtk_grid conv 1 1 1 [z] text -> (z < inf)%Z ->
  exists D rest, vtk_example conv inf order a superlevel text = Ok (flat_map (point_text inf) D ++ rest) /\ D <> []).
Proof.
  intro H. destruct (H int_conv 2000%Z (fun l => l) AStandard false 7%Z point_text_file (fun l => Permutation_refl l) point_file_ok ltac:(lia)) as (D & rest & E & N).
  assert (X : vtk_example int_conv 2000 (fun l => l) AStandard false point_text_file = Ok []) by (vm_compute; reflexivity). rewrite X in E. destruct D as [|[x y] D]; [apply N; reflexivity|].
  apply (f_equal (fun o => match o with Ok t => length t | _ => 0 end)) in E. cbn [flat_map] in E. unfold point_text in E. rewrite !app_length in E. cbn [length] in E. lia.
Qed.
(** two rows 5 3 4 and 1 2 6: below all thresholds there is one component; above thresholds components start at 6 and 5 and are joined at 3 *)
Example C181_rows : vtk_example int_conv 2000 (fun l => l) AStandard false grid_file = Ok (chars "1" ++ [tab] ++ chars "inf" ++ [newline; newline]) /\
  vtk_example int_conv 2000 (fun l => l) ATwist true grid_file = Ok (chars "6" ++ [tab] ++ chars "inf" ++ [newline] ++ chars "5" ++ [tab] ++ chars "3" ++ [newline; newline]).
Proof. split; vm_compute; reflexivity. Qed.

Print Assumptions C181_grid.
Print Assumptions C181_single_point_refuted.
