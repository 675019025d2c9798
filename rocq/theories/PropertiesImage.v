(** * Property C179: the example for the analysis of images. *)
From Coq Require Import String Ascii.
From Coq Require Import List Arith Bool ZArith Lia Sorted Permutation.
From Verif Require Import Base BaseFacts Simplex SimplexFacts SpecComplex Complex ComplexFacts FiltrationFacts Subcomplex SubcomplexFacts History PropertiesComplex Matrix SpecMatrix ReductionFacts PairingFacts SpecHomology HomologyFacts PropertiesHomology
  SpecDiagram Diagram DiagramFacts PropertiesDiagram PropertiesDiagramDims PropertiesDowker PropertiesComponents PropertiesLevels SpecSimplicial SimplicialFacts PropertiesSpineHomology SublevelFacts PropertiesSublevel
  LoadMatrix SpecText LoadFacts StringUtilities PropertiesString ReadFacts ReadMatrices PropertiesReadMatrix DiagramIO ImageTool.
Import ListNotations.
Local Open Scope list_scope.
Local Open Scope nat_scope.

(** ** Specification *)
(** the triangulated image: sets of neighbouring cells *)
Definition image_of (rows : list (list Z)) (w : nat) (K : complex) : Prop :=
  reachable K /\ closed (by_index K) /\
  forall vs, NoDup vs -> vs <> [] -> (has (by_index K) vs <-> (forall v, In v vs -> v < length rows * w) /\ grid_clique w vs /\ length vs <= 3).
(** the part of the image with values at most [t], or at least [t]: all cells are in it *)
Definition part (superlevel : bool) (rows : list (list Z)) (w : nat) (t : Z) (K : complex) : list simplex :=
  filter (fun s => forallb (fun v => if superlevel then (t <=? PropertiesReadMatrix.entry rows w v)%Z else (PropertiesReadMatrix.entry rows w v <=? t)%Z) (verts s)) (by_index K).
(** the points alive from [s] to [t] *)
Definition living (superlevel : bool) (inf s t : Z) (l : list point) : nat := if superlevel then alive_above inf s t l else alive s t l.
(** the text of a diagram *)
Definition point_text (inf : Z) (p : point) : str := show_value inf (fst p) ++ [tab] ++ show_value inf (snd p) ++ [newline].

(** ** Facts *)
Lemma all_points inf order a K dual d : (forall l, Permutation (order l) l) -> reachable K -> closed (by_index K) -> filtration_order (by_index K) -> (exists s, In s (by_index K) /\ S d < length (verts s)) ->
  exists ds es, calculatePersistenceDiagrams inf order a K dual false = Ok ds /\ calculatePersistenceDiagrams inf order a K dual true = Ok es /\ points_of ds d = points_of es d.
Proof.
  intros Ho HR HC HF Hd. destruct (pipeline inf K false HR HC HF) as (M & p & p1 & ds & E & HV & HL & Hdims & Hp & Hp1 & Hb & Ed & H).
  destruct (pipeline inf K true HR HC HF) as (M' & p' & p1' & es & E' & HV' & HL' & Hdims' & Hp' & Hp1' & Hb' & Ed' & H'). rewrite E in E'. injection E' as <-. cbn in Hp1, Hp1'. subst p1'.
  assert (p = p') as <- by (eapply is_pairing_unique; eassumption).
  exists ds, es. split; [apply H; exact Ho|]. split; [apply H'; exact Ho|]. rewrite (points_of_pairs inf K p1 ds d (reachable_kwf _ HR) Hb Ed), (points_of_pairs inf K p es d (reachable_kwf _ HR) Hb' Ed'). f_equal.
  subst p1. rewrite filter_filter. apply filter_ext_in. intros [u [v|]] Hq; cbn [fst snd]; auto.
  destruct (Nat.eqb_spec (dim_at K u) d) as [Eu|Eu]; [|apply andb_false_r]. rewrite andb_true_r.
  assert (Hu : u < k_size K) by (apply (Hb' _ Hq)).
  assert (X : nth u (dims M) 0 = dim_at K u).
  { rewrite Hdims. unfold dim_at. destruct (nth_error (by_index K) u) as [s|] eqn:Es; [|apply nth_error_None in Es; unfold k_size in Hu; lia]. rewrite (nth_error_nth _ _ dummy_simplex Es). apply (map_nth_error sdim) in Es. apply (nth_error_nth _ _ 0 Es). }
  apply negb_true_iff, Nat.eqb_neq. rewrite X. destruct Hd as (s & Hs & Hd). intro Ex.
  assert (sdim s <= List.list_max (dims M)).
  { assert (Q : Forall (fun k => k <= List.list_max (dims M)) (dims M)) by (apply List.list_max_le; auto). rewrite Forall_forall in Q. apply Q. rewrite Hdims. apply in_map; auto. }
  unfold sdim in *. lia.
Qed.

Lemma entry_le lo hi rows w text v : matrix_file lo hi rows w text -> 0 < w -> v < length rows * w -> (PropertiesReadMatrix.entry rows w v <= hi)%Z.
Proof.
  intros (lines & _ & _ & Hr) Hw Hv. unfold PropertiesReadMatrix.entry. assert (Q : v / w < length rows) by (apply Nat.div_lt_upper_bound; lia).
  destruct (Hr (nth (v / w) rows []) (nth_In _ _ Q)) as [L F]. rewrite Forall_forall in F. apply F. apply nth_In. rewrite L. apply Nat.mod_upper_bound. lia.
Qed.

(** the values of the simplices *)
Definition value_of (super : bool) (rows : list (list Z)) (w : nat) (s : simplex) : Prop :=
  forall t, if super then (t <= data s)%Z <-> forall v, In v (verts s) -> (t <= PropertiesReadMatrix.entry rows w v)%Z
            else (data s <= t)%Z <-> forall v, In v (verts s) -> (PropertiesReadMatrix.entry rows w v <= t)%Z.
Lemma grid_values lo hi (super : bool) rows w text : matrix_file lo hi rows w text -> rows <> [] -> 0 < w ->
  exists K, read_matrix lo hi true (if super then Z.min else Z.max) text = Ok K /\ image_of rows w K /\ forall s, In s (by_index K) -> value_of super rows w s.
Proof.
  intros HM Hr Hw. destruct (C86_matrix lo hi true (if super then Z.min else Z.max) rows w text HM Hr Hw) as (K & E & HR & HC & _ & HH & V1 & V2 & V3 & _).
  exists K. split; [exact E|]. split; [split; [exact HR|split; [exact HC|exact HH]]|]. intros s Hs. pose proof (kwf_good K (reachable_kwf K HR) s Hs) as HG.
  assert (L : length (verts s) <= 3).
  { apply (HH (verts s)); [apply SSgt_NoDup; apply HG|intro X; apply HG; exact X|]. exists s. split; [exact Hs|intro v; tauto]. }
  specialize (V1 s). specialize (V2 s). specialize (V3 s). unfold value_of. destruct (verts s) as [|a [|b [|c [|]]]] eqn:Ev; [exfalso; apply HG; exact Ev| | | |simpl in L; lia]; intro t.
  - rewrite (V1 a Hs eq_refl). clear. destruct super; (split; [intros H v [<-|[]]; exact H|intro H; apply H; simpl; auto]).
  - rewrite (V2 b a Hs eq_refl). clear. destruct super; (split; [intros H v [<-|[<-|[]]]; lia|intro H; pose proof (H a ltac:(simpl; auto)); pose proof (H b ltac:(simpl; auto)); lia]).
  - rewrite (V3 c b a Hs eq_refl). clear. destruct super, (b =? c + 1); (split; [intros H v [<-|[<-|[<-|[]]]]; lia|intro H; pose proof (H a ltac:(simpl; auto)); pose proof (H b ltac:(simpl; auto)); pose proof (H c ltac:(simpl; auto)); lia]).
Qed.

Lemma image_of_perm rows w K cmp : image_of rows w K -> image_of rows w (k_sort cmp K) /\ Permutation (by_index K) (by_index (k_sort cmp K)).
Proof.
  intros (HR & HC & HH). assert (P : Permutation (by_index K) (by_index (k_sort cmp K))) by (unfold k_sort; cbn [by_index]; apply Permutation_sym, cpp_sort_perm).
  split; [|exact P]. split; [apply sort_reachable; exact HR|]. split; [eapply closed_perm; [exact P|exact HC]|]. intros vs N E. rewrite <- (HH vs N E). unfold has. split; intros (s & Hs & Q); exists s; (split; [|exact Q]).
  - eapply Permutation_in; [apply Permutation_sym; exact P|exact Hs].
  - eapply Permutation_in; [exact P|exact Hs].
Qed.

Lemma image_facts lo hi (super : bool) rows w text : matrix_file lo hi rows w text -> rows <> [] -> 0 < w ->
  exists K, image_complex lo hi super text = Ok K /\ image_of rows w K /\ filtration_order (by_index K) /\
    (if super then descending_data (by_index K) else ascending_data (by_index K)) /\
    (forall s, In s (by_index K) -> (data s <= hi)%Z) /\
    forall t, part super rows w t K = if super then above t (by_index K) else below t (by_index K).
Proof.
  intros HM Hr Hw. destruct (grid_values lo hi super rows w text HM Hr Hw) as (K & E & HI & HV). pose proof HI as (HR & HC & HH). pose proof (reachable_kwf K HR) as HK.
  exists (k_sort (if super then data_cmp_greater else data_cmp) K). destruct (image_of_perm rows w K (if super then data_cmp_greater else data_cmp) HI) as [HI' P].
  assert (HV' : forall s, In s (by_index (k_sort (if super then data_cmp_greater else data_cmp) K)) -> value_of super rows w s) by (intros s Hs; apply HV; eapply Permutation_in; [apply Permutation_sym; exact P|exact Hs]).
  split; [unfold image_complex; destruct super; rewrite E; reflexivity|]. split; [exact HI'|]. refine (conj _ (conj _ (conj _ _))).
  - destruct super.
    + apply filtration_data_greater; [exact HK|]. intros s t Hs Ht HS. apply (HV t Ht). intros v Hv. apply (proj1 (HV s Hs (data s))); [lia|apply HS; exact Hv].
    + apply filtration_data; [exact HK|]. intros s t Hs Ht HS. apply (HV t Ht). intros v Hv. apply (proj1 (HV s Hs (data s))); [lia|apply HS; exact Hv].
  - clear. destruct super; intros i j s t Hij Hs Ht; unfold k_sort in Hs, Ht; cbn [by_index] in Hs, Ht.
    + assert (X : (- data s <= - data t)%Z); [|lia].
      eapply (sorted_by_value data_cmp_greater (fun s => (- data s)%Z)); [apply data_cmp_greater_swo| |exact Hij|exact Hs|exact Ht].
      clear. intros s t H. unfold data_cmp_greater in H. destruct (Z.eqb_spec (data t) (data s)); [lia|]. apply Z.ltb_ge in H. lia.
    + eapply (sorted_by_value data_cmp data); [apply data_cmp_swo| |exact Hij|exact Hs|exact Ht].
      clear. intros s t H. unfold data_cmp in H. destruct (Z.eqb_spec (data t) (data s)); [lia|]. apply Z.ltb_ge in H. lia.
  - intros s Hs. apply (Permutation_in _ (Permutation_sym P)) in Hs. pose proof (kwf_good K HK s Hs) as HG.
    assert (L : forall v, In v (verts s) -> (PropertiesReadMatrix.entry rows w v <= hi)%Z).
    { intros v Hv. apply (entry_le lo hi rows w text v HM Hw). apply (proj1 (HH (verts s) (SSgt_NoDup _ (proj1 HG)) (proj2 HG))); [|exact Hv]. exists s. split; [exact Hs|intro u; tauto]. }
    pose proof (HV s Hs) as X. unfold value_of in X. destruct super.
    + destruct (verts s) as [|v l] eqn:Ev; [exfalso; apply (proj2 HG); exact Ev|]. pose proof (proj1 (X (data s)) ltac:(lia) v ltac:(simpl; auto)). pose proof (L v ltac:(simpl; auto)). lia.
    + apply (X hi). exact L.
  - intro t. unfold part, above, below. destruct super; apply filter_ext_in; intros s Hs; apply eq_true_iff_eq; rewrite forallb_forall, Z.leb_le; pose proof (HV' s Hs t) as X; cbn in X; (split; intro H).
    + apply X. intros v Hv. apply Z.leb_le. apply H. exact Hv.
    + intros v Hv. apply Z.leb_le. apply X; assumption.
    + apply X. intros v Hv. apply Z.leb_le. apply H. exact Hv.
    + intros v Hv. apply Z.leb_le. apply X; assumption.
Qed.

(** births are values *)
Lemma births_below inf order a K dual all ds hi d p : (forall l, Permutation (order l) l) -> reachable K -> closed (by_index K) -> filtration_order (by_index K) -> (forall s, In s (by_index K) -> (data s <= hi)%Z) ->
  calculatePersistenceDiagrams inf order a K dual all = Ok ds -> In p (points_of ds d) -> (fst p <= hi)%Z.
Proof.
  intros Ho HR HC HF HD E Hp. destruct (pipeline inf K all HR HC HF) as (M & q & p1 & es & _ & _ & _ & _ & _ & _ & Hb & Ed & H). rewrite (H order a dual Ho) in E. injection E as <-.
  rewrite (points_of_pairs inf K p1 es d (reachable_kwf _ HR) Hb Ed) in Hp. apply in_map_iff in Hp. destruct Hp as (x & <- & Hx). apply filter_In in Hx. unfold pair_point. cbn [fst]. apply HD, nth_In. apply (Hb x). apply Hx.
Qed.

Lemma living_off (super : bool) inf s t l : (if super then t <= s else s <= t)%Z -> (forall p, In p l -> (fst p < inf)%Z) -> living super inf s t (filter (fun p => negb (fst p =? snd p)%Z) l) = living super inf s t l.
Proof.
  intros H HI. unfold living, alive_above, alive. destruct super; rewrite filter_filter; f_equal; apply filter_ext_in; intros p Hp; specialize (HI p Hp).
  - destruct (Z.eqb_spec (fst p) (snd p)); cbn; [|reflexivity]. destruct (Z.leb_spec s (fst p)), (Z.ltb_spec (snd p) t), (Z.eqb_spec (snd p) inf); cbn; auto; lia.
  - destruct (Z.eqb_spec (fst p) (snd p)); cbn; [|reflexivity]. destruct (Z.leb_spec (fst p) s), (Z.ltb_spec t (snd p)); cbn; auto; lia.
Qed.

(** a triangle *)
Lemma image_triangle rows w K : image_of rows w K -> 2 <= length rows -> 2 <= w -> (exists s, In s (by_index K) /\ length (verts s) = 3) /\ forall s, In s (by_index K) -> length (verts s) <= 3.
Proof.
  intros (HR & HC & HH) Hr Hw. pose proof (reachable_kwf K HR) as HK. split.
  - assert (N : NoDup [0; 1; w + 1]) by (repeat constructor; simpl; intuition lia). destruct (proj2 (HH [0; 1; w + 1] N ltac:(discriminate))) as (s & Hs & Q).
    + split; [intros v [<-|[<-|[<-|[]]]]; nia|]. split; [|simpl; lia].
      assert (A : 0 mod w = 0 /\ 0 / w = 0) by (split; [apply Nat.mod_small|apply Nat.div_small]; lia). assert (B : 1 mod w = 1 /\ 1 / w = 0) by (split; [apply Nat.mod_small|apply Nat.div_small]; lia).
      pose proof (coordinates w 1 1 ltac:(lia)) as C. replace (w * 1 + 1) with (w + 1) in C by lia. destruct A as [A1 A2], B as [B1 B2], C as [C1 C2].
      intros u v Hu Hv Hne. unfold next_cell. destruct Hu as [<-|[<-|[<-|[]]]], Hv as [<-|[<-|[<-|[]]]]; rewrite ?A1, ?A2, ?B1, ?B2, ?C1, ?C2; lia.
    + exists s. split; [exact Hs|]. change 3 with (length [0; 1; w + 1]). apply Nat.le_antisymm.
      * apply (NoDup_incl_length (SSgt_NoDup _ (proj1 (kwf_good K HK s Hs)))). intros v Hv. apply Q. exact Hv.
      * apply (NoDup_incl_length N). intros v Hv. apply Q. exact Hv.
  - intros s Hs. pose proof (kwf_good K HK s Hs) as HG. apply (proj1 (HH (verts s) (SSgt_NoDup _ (proj1 HG)) (proj2 HG))). exists s. split; [exact Hs|intro u; tauto].
Qed.

(** ** The example for images *)
(** The program prints two blocks of points, each followed by an empty line: they describe
    the connected components and the holes of the parts of the image, and no point is on
    the diagonal. *)
Theorem C179_image : forall lo hi inf order a superlevel rows w text, (forall l, Permutation (order l) l) ->
  matrix_file lo hi rows w text -> 2 <= length rows -> 2 <= w -> (hi < inf)%Z ->
  exists K D0 D1, image_of rows w K /\
    image_analysis lo hi inf order a superlevel text = Ok (flat_map (point_text inf) D0 ++ [newline] ++ flat_map (point_text inf) D1 ++ [newline]) /\
    (forall p, In p (D0 ++ D1) -> fst p <> snd p) /\
    forall d D, (d = 0 /\ D = D0) \/ (d = 1 /\ D = D1) ->
      (forall s t, (if superlevel then t <= s else s <= t < inf)%Z -> induced_rank (part superlevel rows w s K) (part superlevel rows w t K) d (living superlevel inf s t D)) /\
      forall t, (t < inf)%Z -> simplicial_betti (part superlevel rows w t K) d (living superlevel inf t t D).
Proof.
  intros lo hi inf order a superlevel rows w text Ho HM Hr Hw Hinf. destruct (image_facts lo hi superlevel rows w text HM) as (K & E & HI & HF & HA & HD & HP); [intros ->; simpl in Hr; lia|lia|].
  pose proof HI as (HR & HC & HH). destruct (image_triangle rows w K HI Hr Hw) as [HT HT'].
  destruct (C159_dimensions inf order a K true false Ho HR HC HF) as (M & ds & _ & Ed & Es & _ & _ & Hlen). specialize (Hlen 2 HT HT'). cbn in Hlen.
  rewrite Hlen in Es. destruct ds as [|E0 [|E1 [|]]]; try discriminate. cbn in Es. injection Es as e0 e1. set (off := filter (fun p : point => negb (fst p =? snd p)%Z)).
  assert (Q : forall d D, (d = 0 /\ D = E0) \/ (d = 1 /\ D = E1) -> points_of [E0; E1] d = points D).
  { intros d D [[-> ->]|[-> ->]]; unfold points_of; cbn [filter flat_map]; rewrite e0, e1; cbn; rewrite ?app_nil_r; reflexivity. }
  exists K, (off (points E0)), (off (points E1)). split; [exact HI|]. split.
  { unfold image_analysis. rewrite E. cbn [bind]. rewrite Ed. cbn [bind]. unfold image_output. cbn [flat_map]. unfold print_points, removeDiagonal. cbn [dg_points points]. rewrite app_nil_r, <- !app_assoc. reflexivity. }
  split. { intros p Hp. apply in_app_or in Hp. unfold off in Hp. destruct Hp as [Hp|Hp]; apply filter_In in Hp; destruct Hp as [_ Hp]; apply negb_true_iff, Z.eqb_neq in Hp; exact Hp. }
  intros d D Hd. assert (exists F, D = off (points F) /\ ((d = 0 /\ F = E0) \/ (d = 1 /\ F = E1))) as (F & -> & HFd) by (destruct Hd as [[-> ->]|[-> ->]]; eauto 6).
  assert (Hdim : exists s, In s (by_index K) /\ S d < length (verts s)) by (destruct HT as (s & Hs & L); exists s; split; [exact Hs|lia]).
  destruct (all_points inf order a K true d Ho HR HC HF Hdim) as (ds' & es & Ed' & Ee & Epts). rewrite Ed in Ed'. injection Ed' as <-. rewrite (Q d F HFd) in Epts.
  assert (HB : forall p, In p (points F) -> (fst p < inf)%Z). { intros p Hp. rewrite Epts in Hp. pose proof (births_below inf order a K true true es hi d p Ho HR HC HF HD Ee Hp). lia. }
  assert (HIn : forall s, In s (by_index K) -> (data s < inf)%Z) by (intros s Hs; specialize (HD s Hs); lia).
  destruct superlevel.
  - destruct (C178_superlevel inf order a K true Ho HR HC HF HA HIn) as (es' & Ee' & R1 & R2). rewrite Ee in Ee'. injection Ee' as <-. split.
    + intros s t Hst. unfold off. rewrite living_off by assumption. rewrite !HP, Epts. apply R1.
    + intros t _. unfold off. rewrite living_off; [|lia|exact HB]. rewrite HP, Epts. apply R2.
  - destruct (C178_ranks inf order a K true Ho HR HC HF HA) as (es' & Ee' & R1). rewrite Ee in Ee'. injection Ee' as <-.
    destruct (C178_betti inf order a K true Ho HR HC HF HA) as (es' & Ee' & R2). rewrite Ee in Ee'. injection Ee' as <-. split.
    + intros s t Hst. unfold off. rewrite living_off; [|lia|exact HB]. rewrite !HP, Epts. apply R1; lia.
    + intros t Ht. unfold off. rewrite living_off; [|lia|exact HB]. rewrite HP, Epts. apply R2; lia.
Qed.

(** An image with a single row has no holes to describe: only components are printed.  The
    image with a single cell has one component, but nothing is printed. *)
Theorem C179_single_cell_refuted : ~ (forall lo hi inf order a superlevel z text, (forall l, Permutation (order l) l) ->
  matrix_file lo hi [[z]] 1 text -> (hi < inf)%Z -> exists D rest, image_analysis lo hi inf order a superlevel text = Ok (flat_map (point_text inf) D ++ rest) /\ D <> []).
Proof.
  intro H. destruct (H 0 9 10 (fun l => l) AStandard false 5 (chars "5" ++ [newline]))%Z as (D & rest & E & N); [intro; apply Permutation_refl| |lia|].
  - exists [chars "5"]. split; [apply (file_terminated [chars "5"]); repeat constructor; unfold no_newline, chars, newline; simpl; intuition discriminate|]. split.
    + constructor; [|constructor]. apply (denotes_cons [] 5 [] []); [constructor|intros c t X; discriminate|constructor; constructor].
    + intros r [<-|[]]. split; [reflexivity|]. repeat constructor; lia.
  - assert (X : image_analysis 0 9 10 (fun l => l) AStandard false (chars "5" ++ [newline]) = Ok []) by (vm_compute; reflexivity). rewrite X in E. destruct D as [|[x y] D]; [apply N; reflexivity|].
    apply (f_equal (fun o => match o with Ok t => length t | _ => 0 end)) in E. cbn [flat_map] in E. unfold point_text in E. rewrite !app_length in E. cbn [length] in E. lia.
Qed.

(** A ring of low values around a high one: the sublevel sets have one component, which never
    dies, and a hole from 1 to 9; the superlevel sets have the peak in the middle and the ring. *)
Definition ring_text : str := chars "1 1 1" ++ [newline] ++ chars "1 9 1" ++ [newline] ++ chars "1 1 0" ++ [newline].
Example C179_ring : image_analysis 0 99 100 (fun l => l) AStandard false ring_text = Ok (chars "0" ++ [tab] ++ chars "inf" ++ [newline; newline] ++ chars "1" ++ [tab] ++ chars "9" ++ [newline; newline]) /\
  image_analysis 0 99 100 (fun l => l) ATwist true ring_text = Ok (chars "9" ++ [tab] ++ chars "inf" ++ [newline; newline; newline]).
Proof. split; vm_compute; reflexivity. Qed.
Example C179_ring_file : matrix_file 0 99 [[1; 1; 1]; [1; 9; 1]; [1; 1; 0]]%Z 3 ring_text.
Proof.
  exists [chars "1 1 1"; chars "1 9 1"; chars "1 1 0"]. refine (conj _ (conj _ _)).
  - apply (file_terminated [chars "1 1 1"; chars "1 9 1"; chars "1 1 0"]). repeat constructor; unfold no_newline, chars, newline; simpl; intuition discriminate.
  - assert (G : forall a b c, (0 <= a <= 9)%Z -> denotes (print_Z a ++ chars " " ++ print_Z b ++ chars " " ++ print_Z c) [a; b; c]).
    { intros a b c _. apply (denotes_cons [] a (chars " " ++ print_Z b ++ chars " " ++ print_Z c) [b; c]); [constructor|intros x t E; injection E as <- _; reflexivity|].
      apply (denotes_cons (chars " ") b (chars " " ++ print_Z c) [c]); [repeat constructor|intros x t E; injection E as <- _; reflexivity|].
      replace (chars " " ++ print_Z c) with (chars " " ++ print_Z c ++ []) by (rewrite app_nil_r; reflexivity). apply (denotes_cons (chars " ") c [] []); [repeat constructor|intros x t E; discriminate|constructor; constructor]. }
    constructor; [apply (G 1 1 1)%Z; lia|]. constructor; [apply (G 1 9 1)%Z; lia|]. constructor; [apply (G 1 1 0)%Z; lia|constructor].
  - intros r [<-|[<-|[<-|[]]]]; (split; [reflexivity|repeat constructor; lia]).
Qed.

Print Assumptions C179_image.
Print Assumptions C179_single_cell_refuted.
