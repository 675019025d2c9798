(** * Property C180: the example for meshes. *)
From Coq Require Import String Ascii.
From Coq Require Import List Arith Bool NArith ZArith Lia Sorted Permutation.
From Verif Require Import Base BaseFacts Simplex SimplexFacts SpecComplex Complex ComplexFacts FiltrationFacts Quotient History SubcomplexFacts PropertiesComplex PropertiesDowker PropertiesComponents PropertiesIntersectionTool PropertiesLevels
  Matrix SpecMatrix SpecDiagram Diagram DiagramFacts PropertiesDiagram PropertiesDiagramDims SpecSimplicial SimplicialFacts JoinFacts SublevelFacts PropertiesSublevel
  LoadMatrix SpecText LoadFacts StringUtilities PropertiesString PropertiesPajek Ply PropertiesPly DiagramIO ImageTool PropertiesImage PlyTool.
Import ListNotations.
Local Open Scope list_scope.
Local Open Scope nat_scope.

(** ** Specification *)
(** a file with the vertices and triangles of a mesh; [ws] are the values of the property *)
Definition ply_mesh (conv : str -> Z) (stod : str -> outcome Z) (property : str) (ws : list Z) (ts : list (nat * nat * nat)) (text : str) : Prop :=
  exists n m names more header vertices faces rest, text = text_of (header ++ vertices ++ faces ++ rest) [] /\
    (forall l, In l (header ++ vertices ++ faces ++ rest) -> ~ In newline l) /\
    ply_header n m names more header /\ NoDup names /\ Forall2 (vertex_row conv stod property names more) ws vertices /\ Forall2 face_row ts faces /\
    n = N.of_nat (length ws) /\ m = N.of_nat (length ts) /\ ws <> [] /\ ts <> [] /\ Forall (proper (length ws)) ts.
(** the vertices, the triangles and their edges *)
Definition mesh_of (ws : list Z) (ts : list (nat * nat * nat)) (K : complex) : Prop :=
  reachable K /\ closed (by_index K) /\
  forall vs, vs <> [] -> (has (by_index K) vs <-> (exists v, v < length ws /\ set_eq vs [v]) \/ exists T, In T ts /\ subset vs (tri T)).
(** the part of the mesh whose vertices have values at most (at least) [t] *)
Definition mesh_part (superlevel : bool) (ws : list Z) (t : Z) (K : complex) : list simplex :=
  filter (fun s => forallb (fun v => if superlevel then (t <=? nth v ws 0)%Z else (nth v ws 0 <=? t)%Z) (verts s)) (by_index K).
Definition property_or_z (property : str) : str := match property with [] => chars "z" | _ => property end.

(** ** Facts *)
Lemma foldM_keeps {A B} (f : A -> B -> outcome A) (P : A -> Prop) l : (forall a b a', P a -> f a b = Ok a' -> P a') -> forall a a', P a -> foldM f l a = Ok a' -> P a'.
Proof.
  intro H. induction l as [|b l IH]; intros a a' Pa E; cbn [foldM] in E; [injection E as <-; exact Pa|]. apply bind_ok in E. destruct E as (c & E1 & E2). apply (IH c a'); [|exact E2]. apply (H a b c Pa E1).
Qed.
Lemma ply_wf conv stod property ends h lines c l : parseASCII conv stod property ends h lines = Ok (c, l) -> forall s, In s l -> wf s.
Proof.
  unfold parseASCII. intro E. apply bind_ok in E. destruct E as ([[[ls li] co] si] & E1 & E). apply bind_ok in E. destruct E as ([[[ls2 li2] ed] si2] & E2 & E). cbn [snd] in E. injection E as _ <-.
  assert (H1 : forall s, In s si -> wf s).
  { refine (foldM_keeps _ (fun st : list str * str * list (list Z) * list simplex => forall s, In s (snd st) -> wf s) _ _ _ _ _ E1); [|intros s []].
    intros [[[a b] d] e] i [[[a' b'] d'] e'] Hs X. unfold parse_vertex in X. destruct (next_line ends a b) as [n1 n2]. repeat (apply bind_ok in X; destruct X as (? & _ & X)). injection X as <- <- <- <-. cbn [snd] in *.
    intros s Hin. apply in_app_or in Hin. destruct Hin as [Hin|[<-|[]]]; [apply Hs; exact Hin|]. repeat constructor. }
  refine (foldM_keeps _ (fun st : list str * str * list (nat * nat) * list simplex => forall s, In s (snd st) -> wf s) _ _ _ _ _ E2); [|exact H1].
  clear. intros [[[a b] d] e] i [[[a' b'] d'] e'] Hs X. unfold parse_face in X. destruct (next_line ends a b) as [n1 n2]. destruct (read_unsigned 32 n2) as [[k r0]|]; [|discriminate]. destruct (N.eqb k 3); [|discriminate].
  destruct (read_unsigned 32 r0) as [[i1 r1]|]; [|discriminate]. destruct (read_unsigned 32 r1) as [[i2 r2]|]; [|discriminate]. destruct (read_unsigned 32 r2) as [[i3 r3]|]; [|discriminate].
  apply bind_ok in X. destruct X as ([ed si] & X1 & X). injection X as <- <- <- <-. cbn [fst snd] in *.
  assert (X2 : forall s, In s si -> wf s); [refine (foldM_keeps _ (fun st : list (nat * nat) * list simplex => forall s, In s (snd st) -> wf s) _ _ _ _ _ X1); [|exact Hs]|clear X1; rename X2 into X1].
  2: intros s Hin; apply in_app_or in Hin; destruct Hin as [Hin|[<-|[]]]; [apply X1; exact Hin|apply simplex_of_wf].
  - clear. intros [ed si] x [ed' si'] Hs Y. unfold parse_edge in Y. apply bind_ok in Y. destruct Y as (u & _ & Y). apply bind_ok in Y. destruct Y as (v & _ & Y). destruct (existsb _ ed); injection Y as <- <-; [exact Hs|].
    cbn [snd] in *. intros s Hin. apply in_app_or in Hin. destruct Hin as [Hin|[<-|[]]]; [apply Hs; exact Hin|apply simplex_of_wf].
Qed.
Lemma ply_reachable conv stod lowest highest property text K : readPLY conv stod lowest highest property text = Ok K -> reachable K.
Proof.
  unfold readPLY. set (ends := match rev text with [] => true | c :: _ => Ascii.eqb c newline end). clearbody ends. destruct (getlines [] text) as [|l1 [|l2 lines]]; try discriminate.
  destruct (negb (str_eqb (trim l1) (chars "ply"))); [discriminate|]. destruct (negb (Ply.starts "format" (trim l2))); [discriminate|]. intro E. apply bind_ok in E. destruct E as (binary & _ & E). apply bind_ok in E. destruct E as ([h rest] & _ & E).
  destruct (_ || _) in E; [discriminate|]. apply bind_ok in E. destruct E as ([c l] & E1 & E). apply bind_ok in E. destruct E as (K0 & E2 & E). cbn [snd] in E2.
  assert (W : forall s, In s l -> wf s).
  { destruct binary; [|apply (ply_wf _ _ _ _ _ _ _ _ E1)]. unfold parseBinary in E1. destruct (existsb _ _) in E1; [discriminate|]. injection E1 as _ <-. intros s []. }
  assert (R : ran lowest highest K0) by (apply (insert_ran lowest highest k_empty l K0); [exists []; reflexivity|exact W|exact E2]).
  destruct R as [ops ->]. apply (f_equal (fun o => match o with Ok x => x | _ => K end)) in E. rewrite <- E. apply sort_reachable. exists lowest, highest, (ops ++ [RecalculateWeights true false]). unfold k_run. rewrite fold_left_app. reflexivity.
Qed.

Lemma max_exists (f : nat -> Z) vs : vs <> [] -> exists m, is_max_over f vs m.
Proof.
  induction vs as [|v vs IH]; intro N; [contradiction|]. destruct vs as [|w vs]; [exists (f v); split; [exists v; simpl; auto|intros u [<-|[]]; lia]|].
  destruct IH as (m & (u & Hu & Eu) & H); [discriminate|]. destruct (Z.le_gt_cases (f v) m).
  - exists m. split; [exists u; split; [right; exact Hu|exact Eu]|]. intros x [<-|Hx]; [lia|apply H; exact Hx].
  - exists (f v). split; [exists v; split; [left; reflexivity|reflexivity]|]. intros x [<-|Hx]; [lia|specialize (H x Hx); lia].
Qed.
Lemma mesh_closed ws ts K : Forall (proper (length ws)) ts -> reachable K -> mesh_complex ws ts (by_index K) -> mesh_of ws ts K /\ forall t, mesh_part false ws t K = below t (by_index K).
Proof.
  intros HT HR (HS & _ & _ & _).
  assert (HH : forall vs, vs <> [] -> (has (by_index K) vs <-> (exists v, v < length ws /\ set_eq vs [v]) \/ exists T, In T ts /\ subset vs (tri T))).
  { intros vs N. split.
    - intros (s & Hs & Q). apply HS in Hs. destruct Hs as (_ & [(v & Ev & Hv)|(_ & T & HTin & HTs)] & _).
      + left. exists v. split; [exact Hv|]. rewrite Ev in Q. intro u. symmetry. apply Q.
      + right. exists T. split; [exact HTin|]. intros v Hv. apply HTs, Q, Hv.
    - intro H. set (s := simplex_of vs 0). assert (Hv : forall v, In v (verts s) <-> In v vs) by (intro v; apply simplex_of_In). assert (Ns : verts s <> []) by (destruct vs as [|v vs]; [contradiction|]; intro X; assert (In v (verts s)) by (apply Hv; left; reflexivity); rewrite X in *; contradiction).
      destruct (max_exists (fun v => nth v ws 0%Z) (verts s) Ns) as (m & Hm). exists (Simplex (verts s) m). split; [|intro v; cbn [verts]; apply Hv]. apply HS. split; [apply (simplex_of_wf vs 0)|]. split; [|exact Hm]. cbn [verts].
      destruct H as [(v & Lv & Q)|(T & HTin & HTs)].
      + left. exists v. split; [|exact Lv]. pose proof (SSgt_NoDup _ (simplex_of_wf vs 0 : wf s)) as ND.
        assert (A : forall u, In u (verts s) <-> u = v) by (intro u; rewrite (Hv u), (Q u); simpl; intuition). destruct (verts s) as [|x [|y l]].
        * contradiction.
        * f_equal. apply A. left. reflexivity.
        * exfalso. inversion ND as [|? ? N1 _]; subst. apply N1. left. rewrite (proj1 (A x)), (proj1 (A y)); simpl; auto.
      + right. split; [exact Ns|]. exists T. split; [exact HTin|]. intros v Hin. apply HTs, Hv, Hin. }
  assert (HC : closed (by_index K)).
  { intros s vs Hs N Sub. assert (Hh : has (by_index K) (verts s)) by (exists s; split; [exact Hs|intro u; tauto]). assert (Ns : verts s <> []) by (intro X; destruct vs as [|v vs]; [contradiction|]; specialize (Sub v (or_introl eq_refl)); rewrite X in Sub; contradiction).
    apply (HH vs N). apply (HH _ Ns) in Hh. destruct Hh as [(v & Lv & Q)|(T & HTin & HTs)].
    - left. exists v. split; [exact Lv|]. intro u. split; [intro Hu; apply Q, Sub, Hu|]. intros [<-|[]]. destruct vs as [|w vs]; [contradiction|]. assert (In w [v]) as [->|[]] by (apply Q, Sub; left; reflexivity). left. reflexivity.
    - right. exists T. split; [exact HTin|]. intros v Hv. apply HTs, Sub, Hv. }
  split; [split; [exact HR|split; [exact HC|exact HH]]|]. intro t. unfold mesh_part, below. apply filter_ext_in. intros s Hs. apply HS in Hs. destruct Hs as (_ & _ & (v & Hv & Ev) & Hmax). apply eq_true_iff_eq. rewrite forallb_forall, Z.leb_le. split; intro H.
  - specialize (H v Hv). apply Z.leb_le in H. lia.
  - intros u Hu. apply Z.leb_le. specialize (Hmax u Hu). lia.
Qed.
Lemma sorted_ascending L : StronglySorted (fun s t : simplex => (data s < data t)%Z \/ data s = data t /\ length (verts s) <= length (verts t)) L -> ascending_data L.
Proof.
  induction 1 as [|x L HS IH HF]; intros i j s t Hij Hs Ht; [destruct i; discriminate|]. destruct j as [|j]; [lia|]. cbn [nth_error] in Ht. destruct i as [|i]; cbn [nth_error] in Hs; [|apply (IH i j); auto; lia].
  injection Hs as <-. rewrite Forall_forall in HF. apply nth_error_In in Ht. specialize (HF t Ht). lia.
Qed.
Lemma ply_read_mesh conv stod lowest highest property ws ts text : ply_mesh conv stod property ws ts text -> (forall w, In w ws -> (lowest <= w)%Z) ->
  exists K, readPLY conv stod lowest highest property text = Ok K /\ mesh_complex ws ts (by_index K) /\ reachable K.
Proof.
  intros (n & m & names & more & header & vertices & faces & rest & -> & Hnl & Hh & Hn & Hv & Hf & En & Em & Nw & Nt & Hts) Hlow.
  destruct (C133_read conv stod lowest highest property n m names more header vertices faces ws ts rest Hnl Hh Hn Hv Hf En Em Nw Nt Hlow Hts) as (K & E & HK). exists K. split; [exact E|]. split; [exact HK|apply (ply_reachable _ _ _ _ _ _ _ E)].
Qed.
Lemma mesh_vertices ws ts K s v : Forall (proper (length ws)) ts -> mesh_of ws ts K -> In s (by_index K) -> In v (verts s) -> v < length ws.
Proof.
  intros HT (_ & _ & HH) Hs Hv. assert (N : verts s <> []) by (intro X; rewrite X in Hv; contradiction). destruct (proj1 (HH (verts s) N)) as [(u & Lu & Q)|(T & HTin & HTs)]; [exists s; split; [exact Hs|intro u; tauto]| |].
  - apply Q in Hv. destruct Hv as [<-|[]]. exact Lu.
  - rewrite Forall_forall in HT. apply (HT T HTin). apply HTs. exact Hv.
Qed.
Lemma mesh_triangle ws ts K : Forall (proper (length ws)) ts -> ts <> [] -> mesh_of ws ts K -> (exists s, In s (by_index K) /\ length (verts s) = 3) /\ forall s, In s (by_index K) -> length (verts s) <= 3.
Proof.
  intros HT N (HR & HC & HH). pose proof (reachable_kwf K HR) as HK. split.
  - destruct ts as [|[[a b] c] ts]; [contradiction|]. inversion HT as [|? ? [ND _] _]; subst. destruct (proj2 (HH (tri (a, b, c)) ltac:(discriminate))) as (s & Hs & Q); [right; exists (a, b, c); split; [left; reflexivity|intros v Hv; exact Hv]|].
    exists s. split; [exact Hs|]. change 3 with (length (tri (a, b, c))). apply Nat.le_antisymm.
    + apply (NoDup_incl_length (SSgt_NoDup _ (proj1 (kwf_good K HK s Hs)))). intros v Hv. apply Q. exact Hv.
    + apply (NoDup_incl_length ND). intros v Hv. apply Q. exact Hv.
  - intros s Hs. pose proof (kwf_good K HK s Hs) as HG. destruct (proj1 (HH (verts s) (proj2 HG))) as [(u & Lu & Q)|([[a b] c] & HTin & HTs)]; [exists s; split; [exact Hs|intro u; tauto]| |].
    + pose proof (NoDup_incl_length (SSgt_NoDup _ (proj1 HG)) (l' := [u]) (fun v Hv => proj1 (Q v) Hv)) as L. cbn [length] in L. lia.
    + exact (NoDup_incl_length (SSgt_NoDup _ (proj1 HG)) (l' := tri (a, b, c)) HTs).
Qed.

(** ** The example for meshes *)
(** By default the blocks describe the components and the loops of the parts of the mesh below
    all thresholds. *)
Theorem C180_sublevels : forall conv stod lowest highest inf order a property ws ts text, (forall l, Permutation (order l) l) ->
  ply_mesh conv stod (property_or_z property) ws ts text -> (forall w, In w ws -> (lowest <= w < inf)%Z) ->
  exists K D0 D1, mesh_of ws ts K /\
    ply_diagrams conv stod lowest highest inf order a false property text = Ok [Diagram 0 D0; Diagram 1 D1] /\
    ply_example conv stod lowest highest inf order a false property text = Ok (flat_map (point_text inf) D0 ++ [newline; newline] ++ flat_map (point_text inf) D1 ++ [newline; newline]) /\
    (forall p, In p (D0 ++ D1) -> fst p <> snd p) /\
    forall d D, (d = 0 /\ D = D0) \/ (d = 1 /\ D = D1) ->
      (forall s t, (s <= t < inf)%Z -> induced_rank (mesh_part false ws s K) (mesh_part false ws t K) d (alive s t D)) /\
      forall t, (t < inf)%Z -> simplicial_betti (mesh_part false ws t K) d (alive t t D).
Proof.
  intros conv stod lowest highest inf order a property ws ts text Ho HM Hws. pose proof HM as (n & m & names & more & header & vertices & faces & rest & _ & _ & _ & _ & _ & _ & _ & _ & Nw & Nt & Hts).
  destruct (ply_read_mesh conv stod lowest highest _ ws ts text HM) as (K & E & HK & HR); [intros w Hw; apply (Hws w Hw)|]. destruct (mesh_closed ws ts K Hts HR HK) as [HI HP]. pose proof HI as (_ & HC & HH). pose proof HK as (HS & _ & HF & HSS). pose proof (sorted_ascending _ HSS) as HA.
  destruct (mesh_triangle ws ts K Hts Nt HI) as [HT HT'].
  assert (HD : forall s, In s (by_index K) -> (data s <= inf - 1)%Z).
  { intros s Hs. pose proof (proj1 (HS s) Hs) as (_ & _ & (v & Hv & <-) & _). assert (L : v < length ws) by (apply (mesh_vertices ws ts K s v Hts HI Hs Hv)). pose proof (Hws _ (nth_In ws 0%Z L)). lia. }
  destruct (C159_dimensions inf order a K true false Ho HR HC HF) as (M & ds & _ & Ed & Es & _ & _ & Hlen). specialize (Hlen 2 HT HT'). cbn in Hlen.
  rewrite Hlen in Es. destruct ds as [|E0 [|E1 [|]]]; try discriminate. cbn in Es. injection Es as e0 e1. set (off := filter (fun p : point => negb (fst p =? snd p)%Z)).
  assert (Q : forall d D, (d = 0 /\ D = E0) \/ (d = 1 /\ D = E1) -> points_of [E0; E1] d = points D).
  { intros d D [[-> ->]|[-> ->]]; unfold points_of; cbn [filter flat_map]; rewrite e0, e1; cbn; rewrite ?app_nil_r; reflexivity. }
  assert (ED : ply_diagrams conv stod lowest highest inf order a false property text = Ok [Diagram 0 (off (points E0)); Diagram 1 (off (points E1))]).
  { unfold ply_diagrams, ply_complex. fold (property_or_z property). rewrite E. cbn [bind]. rewrite Ed. cbn [bind map]. unfold removeDiagonal. rewrite e0, e1. reflexivity. }
  exists K, (off (points E0)), (off (points E1)). split; [exact HI|]. split; [exact ED|]. split.
  { unfold ply_example. rewrite ED. cbn [bind]. unfold ply_output. cbn [flat_map]. unfold print_points. cbn [dg_points points]. rewrite app_nil_r, <- !app_assoc. reflexivity. }
  split. { intros p Hp. apply in_app_or in Hp. unfold off in Hp. destruct Hp as [Hp|Hp]; apply filter_In in Hp; destruct Hp as [_ Hp]; apply negb_true_iff, Z.eqb_neq in Hp; exact Hp. }
  intros d D Hd. assert (exists F, D = off (points F) /\ ((d = 0 /\ F = E0) \/ (d = 1 /\ F = E1))) as (F & -> & HFd) by (destruct Hd as [[-> ->]|[-> ->]]; eauto 6).
  assert (Hdim : exists s, In s (by_index K) /\ S d < length (verts s)) by (destruct HT as (s & Hs & L); exists s; split; [exact Hs|lia]).
  destruct (all_points inf order a K true d Ho HR HC HF Hdim) as (ds' & es & Ed' & Ee & Epts). rewrite Ed in Ed'. injection Ed' as <-. rewrite (Q d F HFd) in Epts.
  assert (HB : forall p, In p (points F) -> (fst p < inf)%Z). { intros p Hp. rewrite Epts in Hp. pose proof (births_below inf order a K true true es (inf - 1) d p Ho HR HC HF HD Ee Hp). lia. }
  destruct (C178_ranks inf order a K true Ho HR HC HF HA) as (es' & Ee' & R1). rewrite Ee in Ee'. injection Ee' as <-.
  destruct (C178_betti inf order a K true Ho HR HC HF HA) as (es' & Ee' & R2). rewrite Ee in Ee'. injection Ee' as <-. split.
  - intros s t Hst. pose proof (living_off false inf s t (points F) (proj1 Hst) HB) as X. change (alive s t (off (points F)) = alive s t (points F)) in X. rewrite X, !HP, Epts. apply R1; lia.
  - intros t Ht. pose proof (living_off false inf t t (points F) (Z.le_refl t) HB) as X. change (alive t t (off (points F)) = alive t t (points F)) in X. rewrite X, HP, Epts. apply R2; lia.
Qed.

(** ** Superlevel sets *)
Definition surface_text : str := text_of (ply_file "ascii 1.0" (surface ++ ["0 0 0 7"; "1 0 0 5"; " 0 1 0  9 "; "1 1 0 5"; "3 0 1 2"; "3 3 1 2"]%string)) [].
Example C180_surface : ply_mesh int_conv int_stod (chars "quality") [7; 5; 9; 5]%Z [(0, 1, 2); (3, 1, 2)] surface_text /\
  ply_example int_conv int_stod (-1000) 1000 2000 (fun l => l) AStandard false (chars "quality") surface_text = Ok (chars "5" ++ [tab] ++ chars "inf" ++ repeat newline 5) /\
  ply_diagrams int_conv int_stod (-1000) 1000 2000 (fun l => l) AStandard true (chars "quality") surface_text = Ok [Diagram 0 [(5, 2000); (7, 5); (9, 5)]; Diagram 1 [(7, 5)]]%Z.
Proof.
  split; [|split; vm_compute; reflexivity]. destruct C133_hypotheses as (H1 & H2 & H3 & H4).
  exists 4%N, 2%N, (map chars ["x"; "y"; "z"; "quality"]%string), [chars "vertex_indices"], (ply_file "ascii 1.0" surface), (map chars ["0 0 0 7"; "1 0 0 5"; " 0 1 0  9 "; "1 1 0 5"]%string), (map chars ["3 0 1 2"; "3 3 1 2"]%string), [].
  split; [reflexivity|]. split; [|repeat split; auto; try discriminate].
  - intros l Hl X. assert (forallb (fun l => negb (existsb (Ascii.eqb newline) l)) (ply_file "ascii 1.0" surface ++ map chars ["0 0 0 7"; "1 0 0 5"; " 0 1 0  9 "; "1 1 0 5"]%string ++ map chars ["3 0 1 2"; "3 3 1 2"]%string ++ []) = true) as F by (vm_compute; reflexivity).
    rewrite forallb_forall in F. specialize (F l Hl). apply negb_true_iff in F. assert (existsb (Ascii.eqb newline) l = true) by (apply existsb_exists; exists newline; split; [exact X|apply Ascii.eqb_refl]). congruence.
  - cbn [map]. repeat constructor; simpl; intuition discriminate.
Qed.
Definition top_edge : complex := mk [InsertRange [([0], 0%Z); ([2], 0%Z); ([0; 2], 0%Z)]].
Lemma top_edge_betti : simplicial_betti (by_index top_edge) 1 0.
Proof.
  assert (HR : reachable top_edge) by apply mk_reachable. assert (HC : closed (by_index top_edge)) by (apply closed_check; [apply mk_reachable|vm_compute; reflexivity]).
  assert (HF : filtration_order (by_index top_edge)) by (apply filtration_check; vm_compute; reflexivity).
  assert (HA : ascending_data (by_index top_edge)).
  { intros i j s t Hij Hi Hj. vm_compute in Hi, Hj. do 3 (destruct i as [|i]; [injection Hi as <-; do 3 (destruct j as [|j]; [try lia; injection Hj as <-; vm_compute; discriminate|]); destruct j; discriminate|]). destruct i; discriminate. }
  destruct (C178_betti 9 (fun l => l) AStandard _ true (fun l => Permutation_refl l) HR HC HF HA) as (ds & E & H). vm_compute in E. injection E as <-. apply (H 1 0%Z). lia.
Qed.
(** FINDING: for superlevel sets the minimum is used for weights, but the complex is sorted by ascending
    weights, so that faces come after the simplices they belong to.  The points are not those of the
    superlevel sets: for two triangles the program finds a hole between two values where there is none. *)
Theorem C180_superlevels_refuted : ~ (forall conv stod lowest highest inf order a property ws ts text K ds, (forall l, Permutation (order l) l) ->
  ply_mesh conv stod (property_or_z property) ws ts text -> (forall w, In w ws -> (lowest <= w <= highest)%Z) -> (highest < inf)%Z -> mesh_of ws ts K ->
  ply_diagrams conv stod lowest highest inf order a true property text = Ok ds ->
  forall d t, d < 2 -> simplicial_betti (mesh_part true ws t K) d (living true inf t t (points_of ds d))).
Proof.
  intro H. destruct C180_surface as (HM & _ & ED). pose proof HM as (n & m & names & more & header & vertices & faces & rest & _ & _ & _ & _ & _ & _ & _ & _ & _ & _ & Hts).
  destruct (ply_read_mesh int_conv int_stod (-1000) 1000 (chars "quality") _ _ _ HM) as (K & E & HK & HR); [intros w [<-|[<-|[<-|[<-|[]]]]]; lia|]. destruct (mesh_closed _ _ K Hts HR HK) as [HI _].
  specialize (H int_conv int_stod (-1000)%Z 1000%Z 2000%Z (fun l => l) AStandard (chars "quality") _ _ _ K [Diagram 0 [(5, 2000); (7, 5); (9, 5)]; Diagram 1 [(7, 5)]]%Z (fun l => Permutation_refl l) HM).
  specialize (H ltac:(intros w [<-|[<-|[<-|[<-|[]]]]]; lia) ltac:(lia) HI ED 1 7%Z ltac:(lia)). assert (EL : living true 2000 7 7 (points_of [Diagram 0 [(5, 2000); (7, 5); (9, 5)]; Diagram 1 [(7, 5)]]%Z 1) = 1) by reflexivity. rewrite EL in H.
  assert (EV : map verts (mesh_part true [7; 5; 9; 5]%Z 7 K) = map verts (by_index top_edge)).
  { destruct C133_read_example as [R _]. unfold ply_read in R. unfold surface_text in E. rewrite E in R. cbn [bind] in R. injection R as R.
    assert (G : forall L : list simplex, map verts (filter (fun s => forallb (fun v => (7 <=? nth v [7; 5; 9; 5] 0)%Z) (verts s)) L) = map fst (filter (fun p => forallb (fun v => (7 <=? nth v [7; 5; 9; 5] 0)%Z) (fst p)) (map (fun s => (verts s, data s)) L))).
    { clear. induction L as [|s L IH]; [reflexivity|]. cbn [filter map fst]. destruct (forallb _ (verts s)); cbn [map fst]; rewrite IH; reflexivity. }
    unfold mesh_part. rewrite (G (by_index K)), R. vm_compute. reflexivity. }
  destruct H as (z & b & Hz & Hb & Q). rewrite EV in Hz, Hb. destruct top_edge_betti as (z' & b' & Hz' & Hb' & Q').
  assert (z = z') by (eapply p_dim_unique; [|exact Hz|exact Hz']; intros x f [Hx _] Hf; apply Hx; exact Hf).
  assert (b = b') by (eapply p_dim_unique; [|exact Hb|exact Hb']; intros x f Hx Hf; apply (s_boundaries_support _ 1 x Hx f Hf)). lia.
Qed.

Print Assumptions C180_sublevels.
Print Assumptions C180_superlevels_refuted.
