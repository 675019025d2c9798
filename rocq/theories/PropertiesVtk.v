(** * Structured grids in VTK files (C132) *)
From Coq Require Import String Ascii List Arith Bool NArith ZArith Lia Permutation Sorted.
From Verif Require Import Base BaseFacts SpecText LoadMatrix LoadFacts StringUtilities PropertiesString Simplex SimplexFacts Complex ComplexFacts RipsFacts EnumerateFacts BarycentricFacts DiagramIO PropertiesJSON Pajek PropertiesPajek PropertiesSparseAdjacency Vtk.
Import ListNotations.
Local Open Scope list_scope.
Local Open Scope nat_scope.

(** ** Specification: expressions *)
Inductive class := Blank | Digit | Letter | Alnum.
Definition in_class (k : class) (c : ascii) : Prop :=
  match k with Blank => SpecText.blank c | Digit => a_digit c | Letter => letter c | Alnum => letter c \/ a_digit c end.
(** a text, or one or more characters of a class that may be captured *)
Inductive item := Text (s : string) | Some_ (k : class) | Group (k : class).
Inductive language : list item -> list str -> str -> Prop :=
| lang_nil : language [] [] []
| lang_text s r caps t : language r caps t -> language (Text s :: r) caps (chars s ++ t)
| lang_some k a r caps t : some (in_class k) a -> language r caps t -> language (Some_ k :: r) caps (a ++ t)
| lang_group k a r caps t : some (in_class k) a -> language r caps t -> language (Group k :: r) (a :: caps) (a ++ t).
Definition re_identifier : list item :=
  [Text "#"; Some_ Blank; Text "vtk"; Some_ Blank; Text "DataFile"; Some_ Blank; Text "Version"; Some_ Blank; Group Digit; Text "."; Group Digit].
Definition re_structure : list item := [Text "DATASET"; Some_ Blank; Text "STRUCTURED_GRID"].
Definition re_dimensions : list item := [Text "DIMENSIONS"; Some_ Blank; Group Digit; Some_ Blank; Group Digit; Some_ Blank; Group Digit].
Definition re_points : list item := [Text "POINTS"; Some_ Blank; Group Digit; Some_ Blank; Group Letter].
Definition re_point_data : list item := [Text "POINT_DATA"; Some_ Blank; Group Digit].
Definition re_lookup : list item := [Text "LOOKUP_TABLE"; Some_ Blank; Group Alnum].
(** in the expression for scalars, white space and the number of components may be missing; without white space, a number belongs to the type *)
Definition re_scalars (name type components line : str) : Prop :=
  exists first sp, line = first ++ sp ++ components /\ language [Text "SCALARS"; Some_ Blank; Group Alnum; Some_ Blank; Group Alnum] [name; type] first /\
    Forall SpecText.blank sp /\ Forall a_digit components /\ (sp = [] -> components = []).

(** ** Expressions and matching functions *)
Definition class_fn (k : class) : ascii -> bool := match k with Blank => isspace | Digit => isdigit | Letter => isalpha | Alnum => isalnum end.
Lemma class_spec k c : class_fn k c = true <-> in_class k c.
Proof.
  destruct k; cbn [class_fn in_class]; [apply isspace_spec|apply isdigit_spec|apply isalpha_spec|]. unfold isalnum. rewrite orb_true_iff, isalpha_spec, isdigit_spec. reflexivity.
Qed.
Fixpoint run_items (r : list item) (s : str) : option (list str * str) :=
  match r with
  | [] => Some ([], s)
  | Text p :: r => let? s := m_lit (chars p) s in run_items r s
  | Some_ k :: r => let? (_, s) := m_plus (class_fn k) s in run_items r s
  | Group k :: r => let? (a, s) := m_plus (class_fn k) s in let? (caps, s) := run_items r s in Some (a :: caps, s)
  end.
Lemma str_eqb_refl a : str_eqb a a = true.
Proof. apply str_eqb_spec. reflexivity. Qed.
Lemma m_lit_spec p s r : m_lit p s = Some r <-> s = p ++ r.
Proof.
  unfold m_lit. split.
  - destruct (str_eqb (firstn (length p) s) p) eqn:E; [|discriminate]. intro H. injection H as <-. apply str_eqb_spec in E. rewrite <- E at 1. symmetry. apply firstn_skipn.
  - intros ->. rewrite firstn_app, firstn_all, Nat.sub_diag. cbn [firstn]. rewrite app_nil_r, str_eqb_refl, skipn_app, skipn_all, Nat.sub_diag. reflexivity.
Qed.
Lemma m_plus_sound k s a r : m_plus (class_fn k) s = Some (a, r) -> s = a ++ r /\ some (in_class k) a /\ stops (in_class k) r.
Proof.
  unfold m_plus. pose proof (span_spec (class_fn k) (in_class k) (class_spec k) s) as H. destruct (span (class_fn k) s) as [[|c a'] b]; [discriminate|]. intro E. injection E as <- <-. destruct H as (H1 & H2 & H3). refine (conj H1 (conj (conj _ H2) H3)). discriminate.
Qed.
Lemma m_plus_complete k a r : some (in_class k) a -> stops (in_class k) r -> m_plus (class_fn k) (a ++ r) = Some (a, r).
Proof.
  intros [Hn Ha] Hr. unfold m_plus. rewrite (span_app (class_fn k) (in_class k) (class_spec k) a r Ha Hr). destruct a; [contradiction|reflexivity].
Qed.
Definition after (r : list item) (s : str) : Prop := match rev r with Some_ k :: _ | Group k :: _ => stops (in_class k) s | _ => True end.
Lemma after_cons i j r s : after (i :: j :: r) s <-> after (j :: r) s.
Proof. unfold after. cbn [rev]. destruct (rev r ++ [j]) as [|x l] eqn:E; [destruct (rev r); discriminate|]. reflexivity. Qed.
Lemma run_sound r : forall s caps t, run_items r s = Some (caps, t) -> exists p, s = p ++ t /\ language r caps p /\ after r t.
Proof.
  induction r as [|i r IH]; intros s caps t; cbn [run_items].
  - intro H. injection H as <- <-. exists []. refine (conj eq_refl (conj lang_nil I)).
  - assert (G : forall i s' p0, (r = [] -> forall x, (match i with Text _ => True | Some_ k | Group k => stops (in_class k) x end) -> after [i] x) -> (match i with Text _ => True | Some_ k | Group k => stops (in_class k) s' end) ->
      forall caps', run_items r s' = Some (caps', t) -> exists p, p0 ++ s' = p0 ++ p ++ t /\ language r caps' p /\ after (i :: r) t).
    { intros j s' p0 _ Hs caps' H. destruct (IH _ _ _ H) as (p & -> & L & A). exists p. refine (conj eq_refl (conj L _)). destruct r as [|j' r]; [|apply after_cons; exact A]. inversion L; subst. cbn [app] in Hs. unfold after. cbn [rev app]. destruct j; [exact I|exact Hs|exact Hs]. }
    destruct i as [p|k|k]; unfold obind.
    + destruct (m_lit (chars p) s) as [s'|] eqn:E; [|discriminate]. apply m_lit_spec in E. subst s. intro H. destruct (G (Text p) s' (chars p) (fun _ _ _ => I) I _ H) as (q & E & L & A). exists (chars p ++ q). rewrite <- app_assoc. refine (conj E (conj (lang_text _ _ _ _ L) A)).
    + destruct (m_plus (class_fn k) s) as [[a s']|] eqn:E; [|discriminate]. apply m_plus_sound in E. destruct E as (-> & Ha & Hs). intro H. destruct (G (Some_ k) s' a (fun _ x X => X) Hs _ H) as (q & E & L & A). exists (a ++ q). rewrite <- app_assoc. refine (conj E (conj (lang_some _ _ _ _ _ Ha L) A)).
    + destruct (m_plus (class_fn k) s) as [[a s']|] eqn:E; [|discriminate]. apply m_plus_sound in E. destruct E as (-> & Ha & Hs). destruct (run_items r s') as [[c s2]|] eqn:E2; [|discriminate]. intro H. injection H as <- <-. destruct (G (Group k) s' a (fun _ x X => X) Hs _ E2) as (q & E & L & A). exists (a ++ q). rewrite <- app_assoc. refine (conj E (conj (lang_group _ _ _ _ _ Ha L) A)).
Qed.
(** no class is followed by something that may continue it *)
Definition separated (k : class) (r : list item) : Prop :=
  match r with
  | [] => True
  | Text p :: _ => match chars p with [] => False | c :: _ => ~ in_class k c end
  | Some_ k' :: _ | Group k' :: _ => forall c, in_class k' c -> ~ in_class k c
  end.
Fixpoint deterministic (r : list item) : Prop :=
  match r with
  | [] => True
  | Text _ :: r => deterministic r
  | Some_ k :: r | Group k :: r => separated k r /\ deterministic r
  end.
Lemma separated_stops k r caps p t : separated k r -> language r caps p -> (r = [] -> stops (in_class k) t) -> stops (in_class k) (p ++ t).
Proof.
  intros Hs L Ht. destruct L as [|q r caps u L|k' a r caps u [Ha1 Ha2] L|k' a r caps u [Ha1 Ha2] L]; [exact (Ht eq_refl)| | |]; intros c v E.
  - cbn [separated] in Hs. destruct (chars q) as [|d q']; [destruct Hs|]. injection E as <- _. exact Hs.
  - destruct a as [|d a]; [contradiction|]. injection E as <- _. apply Hs. inversion Ha2; assumption.
  - destruct a as [|d a]; [contradiction|]. injection E as <- _. apply Hs. inversion Ha2; assumption.
Qed.
Lemma run_complete r caps p : language r caps p -> deterministic r -> forall t, after r t -> run_items r (p ++ t) = Some (caps, t).
Proof.
  induction 1 as [|q r caps u L IH|k a r caps u Ha L IH|k a r caps u Ha L IH]; intros D t A; cbn [run_items].
  - reflexivity.
  - assert (A' : after r t) by (destruct r; [exact I|apply after_cons in A; exact A]). unfold obind. rewrite (proj2 (m_lit_spec (chars q) _ (u ++ t)) (eq_sym (app_assoc _ _ _))). apply IH; [exact D|exact A'].
  - destruct D as [D1 D2]. assert (A' : after r t) by (destruct r; [exact I|apply after_cons in A; exact A]). rewrite <- app_assoc. unfold obind. rewrite m_plus_complete; [apply IH; assumption|exact Ha|]. apply (separated_stops k r caps); [exact D1|exact L|]. intros ->. exact A.
  - destruct D as [D1 D2]. assert (A' : after r t) by (destruct r; [exact I|apply after_cons in A; exact A]). rewrite <- app_assoc. unfold obind. rewrite m_plus_complete; [rewrite IH by assumption; reflexivity|exact Ha|]. apply (separated_stops k r caps); [exact D1|exact L|]. intros ->. exact A.
Qed.
Lemma run_language r caps s : deterministic r -> (run_items r s = Some (caps, []) <-> language r caps s).
Proof.
  intro D. split.
  - intro H. destruct (run_sound r s caps [] H) as (p & -> & L & _). rewrite app_nil_r. exact L.
  - intro L. rewrite <- (app_nil_r s). apply run_complete; [exact L|exact D|]. unfold after. destruct (rev r) as [|[q|k|k] l]; try exact I; intros c t X; discriminate.
Qed.
Lemma not_class k c : class_fn k c = false -> ~ in_class k c.
Proof. intros H X. apply class_spec in X. congruence. Qed.
Lemma disjoint_class k k' : forallb (fun c => negb (class_fn k' c && class_fn k c)) (map ascii_of_nat (seq 0 256)) = true -> forall c, in_class k' c -> ~ in_class k c.
Proof. intros H c X Y. pose proof (all_ascii _ H c) as E. cbv beta in E. apply class_spec in X, Y. rewrite X, Y in E. discriminate. Qed.
Ltac determined := cbn [deterministic separated chars re_identifier re_structure re_dimensions re_points re_point_data re_lookup]; repeat split; first [apply not_class; vm_compute; reflexivity|apply disjoint_class; vm_compute; reflexivity].
Ltac walk := repeat match goal with
  | |- context [m_lit ?p ?s] => destruct (m_lit p s) as [?|]; cbn [obind]; [|split; intro; discriminate]
  | |- context [m_plus ?k ?s] => destruct (m_plus k s) as [[? ?]|]; cbn [obind]; [|split; intro; discriminate]
  end.
Ltac finish := unfold m_end; match goal with |- context [match ?s with [] => Some _ | _ :: _ => None end] => destruct s as [|? ?] end; let X := fresh in split; intro X; first [discriminate X|reflexivity|injection X; intros; subst; reflexivity].

(** The matching functions decide the languages of the expressions, and the groups are the captured texts. *)
Theorem C132_expressions :
  (forall s a b, match_identifier s = Some (a, b) <-> language re_identifier [a; b] s) /\
  (forall s, match_structure s = Some tt <-> language re_structure [] s) /\
  (forall s x y z, match_dimensions s = Some (x, y, z) <-> language re_dimensions [x; y; z] s) /\
  (forall s n t, match_points s = Some (n, t) <-> language re_points [n; t] s) /\
  (forall s n, match_point_data s = Some n <-> language re_point_data [n] s) /\
  (forall s n, match_lookup s = Some n <-> language re_lookup [n] s) /\
  (forall s name type components, match_scalars s = Some (name, type, components) <-> re_scalars name type components s).
Proof.
  refine (conj _ (conj _ (conj _ (conj _ (conj _ (conj _ _)))))).
  - intros s a b. rewrite <- run_language by determined. unfold match_identifier, re_identifier. cbn [run_items class_fn]. walk. finish.
  - intros s. rewrite <- run_language by determined. unfold match_structure, re_structure. cbn [run_items class_fn]. walk. finish.
  - intros s x y z. rewrite <- run_language by determined. unfold match_dimensions, re_dimensions. cbn [run_items class_fn]. walk. finish.
  - intros s n t. rewrite <- run_language by determined. unfold match_points, re_points. cbn [run_items class_fn]. walk. finish.
  - intros s n. rewrite <- run_language by determined. unfold match_point_data, re_point_data. cbn [run_items class_fn]. walk. finish.
  - intros s n. rewrite <- run_language by determined. unfold match_lookup, re_lookup. cbn [run_items class_fn]. walk. finish.
  - intros s name type components. set (r := [Text "SCALARS"; Some_ Blank; Group Alnum; Some_ Blank; Group Alnum]). assert (D : deterministic r) by (unfold r; determined).
    assert (E : match_scalars s = match run_items r s with Some ([name; type], t) => let '(_, t) := span isspace t in let '(components, t) := span isdigit t in m_end t (name, type, components) | _ => None end).
    { unfold match_scalars, r. cbn [run_items class_fn]. repeat match goal with
        | |- context [m_lit ?p ?s] => destruct (m_lit p s) as [?|]; cbn [obind]; [|reflexivity]
        | |- context [m_plus ?k ?s] => destruct (m_plus k s) as [[? ?]|]; cbn [obind]; [|reflexivity] end. reflexivity. }
    rewrite E. clear E. split.
    + destruct (run_items r s) as [[caps t]|] eqn:R; [|discriminate]. destruct (run_sound _ _ _ _ R) as (p & -> & L & A). destruct caps as [|n [|ty [|? ?]]]; try discriminate.
      pose proof (span_spec isspace _ isspace_spec t) as S1. destruct (span isspace t) as [sp t1]. destruct S1 as (-> & F1 & St1). pose proof (span_spec isdigit _ isdigit_spec t1) as S2. destruct (span isdigit t1) as [co t2]. destruct S2 as (-> & F2 & _). unfold m_end. destruct t2; [|discriminate]. intro X. injection X as <- <- <-.
      exists p, sp. rewrite app_nil_r in *. refine (conj eq_refl (conj L (conj F1 (conj F2 _)))). intros ->. destruct co as [|c co]; [reflexivity|]. exfalso. cbn [app] in A. apply (A c co eq_refl). right. inversion F2; assumption.
    + intros (p & sp & -> & L & F1 & F2 & H). rewrite (run_complete r _ p L D).
      * rewrite (span_app isspace _ isspace_spec sp components F1); [|intros c t -> X; inversion F2; subst; exact (digit_not_space c H2 X)]. rewrite <- (app_nil_r components), (span_app isdigit _ isdigit_spec components [] F2) by (intros c t X; discriminate). cbn [m_end]. rewrite app_nil_r. reflexivity.
      * unfold after, r. cbn [rev app]. destruct sp as [|c sp]; [rewrite (H eq_refl); intros c t X; discriminate|]. intros d u X. injection X as <- _. inversion F1; subst. intros [Y|Y]; [exact (space_not_letter c H2 Y)|exact (space_not_digit c H2 Y)].
Qed.

(** ** Specification: grids *)
Definition point : Type := nat * nat * nat.
Definition grid (nx ny nz : nat) (p : point) : Prop := let '(x, y, z) := p in x < nx /\ y < ny /\ z < nz.
(** points are numbered in the order of the file *)
Definition number (nx ny : nat) (p : point) : nat := let '(x, y, z) := p in x + nx * (y + ny * z).
(** [q] precedes [p] in one direction *)
Definition precedes (q p : point) : Prop :=
  let '(x, y, z) := p in q = (x - 1, y, z) /\ 0 < x \/ q = (x, y - 1, z) /\ 0 < y \/ q = (x, y, z - 1) /\ 0 < z.
(** the edges: all pairs of neighbouring points with the data of the functor, in the order of the larger and the reverse order of the smaller number *)
Definition edge_order (s t : simplex) : Prop := exists i j k l, verts s = [i; j] /\ verts t = [k; l] /\ (i < k \/ i = k /\ l < j).
Definition grid_edges (f : Z -> Z -> Z) (nx ny nz : nat) (values : list Z) (E : list simplex) : Prop :=
  StronglySorted edge_order E /\
  forall s, In s E <-> exists p q a b, grid nx ny nz p /\ precedes q p /\ nth_error values (number nx ny p) = Some a /\ nth_error values (number nx ny q) = Some b /\
    s = Simplex [number nx ny p; number nx ny q] (f a b).

(** ** Grids *)
Lemma index_number nx ny x y z : x < nx -> coordinatesToIndex nx ny x y z = number nx ny (x, y, z).
Proof. intro H. unfold coordinatesToIndex, number. rewrite Nat.mod_small by exact H. ring. Qed.
Lemma number_lt nx ny nz p : grid nx ny nz p -> number nx ny p < nx * ny * nz.
Proof. destruct p as [[x y] z]. intros (Hx & Hy & Hz). unfold number. assert (y + ny * z < ny * nz) by nia. nia. Qed.
(** the position of a point can be recovered from its number *)
Lemma C132_index_aux nx ny nz x y z : grid nx ny nz (x, y, z) -> indexToCoordinates nx ny (coordinatesToIndex nx ny x y z) = (x, y, z).
Proof.
  intros (Hx & Hy & Hz). rewrite index_number by exact Hx. unfold indexToCoordinates, number. f_equal; [f_equal|].
  - rewrite Nat.mul_comm, Nat.mod_add by lia. apply Nat.mod_small. exact Hx.
  - rewrite (Nat.mul_comm nx), Nat.div_add by lia. rewrite (Nat.div_small x) by exact Hx. cbn [Nat.add]. rewrite (Nat.mul_comm ny), Nat.mod_add by lia. apply Nat.mod_small. exact Hy.
  - rewrite <- Nat.div_div by lia. rewrite (Nat.mul_comm nx (y + ny * z)), Nat.div_add by lia. rewrite (Nat.div_small x) by exact Hx. cbn [Nat.add]. rewrite (Nat.mul_comm ny), Nat.div_add by lia. rewrite (Nat.div_small y) by exact Hy. reflexivity.
Qed.
Theorem C132_index nx ny nz p : grid nx ny nz p -> let '(x, y, z) := p in coordinatesToIndex nx ny x y z = number nx ny p /\ indexToCoordinates nx ny (number nx ny p) = p.
Proof. destruct p as [[x y] z]. intro H. assert (Hx : x < nx) by apply H. split; [apply index_number; exact Hx|]. rewrite <- index_number by exact Hx. apply (C132_index_aux nx ny nz). exact H. Qed.

Definition predecessors (nx ny : nat) (p : point) : list nat :=
  let '(x, y, z) := p in (if 0 <? x then [number nx ny (x - 1, y, z)] else []) ++ (if 0 <? y then [number nx ny (x, y - 1, z)] else []) ++ (if 0 <? z then [number nx ny (x, y, z - 1)] else []).
Lemma predecessors_spec nx ny p j : In j (predecessors nx ny p) <-> exists q, precedes q p /\ j = number nx ny q.
Proof.
  destruct p as [[x y] z]. unfold predecessors, precedes. rewrite !in_app_iff. split.
  - intros [H|[H|H]]; [destruct (Nat.ltb_spec 0 x); [|destruct H]|destruct (Nat.ltb_spec 0 y); [|destruct H]|destruct (Nat.ltb_spec 0 z); [|destruct H]]; destruct H as [<-|[]]; eexists; (split; [|reflexivity]); auto.
  - intros (q & [[-> H]|[[-> H]|[-> H]]] & ->); apply Nat.ltb_lt in H; rewrite H; simpl; auto.
Qed.
Lemma precedes_lt nx ny nz p q : grid nx ny nz p -> precedes q p -> grid nx ny nz q /\ number nx ny q < number nx ny p.
Proof.
  destruct p as [[x y] z]. intros (Hx & Hy & Hz) [[-> H]|[[-> H]|[-> H]]]; unfold grid, number; (split; [lia|]); [generalize (nx * (y + ny * z)); lia| |].
  - destruct y as [|y]; [lia|]. cbn [Nat.sub]. rewrite Nat.sub_0_r. assert (nx * (y + ny * z) < nx * (S y + ny * z)) by (apply Nat.mul_lt_mono_pos_l; lia). lia.
  - destruct z as [|z]; [lia|]. cbn [Nat.sub]. rewrite Nat.sub_0_r. assert (nx * (y + ny * z) < nx * (y + ny * S z)) by (apply Nat.mul_lt_mono_pos_l; [lia|rewrite Nat.mul_succ_r; lia]). lia.
Qed.
Lemma predecessors_sorted nx ny nz p : grid nx ny nz p -> StronglySorted (fun a b => b < a) (predecessors nx ny p).
Proof.
  destruct p as [[x y] z]. intros (Hx & Hy & Hz). unfold predecessors.
  assert (M : forall a b, a < b -> nx * a + nx <= nx * b) by (intros a b G; rewrite <- Nat.mul_succ_r; apply Nat.mul_le_mono_l; lia).
  assert (M' : forall a b, a < b -> ny * a + ny <= ny * b) by (intros a b G; rewrite <- Nat.mul_succ_r; apply Nat.mul_le_mono_l; lia).
  assert (A : (0 <? x) = true -> (0 <? y) = true -> number nx ny (x, y - 1, z) < number nx ny (x - 1, y, z)).
  { intros H1 H2; apply Nat.ltb_lt in H1, H2; unfold number. pose proof (M (y - 1 + ny * z) (y + ny * z)). lia. }
  assert (B : (0 <? x) = true -> (0 <? z) = true -> number nx ny (x, y, z - 1) < number nx ny (x - 1, y, z)).
  { intros H1 H2; apply Nat.ltb_lt in H1, H2; unfold number. pose proof (M' (z - 1) z). pose proof (M (y + ny * (z - 1)) (y + ny * z)). lia. }
  assert (C : (0 <? y) = true -> (0 <? z) = true -> number nx ny (x, y, z - 1) < number nx ny (x, y - 1, z)).
  { intros H1 H2; apply Nat.ltb_lt in H1, H2; unfold number. pose proof (M' (z - 1) z). pose proof (M (y + ny * (z - 1)) (y - 1 + ny * z)). lia. }
  destruct (0 <? x), (0 <? y), (0 <? z); cbn [app]; repeat (constructor; auto).
Qed.
Section Edges.
Variable f : Z -> Z -> Z.
Variables (nx ny nz : nat) (values : list Z).
Hypothesis Hvalues : length values = nx * ny * nz.
Let V := map (fun p => simplex_vertex (fst p) (snd p)) (combine (seq 0 (length values)) values).
Definition at_number (i : nat) : Z := nth i values 0%Z.
Definition block (p : point) : list simplex := map (fun j => Simplex [number nx ny p; j] (f (at_number (number nx ny p)) (at_number j))) (predecessors nx ny p).
Lemma V_length : length V = length values.
Proof. unfold V. rewrite map_length, combine_length, seq_length. lia. Qed.
Lemma V_nth i : i < length values -> nth_error V i = Some (simplex_vertex i (at_number i)).
Proof.
  intro H. unfold V. rewrite nth_combine_seq. rewrite (nth_error_nth' values 0%Z H). reflexivity.
Qed.
Lemma nth_value i : i < length values -> nth_error values i = Some (at_number i).
Proof. intro H. apply nth_error_nth'. exact H. Qed.
Lemma at_vertex i acc : i < length values -> at_ (V ++ acc) i = Ok (simplex_vertex i (at_number i)).
Proof. intro H. unfold at_. rewrite nth_error_app1 by (rewrite V_length; exact H). rewrite V_nth by exact H. reflexivity. Qed.
Lemma edge_of i j d : j < i -> simplex_of [i; j] d = Simplex [i; j] d.
Proof.
  intro H. assert (X : verts (simplex_of [i; j] d) = [i; j]). { apply (wf_ext (simplex_of [i; j] d) (Simplex [i; j] d)); [apply simplex_of_wf|repeat constructor; exact H|]. intro x. rewrite simplex_of_In. reflexivity. } unfold simplex_of in *. cbn [verts] in X. rewrite X. reflexivity.
Qed.
Lemma fold_pure {A} (g : list simplex -> A -> outcome (list simplex)) (h : A -> list simplex) l : (forall a, In a l -> forall acc, g (V ++ acc) a = Ok (V ++ acc ++ h a)) -> forall acc, foldM g l (V ++ acc) = Ok (V ++ acc ++ flat_map h l).
Proof.
  induction l as [|a l IH]; intros H acc; cbn [foldM flat_map]; [rewrite app_nil_r; reflexivity|]. rewrite H by (left; reflexivity). cbn [bind]. rewrite IH by (intros b Hb; apply H; right; exact Hb). rewrite <- !app_assoc. reflexivity.
Qed.
Lemma edge_step i j acc : i < length values -> (i < j \/ j < i) -> vtk_edge f i (V ++ acc) j = Ok (V ++ acc ++ (if i <? j then [] else [Simplex [i; j] (f (at_number i) (at_number j))])).
Proof.
  intros Hi Hj. unfold vtk_edge. destruct (Nat.ltb_spec i j) as [L|L]; [rewrite app_nil_r; reflexivity|]. rewrite at_vertex by exact Hi. cbn [bind]. rewrite at_vertex by lia. cbn [bind]. rewrite edge_of by lia. rewrite <- app_assoc. reflexivity.
Qed.
Lemma point_step x y z acc : grid nx ny nz (x, y, z) -> foldM (vtk_edge f (coordinatesToIndex nx ny x y z)) (neighbours nx ny nz x y z) (V ++ acc) = Ok (V ++ acc ++ block (x, y, z)).
Proof.
  intro H. pose proof H as (Hx & Hy & Hz). rewrite index_number by exact Hx. set (i := number nx ny (x, y, z)). assert (Hi : i < length values) by (rewrite Hvalues; apply number_lt; exact H).
  assert (L1 : 0 < x -> coordinatesToIndex nx ny (x - 1) y z = number nx ny (x - 1, y, z) /\ number nx ny (x - 1, y, z) < i) by (intro G; split; [apply index_number; lia|apply (precedes_lt nx ny nz); [exact H|left; auto]]).
  assert (L2 : 0 < y -> coordinatesToIndex nx ny x (y - 1) z = number nx ny (x, y - 1, z) /\ number nx ny (x, y - 1, z) < i) by (intro G; split; [apply index_number; lia|apply (precedes_lt nx ny nz); [exact H|right; left; auto]]).
  assert (L3 : 0 < z -> coordinatesToIndex nx ny x y (z - 1) = number nx ny (x, y, z - 1) /\ number nx ny (x, y, z - 1) < i) by (intro G; split; [apply index_number; lia|apply (precedes_lt nx ny nz); [exact H|right; right; auto]]).
  assert (U1 : x + 1 < nx -> i < coordinatesToIndex nx ny (x + 1) y z) by (intro G; rewrite index_number by exact G; apply (precedes_lt nx ny nz); [unfold grid; lia|left; split; [f_equal; f_equal; lia|lia]]).
  assert (U2 : y + 1 < ny -> i < coordinatesToIndex nx ny x (y + 1) z) by (intro G; rewrite index_number by exact Hx; apply (precedes_lt nx ny nz); [unfold grid; lia|right; left; split; [f_equal; f_equal; lia|lia]]).
  assert (U3 : z + 1 < nz -> i < coordinatesToIndex nx ny x y (z + 1)) by (intro G; rewrite index_number by exact Hx; apply (precedes_lt nx ny nz); [unfold grid; lia|right; right; split; [f_equal; lia|lia]]).
  rewrite (fold_pure _ (fun j => if i <? j then [] else [Simplex [i; j] (f (at_number i) (at_number j))])).
  - do 3 f_equal. unfold neighbours, block, predecessors. fold i. rewrite !flat_map_app, !map_app.
    assert (Q : forall j, j < i -> (i <? j) = false) by (intros j G; apply Nat.ltb_ge; lia). assert (Q' : forall j, i < j -> (i <? j) = true) by (intros j G; apply Nat.ltb_lt; exact G).
    destruct (Nat.ltb_spec (x + 1) nx) as [G|G]; cbn [flat_map]; [rewrite (Q' _ (U1 G))|]; (destruct (Nat.ltb_spec (y + 1) ny) as [G'|G']; cbn [flat_map]; [rewrite (Q' _ (U2 G'))|]); (destruct (Nat.ltb_spec (z + 1) nz) as [G''|G'']; cbn [flat_map]; [rewrite (Q' _ (U3 G''))|]); cbn [app];
      (destruct (Nat.ltb_spec 0 x) as [Gx|Gx]; cbn [flat_map map app]; [destruct (L1 Gx) as [Ex Lx]; rewrite Ex, (Q _ Lx)|]); (destruct (Nat.ltb_spec 0 y) as [Gy|Gy]; cbn [flat_map map app]; [destruct (L2 Gy) as [Ey Ly]; rewrite Ey, (Q _ Ly)|]); (destruct (Nat.ltb_spec 0 z) as [Gz|Gz]; cbn [flat_map map app]; [destruct (L3 Gz) as [Ez Lz]; rewrite Ez, (Q _ Lz)|]); reflexivity.
  - intros j Hj a. apply edge_step; [exact Hi|]. unfold neighbours in Hj. rewrite !in_app_iff in Hj. destruct Hj as [Hj|[Hj|[Hj|[Hj|[Hj|Hj]]]]].
    + destruct (Nat.ltb_spec 0 x) as [G|G]; [destruct Hj as [<-|[]]|destruct Hj]. destruct (L1 G) as [-> X]. auto.
    + destruct (Nat.ltb_spec (x + 1) nx) as [G|G]; [destruct Hj as [<-|[]]|destruct Hj]. auto.
    + destruct (Nat.ltb_spec 0 y) as [G|G]; [destruct Hj as [<-|[]]|destruct Hj]. destruct (L2 G) as [-> X]. auto.
    + destruct (Nat.ltb_spec (y + 1) ny) as [G|G]; [destruct Hj as [<-|[]]|destruct Hj]. auto.
    + destruct (Nat.ltb_spec 0 z) as [G|G]; [destruct Hj as [<-|[]]|destruct Hj]. destruct (L3 G) as [-> X]. auto.
    + destruct (Nat.ltb_spec (z + 1) nz) as [G|G]; [destruct Hj as [<-|[]]|destruct Hj]. auto.
Qed.
Definition all_edges : list simplex := flat_map (fun z => flat_map (fun y => flat_map (fun x => block (x, y, z)) (seq 0 nx)) (seq 0 ny)) (seq 0 nz).
Lemma edges_run : vtk_edges f nx ny nz V = Ok (V ++ all_edges).
Proof.
  unfold vtk_edges. rewrite <- (app_nil_r V) at 1. rewrite (fold_pure _ (fun z => flat_map (fun y => flat_map (fun x => block (x, y, z)) (seq 0 nx)) (seq 0 ny))); [reflexivity|]. intros z Hz acc.
  apply (fold_pure _ (fun y => flat_map (fun x => block (x, y, z)) (seq 0 nx))). intros y Hy acc'. apply (fold_pure _ (fun x => block (x, y, z))). intros x Hx acc''. apply in_seq in Hx, Hy, Hz. apply point_step. unfold grid. lia.
Qed.
Lemma SS_flat_map {A B} (R : A -> A -> Prop) (S : B -> B -> Prop) (h : A -> list B) l : StronglySorted R l -> (forall a, In a l -> StronglySorted S (h a)) ->
  (forall a b x y, In a l -> In b l -> R a b -> In x (h a) -> In y (h b) -> S x y) -> StronglySorted S (flat_map h l).
Proof.
  induction 1 as [|a l Hs IH F]; intros H1 H2; cbn [flat_map]; [constructor|].
  assert (G : forall l1 l2, StronglySorted S l1 -> StronglySorted S l2 -> (forall x y, In x l1 -> In y l2 -> S x y) -> StronglySorted S (l1 ++ l2)).
  { clear. induction 1 as [|x l1 Hs IH F]; intros Hl H; cbn [app]; [exact Hl|]. constructor; [apply IH; [exact Hl|intros y z Hy Hz; apply H; [right; exact Hy|exact Hz]]|]. apply Forall_app. split; [exact F|]. apply Forall_forall. intros y Hy. apply H; [left; reflexivity|exact Hy]. }
  apply G; [apply H1; left; reflexivity|apply IH; [intros b Hb; apply H1; right; exact Hb|intros b c x y Hb Hc; apply H2; right; assumption]|].
  intros x y Hx Hy. apply in_flat_map in Hy. destruct Hy as (b & Hb & Hy). rewrite Forall_forall in F. apply (H2 a b); [left; reflexivity|right; exact Hb|apply F; exact Hb|exact Hx|exact Hy].
Qed.
Lemma seq_lt a n : StronglySorted lt (seq a n).
Proof. revert a. induction n as [|n IH]; intro a; cbn [seq]; constructor; [apply IH|]. apply Forall_forall. intros x Hx. apply in_seq in Hx. lia. Qed.
Lemma block_In p s : In s (block p) <-> exists q, precedes q p /\ s = Simplex [number nx ny p; number nx ny q] (f (at_number (number nx ny p)) (at_number (number nx ny q))).
Proof.
  unfold block. rewrite in_map_iff. split.
  - intros (j & <- & Hj). apply predecessors_spec in Hj. destruct Hj as (q & Hq & ->). eauto.
  - intros (q & Hq & ->). exists (number nx ny q). split; [reflexivity|]. apply predecessors_spec. eauto.
Qed.
Lemma block_order p p' s t : number nx ny p < number nx ny p' -> In s (block p) -> In t (block p') -> edge_order s t.
Proof. intros H Hs Ht. apply block_In in Hs, Ht. destruct Hs as (q & _ & ->), Ht as (q' & _ & ->). do 4 eexists. cbn [verts]. refine (conj eq_refl (conj eq_refl (or_introl H))). Qed.
Lemma all_edges_spec : grid_edges f nx ny nz values all_edges.
Proof.
  split.
  - unfold all_edges. apply (SS_flat_map lt); [apply seq_lt| |].
    + intros z Hz. apply (SS_flat_map lt); [apply seq_lt| |].
      * intros y Hy. apply (SS_flat_map lt); [apply seq_lt| |].
        -- intros x Hx. apply in_seq in Hx, Hy, Hz. unfold block. assert (G : grid nx ny nz (x, y, z)) by (unfold grid; lia). pose proof (predecessors_sorted nx ny nz _ G) as S. induction S as [|a l _ IH F]; cbn [map]; constructor; [exact IH|]. apply Forall_forall. intros s Hs. apply in_map_iff in Hs. destruct Hs as (b & <- & Hb). rewrite Forall_forall in F. do 4 eexists. cbn [verts]. refine (conj eq_refl (conj eq_refl (or_intror (conj eq_refl (F b Hb))))).
        -- intros x x' s t Hx Hx' L. apply block_order. unfold number. lia.
      * intros y y' s t Hy Hy' L Hs Ht. apply in_flat_map in Hs, Ht. destruct Hs as (x & Hx & Hs), Ht as (x' & Hx' & Ht). apply in_seq in Hx, Hx'. refine (block_order _ _ _ _ _ Hs Ht). unfold number. assert (nx * (y + ny * z) + nx <= nx * (y' + ny * z)) by (rewrite <- Nat.mul_succ_r; apply Nat.mul_le_mono_l; lia). lia.
    + intros z z' s t Hz Hz' L Hs Ht. apply in_flat_map in Hs, Ht. destruct Hs as (y & Hy & Hs), Ht as (y' & Hy' & Ht). apply in_flat_map in Hs, Ht. destruct Hs as (x & Hx & Hs), Ht as (x' & Hx' & Ht). apply in_seq in Hx, Hx', Hy, Hy'. refine (block_order _ _ _ _ _ Hs Ht). unfold number.
      assert (S (y + ny * z) <= y' + ny * z'). { assert (ny * z + ny <= ny * z') by (rewrite <- Nat.mul_succ_r; apply Nat.mul_le_mono_l; lia). lia. } assert (nx * (y + ny * z) + nx <= nx * (y' + ny * z')) by (rewrite <- Nat.mul_succ_r; apply Nat.mul_le_mono_l; lia). lia.
  - intro s. unfold all_edges. rewrite in_flat_map. split.
    + intros (z & Hz & H). apply in_flat_map in H. destruct H as (y & Hy & H). apply in_flat_map in H. destruct H as (x & Hx & H). apply in_seq in Hx, Hy, Hz. assert (G : grid nx ny nz (x, y, z)) by (unfold grid; lia). apply block_In in H. destruct H as (q & Hq & ->). destruct (precedes_lt _ _ _ _ _ G Hq) as [Gq _].
      exists (x, y, z), q, (at_number (number nx ny (x, y, z))), (at_number (number nx ny q)). refine (conj G (conj Hq (conj _ (conj _ eq_refl)))); apply nth_value; rewrite Hvalues; apply number_lt; assumption.
    + intros ([[x y] z] & q & a & b & G & Hq & Ha & Hb & ->). pose proof G as (Hx & Hy & Hz). exists z. split; [apply in_seq; lia|]. apply in_flat_map. exists y. split; [apply in_seq; lia|]. apply in_flat_map. exists x. split; [apply in_seq; lia|]. apply block_In. exists q. split; [exact Hq|]. unfold at_number. rewrite (nth_error_nth _ _ 0%Z Ha), (nth_error_nth _ _ 0%Z Hb). reflexivity.
Qed.
Lemma complex_run : exists K E, k_of_range (V ++ all_edges) = Ok K /\ by_index K = V ++ E /\ grid_edges f nx ny nz values E.
Proof.
  pose proof all_edges_spec as [S I]. destruct (of_range_new (V ++ all_edges)) as (K & EK & _ & HK).
  - intros s Hs. apply in_app_or in Hs. destruct Hs as [Hs|Hs].
    + unfold V in Hs. apply in_map_iff in Hs. destruct Hs as (p & <- & _). split; [repeat constructor|discriminate].
    + apply I in Hs. destruct Hs as (p & q & a & b & G & Hq & _ & _ & ->). destruct (precedes_lt _ _ _ _ _ G Hq) as [_ L]. split; [repeat constructor; exact L|discriminate].
  - rewrite map_app. apply NoDup_app_disjoint.
    + assert (E : map verts V = map (fun i => [i]) (seq 0 (length values))). { unfold V. rewrite map_map. enough (H : forall (l : list Z) k, map (fun p => verts (simplex_vertex (fst p) (snd p))) (combine (seq k (length l)) l) = map (fun i => [i]) (seq k (length l))) by apply H. clear. induction l as [|a l IH]; intro k; [reflexivity|]. cbn [length seq combine map fst snd simplex_vertex verts]. f_equal. apply IH. }
      rewrite E. apply NoDup_map_inj; [apply seq_NoDup|]. intros x y _ _ X. injection X as ->. reflexivity.
    + clear I. induction S as [|a l Hs IH F]; cbn [map]; constructor; [|exact IH]. intro X. apply in_map_iff in X. destruct X as (b & E & Hb). rewrite Forall_forall in F. destruct (F b Hb) as (i & j & k & m & E1 & E2 & H). rewrite E1, E2 in E. injection E as -> ->. lia.
    + intros x Hx Hy. apply in_map_iff in Hx, Hy. destruct Hx as (s & <- & Hs), Hy as (t & Et & Ht). unfold V in Hs. apply in_map_iff in Hs. destruct Hs as (p & <- & _). apply I in Ht. destruct Ht as (p' & q & a & b & _ & _ & _ & _ & ->). discriminate.
  - exists K, all_edges. refine (conj EK (conj HK (conj S I))).
Qed.
End Edges.

(** ** Specification: files *)
(** a line with words that are separated by white space *)
Definition visible (c : ascii) : Prop := ~ SpecText.blank c.
Inductive words : str -> list str -> Prop :=
| words_end b : Forall SpecText.blank b -> words b []
| words_word a t s ts : Forall SpecText.blank a -> some visible t -> (forall c r, s = c :: r -> SpecText.blank c) -> words s ts -> words (a ++ t ++ s) (t :: ts).
(** types and their sizes *)
Definition types : list (string * nat) := [("double", 8); ("float", 4); ("long", 8); ("int", 4); ("short", 2); ("char", 1); ("bit", 1)]%string.
Definition small (t : str) (n : N) : Prop := numeral t n /\ (n < 2 ^ 64)%N.
(** a line that matches an expression, apart from white space around it *)
Definition line_of (r : list item) (caps : list str) (l : str) : Prop := exists core, padded core l /\ language r caps core.
(** six lines; the second one may be any text *)
Definition vtk_header (nx ny nz : nat) (n : N) (size : nat) (lines : list str) : Prop :=
  exists l1 l2 l3 l4 l5 l6 a b tx ty tz tn t, lines = [l1; l2; l3; l4; l5; l6] /\ line_of re_identifier [a; b] l1 /\ padded (chars "ASCII") l3 /\ line_of re_structure [] l4 /\
    line_of re_dimensions [tx; ty; tz] l5 /\ small tx (N.of_nat nx) /\ small ty (N.of_nat ny) /\ small tz (N.of_nat nz) /\
    line_of re_points [tn; chars t] l6 /\ small tn n /\ In (t, size) types.
(** lines with the coordinates of [n] points *)
Definition vtk_points (n : N) (lines : list str) : Prop :=
  n <> 0%N /\ (3 * n < 2 ^ 64)%N /\ exists rows, Forall2 words lines rows /\ Forall (fun r => r <> []) rows /\ N.of_nat (length (concat rows)) = (3 * n)%N.
(** what follows: attributes and lines of values, which do not begin like a keyword *)
Inductive entry := Attribute | Scalars (name type : str) | Values (ts : list str).
Definition data_row (ts : list str) : Prop := exists c t r, ts = (c :: t) :: r /\ ~ In c (chars "PSL").
Inductive entry_line (n : N) : entry -> str -> Prop :=
| line_count t l : language re_point_data [t] l -> small t n -> entry_line n Attribute l
| line_lookup l : language re_lookup [chars "default"] l -> entry_line n Attribute l
| line_scalars name type components l : re_scalars name type components l -> (components = [] \/ numeral components 1) -> entry_line n (Scalars name type) l
| line_values ts l : words l ts -> data_row ts -> entry_line n (Values ts) l.
Definition values_of (es : list entry) : list str := flat_map (fun e => match e with Values ts => ts | _ => [] end) es.
(** the last declaration of scalars counts *)
Definition no_scalars (es : list entry) : Prop := forall name type, ~ In (Scalars name type) es.
Definition declared (es : list entry) (name type : str) : Prop :=
  (no_scalars es /\ name = [] /\ type = []) \/ exists a b, es = a ++ Scalars name type :: b /\ no_scalars b.

(** ** Lines *)
Lemma visible_space c : visible c -> isspace c = false.
Proof. intro H. destruct (isspace c) eqn:E; [|reflexivity]. exfalso. apply H. apply isspace_spec. exact E. Qed.
Lemma blanks_spaces s : Forall SpecText.blank s -> spaces s.
Proof. intro H. eapply Forall_impl; [|exact H]. intros c X. apply isspace_spec. exact X. Qed.
Lemma words_core l ts : words l ts -> forall t r, ts = t :: r ->
  exists a b rest, l = a ++ (t ++ rest) ++ b /\ spaces a /\ spaces b /\ trimmed (t ++ rest) /\ some visible t /\ follows isspace rest r.
Proof.
  induction 1 as [b Hb|a t s ts Ha [Ht1 Ht2] Hs W IH]; intros t0 r E; [discriminate|]. injection E as <- <-.
  assert (First : forall rest c u, t ++ rest = c :: u -> isspace c = false). { intros rest c u E. destruct t as [|d t]; [contradiction|]. injection E as -> _. apply visible_space. inversion Ht2; assumption. }
  assert (Word : word isspace t) by (eapply Forall_impl; [|exact Ht2]; intros c; apply visible_space).
  destruct ts as [|t' r].
  - inversion W as [b Hb E|]; subst. exists a, s, []. rewrite app_nil_r. refine (conj eq_refl (conj (blanks_spaces _ Ha) (conj (blanks_spaces _ Hb) (conj _ (conj (conj Ht1 Ht2) (follows_end _ _ (Forall_nil _))))))).
    split; [intros c u E; apply (First [] c u); rewrite app_nil_r; exact E|]. intros c u ->. apply visible_space. rewrite Forall_forall in Ht2. apply Ht2. apply in_or_app. right. left. reflexivity.
  - destruct (IH t' r eq_refl) as (a' & b & rest & -> & Ha' & Hb & [T1 T2] & [N1 N2] & F). exists a, b, (a' ++ t' ++ rest).
    assert (Na : a' <> []). { intros ->. destruct t' as [|c t']; [contradiction|]. cbn [app] in Hs. inversion N2 as [|? ? V _]; subst. apply V. apply (Hs c ((t' ++ rest) ++ b) eq_refl). }
    assert (W' : word isspace t') by (eapply Forall_impl; [|exact N2]; intros c; apply visible_space).
    refine (conj _ (conj (blanks_spaces _ Ha) (conj Hb (conj _ (conj (conj Ht1 Ht2) (follows_token _ a' t' rest r Ha' Na W' N1 F)))))); [rewrite <- !app_assoc; reflexivity|].
    split; [exact (First _)|]. intros c u E. destruct (t' ++ rest) as [|x y] eqn:Ex using rev_ind; [destruct t'; [contradiction|discriminate]|]. apply (T2 c y). rewrite !app_assoc in E. apply app_inj_tail in E. destruct E as [_ ->]. reflexivity.
Qed.
Lemma words_split l ts : words l ts -> ts <> [] -> split isspace (trim l) = ts.
Proof.
  intros W N. destruct ts as [|t r]; [contradiction|]. destruct (words_core l _ W t r eq_refl) as (a & b & rest & E & Ha & Hb & T & [N1 N2] & F). rewrite (C84_trim_unique l _ a b T Ha Hb E). apply C84_split. exists t, rest, r. refine (conj eq_refl (conj eq_refl (conj _ F))). eapply Forall_impl; [|exact N2]. intros c. apply visible_space.
Qed.
Lemma padded_of l : padded (trim l) l.
Proof.
  destruct (C84_trim l) as ([T1 T2] & a & b & Ha & Hb & E). exists a, b. refine (conj E (conj _ (conj _ (conj _ _)))).
  - eapply Forall_impl; [|exact Ha]. intros c X. apply isspace_spec. exact X.
  - eapply Forall_impl; [|exact Hb]. intros c X. apply isspace_spec. exact X.
  - intros c t X Y. apply isspace_spec in Y. rewrite (T1 c t X) in Y. discriminate.
  - intros c t X Y. apply isspace_spec in Y. rewrite (T2 c t X) in Y. discriminate.
Qed.
Lemma line_trim r caps l : line_of r caps l <-> language r caps (trim l).
Proof. split; [intros (core & H & L); rewrite (padded_trim _ _ H); exact L|intro L; exists (trim l); split; [apply padded_of|exact L]]. Qed.
Lemma skip_points rows lines rest : Forall2 words lines rows -> Forall (fun r => r <> []) rows -> forall count total, (count + N.of_nat (length (concat rows)) = total)%N -> rows <> [] ->
  skip_coordinates total count (lines ++ rest) = rest.
Proof.
  induction 1 as [|l ts lines rows W F IH]; intros N count total E Hn; [contradiction|]. inversion N as [|? ? N1 N2]; subst. cbn [app skip_coordinates concat]. rewrite (words_split _ _ W N1), app_length.
  destruct rows as [|r rows].
  - inversion F; subst. cbn [concat length app]. rewrite Nat.add_0_r, N.eqb_refl. reflexivity.
  - destruct (N.eqb_spec (count + N.of_nat (length ts)) (count + N.of_nat (length ts + length (concat (r :: rows))))) as [E|E].
    + exfalso. inversion N2 as [|? ? R1 R2]; subst. cbn [concat] in E. rewrite app_length in E. destruct r; [contradiction|]. cbn [length] in E. lia.
    + apply IH; [exact N2|lia|discriminate].
Qed.
Lemma body_skip n lines rest : vtk_points n lines -> skip_coordinates ((3 * n) mod 2 ^ 64) 0 (lines ++ rest) = rest.
Proof.
  intros (H0 & H1 & rows & F & N & E). rewrite N.mod_small by exact H1. apply (skip_points rows); [exact F|exact N|lia|]. intros ->. cbn [concat length] in E. lia.
Qed.
Lemma match_none {A} (m : option A) : (forall a, m <> Some a) -> m = None.
Proof. destruct m as [a|]; [intro H; destruct (H a eq_refl)|reflexivity]. Qed.
Lemma language_head c s r caps l : language (Text (String c s) :: r) caps l -> exists t, l = c :: t.
Proof. intro L. inversion L; subst. eexists. reflexivity. Qed.
Lemma scalars_head name type components l : re_scalars name type components l -> exists t, l = "S"%char :: t.
Proof. intros (first & sp & -> & L & _). destruct (language_head _ _ _ _ _ L) as (t & ->). eexists. reflexivity. Qed.
Lemma no_match_point_data c t : c <> "P"%char -> match_point_data (c :: t) = None.
Proof. intro H. apply match_none. intros a E. apply C132_expressions in E. destruct (language_head _ _ _ _ _ E) as (u & X). congruence. Qed.
Lemma no_match_scalars c t : c <> "S"%char -> match_scalars (c :: t) = None.
Proof. intro H. apply match_none. intros [[name type] components] E. apply C132_expressions in E. destruct (scalars_head _ _ _ _ E) as (u & X). congruence. Qed.
Lemma no_match_lookup c t : c <> "L"%char -> match_lookup (c :: t) = None.
Proof. intro H. apply match_none. intros a E. apply C132_expressions in E. destruct (language_head _ _ _ _ _ E) as (u & X). congruence. Qed.
Lemma row_head l ts : words l ts -> data_row ts -> exists c t, l = c :: t /\ c <> "P"%char /\ c <> "S"%char /\ c <> "L"%char.
Proof.
  intros W (c & t & r & -> & H). inversion W as [|a t' s ts Ha Ht Hs W' E1 E2]; subst. destruct a as [|b a].
  - exists c, (t ++ s). refine (conj eq_refl (conj _ (conj _ _))); intros ->; apply H; simpl; auto.
  - exists b, (a ++ (c :: t) ++ s). inversion Ha as [|? ? Hb _]; subst. refine (conj eq_refl (conj _ (conj _ _))); intros ->; unfold SpecText.blank in Hb; simpl in Hb; do 6 (destruct Hb as [Hb|Hb]; [discriminate|]); destruct Hb.
Qed.
Lemma numeral_some t n : numeral t n -> t <> [].
Proof. intro H. destruct H; [discriminate|]. destruct s; discriminate. Qed.
Lemma entry_step conv n e l values name type : entry_line n e l ->
  vtk_line conv n (values, name, type) l = Ok (values ++ map conv (values_of [e]), match e with Scalars a _ => a | _ => name end, match e with Scalars _ b => b | _ => type end).
Proof.
  intros [t l' L [Hn Hs]|l' L|a b comps l' L H|ts l' W H]; unfold vtk_line, values_of; cbn [flat_map app map]; try rewrite app_nil_r.
  - rewrite (proj2 (proj1 (proj2 (proj2 (proj2 (proj2 C132_expressions)))) l' t) L). rewrite (numeral_stoul _ _ Hn Hs). cbn [bind]. rewrite N.eqb_refl. reflexivity.
  - destruct (language_head _ _ _ _ _ L) as (u & E). assert (X1 : match_point_data l' = None) by (rewrite E; apply no_match_point_data; discriminate). assert (X2 : match_scalars l' = None) by (rewrite E; apply no_match_scalars; discriminate). rewrite X1, X2. rewrite (proj2 (proj1 (proj2 (proj2 (proj2 (proj2 (proj2 C132_expressions))))) l' _) L). rewrite str_eqb_refl. reflexivity.
  - destruct (scalars_head _ _ _ _ L) as (u & E). assert (X1 : match_point_data l' = None) by (rewrite E; apply no_match_point_data; discriminate). rewrite X1. rewrite (proj2 (proj2 (proj2 (proj2 (proj2 (proj2 (proj2 C132_expressions))))) l' a b comps) L).
    destruct H as [->|H]; [reflexivity|]. assert (Hl : (1 < 2 ^ 64)%N) by reflexivity. pose proof (numeral_some _ _ H). destruct comps as [|c comps]; [contradiction|]. rewrite (numeral_stoul _ _ H Hl). reflexivity.
  - destruct (row_head _ _ W H) as (c & t & E & H1 & H2 & H3). assert (X1 : match_point_data l' = None) by (rewrite E; apply no_match_point_data; assumption). assert (X2 : match_scalars l' = None) by (rewrite E; apply no_match_scalars; assumption). assert (X3 : match_lookup l' = None) by (rewrite E; apply no_match_lookup; assumption). rewrite X1, X2, X3. rewrite (words_split _ _ W); [reflexivity|]. destruct H as (x & y & z & -> & _). discriminate.
Qed.
Lemma entries_run conv n es lines : Forall2 (entry_line n) es lines -> forall values name type, exists name' type',
  foldM (vtk_line conv n) lines (values, name, type) = Ok (values ++ map conv (values_of es), name', type') /\
  ((no_scalars es /\ name' = name /\ type' = type) \/ exists a b, es = a ++ Scalars name' type' :: b /\ no_scalars b).
Proof.
  induction 1 as [|e l es lines H F IH]; intros values name type; cbn [foldM].
  - exists name, type. unfold values_of. cbn [flat_map map]. rewrite app_nil_r. split; [reflexivity|]. left. refine (conj _ (conj eq_refl eq_refl)). intros ? ? [].
  - rewrite (entry_step conv n e l values name type H). cbn [bind]. destruct (IH (values ++ map conv (values_of [e])) (match e with Scalars a _ => a | _ => name end) (match e with Scalars _ b => b | _ => type end)) as (name' & type' & E & D). exists name', type'. split.
    + rewrite E. unfold values_of. cbn [flat_map]. rewrite app_nil_r, map_app, <- app_assoc. reflexivity.
    + destruct D as [(D1 & D2 & D3)|(a & b & -> & D)]; [|right; exists (e :: a), b; split; [reflexivity|exact D]].
      destruct e as [|a b|ts]; [left|right; exists [], es; subst; split; [reflexivity|exact D1]|left]; refine (conj _ (conj D2 D3)); intros x y [X|X]; try discriminate; exact (D1 x y X).
Qed.
Lemma type_size_spec t s : In (t, s) types -> type_size (chars t) = Some s.
Proof. unfold types. intro H. simpl in H. do 7 (destruct H as [H|H]; [injection H as <- <-; reflexivity|]). destruct H. Qed.
Lemma header_run nx ny nz n size lines rest : vtk_header nx ny nz n size lines -> parseHeader (lines ++ rest) = Ok (Some (nx, ny, nz, n, Some size, rest)).
Proof.
  intros (l1 & l2 & l3 & l4 & l5 & l6 & a & b & tx & ty & tz & tn & t & -> & H1 & H3 & H4 & H5 & [Nx Sx] & [Ny Sy] & [Nz Sz] & H6 & [Nn Sn] & Ht). cbn [app parseHeader].
  apply line_trim in H1, H4, H5, H6. destruct C132_expressions as (E1 & E2 & E3 & E4 & _). rewrite (proj2 (E1 _ _ _) H1). rewrite (padded_trim _ _ H3), str_eqb_refl. cbn [negb].
  rewrite (proj2 (E2 _) H4), (proj2 (E3 _ _ _ _) H5). rewrite (numeral_stoul _ _ Nx Sx). cbn [bind]. rewrite (numeral_stoul _ _ Ny Sy). cbn [bind]. rewrite (numeral_stoul _ _ Nz Sz). cbn [bind]. rewrite (proj2 (E4 _ _ _) H6). rewrite (numeral_stoul _ _ Nn Sn). cbn [bind]. rewrite !Nat2N.id, (type_size_spec _ _ Ht). reflexivity.
Qed.

(** A file with as many values as points of the grid yields a vertex per value, in their order, and the edges of the grid with the data of the functor; the size of the type and name and type of the scalars are available afterwards. *)
Theorem C132_read conv f nx ny nz n size header points es body :
  let lines := header ++ points ++ body in
  (forall l, In l lines -> ~ In newline l) ->
  vtk_header nx ny nz n size header -> vtk_points n points -> Forall2 (entry_line n) es body -> length (values_of es) = nx * ny * nz ->
  exists K E name type, readVTK conv f (text_of lines []) = Ok (Some (Vtk K size name type)) /\ declared es name type /\
    by_index K = map (fun p => Simplex [fst p] (snd p)) (combine (seq 0 (nx * ny * nz)) (map conv (values_of es))) ++ E /\
    grid_edges f nx ny nz (map conv (values_of es)) E.
Proof.
  intros lines Hnl Hh Hp Hb Hlen. unfold readVTK. rewrite (lines_text lines Hnl). unfold lines. rewrite (header_run _ _ _ _ _ _ _ Hh). cbn [bind]. rewrite (body_skip _ _ _ Hp).
  destruct (entries_run conv n es body Hb [] [] []) as (name & type & Ef & D). match goal with |- context [foldM ?g ?l ?s] => assert (Em : foldM g l s = Ok ([] ++ map conv (values_of es), name, type)) by exact Ef; rewrite Em; clear Em end. cbn [bind app]. set (values := map conv (values_of es)). assert (Hv : length values = nx * ny * nz) by (unfold values; rewrite map_length; exact Hlen).
  rewrite (edges_run f nx ny nz values Hv). cbn [bind]. destruct (complex_run f nx ny nz values Hv) as (K & E & EK & HK & HE). rewrite EK. cbn [bind]. exists K, E, name, type. refine (conj eq_refl (conj _ (conj _ HE))).
  - destruct D as [(D1 & D2 & D3)|D]; [left|right]; auto.
  - rewrite HK, Hv. reflexivity.
Qed.

(** A file with another header leaves the complex unchanged; binary files and what is not supported are rejected. *)
Theorem C132_rejected conv f :
  (forall lines, length lines < 3 -> (forall l, In l lines -> ~ In newline l) -> readVTK conv f (text_of lines []) = Ok None) /\
  (forall l1 l2 l3 rest, let lines := l1 :: l2 :: l3 :: rest in (forall l, In l lines -> ~ In newline l) ->
    ((forall a b, ~ line_of re_identifier [a; b] l1) -> readVTK conv f (text_of lines []) = Ok None) /\
    forall a b, line_of re_identifier [a; b] l1 ->
      (~ padded (chars "ASCII") l3 -> readVTK conv f (text_of lines []) = Throw RuntimeError) /\
      (padded (chars "ASCII") l3 -> length rest < 3 -> readVTK conv f (text_of lines []) = Ok None) /\
      (padded (chars "ASCII") l3 -> forall l4 l5 l6 more, rest = l4 :: l5 :: l6 :: more ->
        (~ line_of re_structure [] l4 \/ (forall x y z, ~ line_of re_dimensions [x; y; z] l5) -> readVTK conv f (text_of lines []) = Ok None) /\
        forall x y z nx ny nz, line_of re_structure [] l4 -> line_of re_dimensions [x; y; z] l5 -> small x nx -> small y ny -> small z nz ->
          (forall n t, ~ line_of re_points [n; t] l6) -> readVTK conv f (text_of lines []) = Ok None)).
Proof.
  destruct C132_expressions as (E1 & E2 & E3 & E4 & _). split.
  - intros lines Hl Hnl. unfold readVTK. rewrite (lines_text lines Hnl). destruct lines as [|? [|? [|? ?]]]; [reflexivity|reflexivity|reflexivity|cbn [length] in Hl; lia].
  - intros l1 l2 l3 rest lines Hnl. assert (R : readVTK conv f (text_of lines []) = let* h := parseHeader lines in match h with None => Ok None | _ => readVTK conv f (text_of lines []) end).
    { unfold readVTK. rewrite (lines_text lines Hnl). destruct (parseHeader lines) as [[h|]| | |]; reflexivity. }
    split.
    + intro H. rewrite R. unfold lines. cbn [parseHeader]. rewrite (match_none (match_identifier (trim l1))); [reflexivity|]. intros [a b] X. apply (H a b). apply line_trim. apply E1. exact X.
    + intros a b H1. apply line_trim in H1. apply E1 in H1. refine (conj _ (conj _ _)).
      * intro H3. rewrite R. unfold lines. cbn [parseHeader]. rewrite H1. destruct (str_eqb (trim l3) (chars "ASCII")) eqn:E; [|reflexivity]. exfalso. apply H3. apply str_eqb_spec in E. rewrite <- E. apply padded_of.
      * intros H3 Hr. rewrite R. unfold lines. cbn [parseHeader]. rewrite H1, (padded_trim _ _ H3), str_eqb_refl. cbn [negb]. destruct rest as [|? [|? [|? ?]]]; [reflexivity|reflexivity|reflexivity|cbn [length] in Hr; lia].
      * intros H3 l4 l5 l6 more Er. split.
        -- intro H. rewrite R. unfold lines. cbn [parseHeader]. rewrite H1, (padded_trim _ _ H3), str_eqb_refl, Er. cbn [negb]. destruct H as [H|H].
           ++ rewrite (match_none (match_structure (trim l4))); [reflexivity|]. intros [] X. apply H. apply line_trim. apply E2. exact X.
           ++ rewrite (match_none (match_dimensions (trim l5))); [destruct (match_structure (trim l4)); reflexivity|]. intros [[x y] z] X. apply (H x y z). apply line_trim. apply E3. exact X.
        -- intros x y z nx ny nz H4 H5 [Nx Sx] [Ny Sy] [Nz Sz] H. rewrite R. unfold lines. cbn [parseHeader]. rewrite H1, (padded_trim _ _ H3), str_eqb_refl, Er. cbn [negb]. apply line_trim in H4, H5. rewrite (proj2 (E2 _) H4), (proj2 (E3 _ _ _ _) H5).
           rewrite (numeral_stoul _ _ Nx Sx). cbn [bind]. rewrite (numeral_stoul _ _ Ny Sy). cbn [bind]. rewrite (numeral_stoul _ _ Nz Sz). cbn [bind]. rewrite (match_none (match_points (trim l6))); [reflexivity|]. intros [n t] X. apply (H n t). apply line_trim. apply E4. exact X.
Qed.
(** An attribute that is not supported is an error, whatever follows. *)
Definition bad_attribute (n : N) (l : str) : Prop :=
  (exists t m, language re_point_data [t] l /\ small t m /\ m <> n) \/
  (exists name, language re_lookup [name] l /\ name <> chars "default") \/
  (exists name type t m, re_scalars name type t l /\ small t m /\ m <> 1%N).
Theorem C132_errors conv f nx ny nz n size header points es body l more :
  let lines := header ++ points ++ body ++ l :: more in
  (forall l, In l lines -> ~ In newline l) ->
  vtk_header nx ny nz n size header -> vtk_points n points -> Forall2 (entry_line n) es body -> bad_attribute n l -> readVTK conv f (text_of lines []) = Throw RuntimeError.
Proof.
  intros lines Hnl Hh Hp Hb Hbad. unfold readVTK. rewrite (lines_text lines Hnl). unfold lines. rewrite (header_run _ _ _ _ _ _ _ Hh). cbn [bind]. rewrite (body_skip _ _ _ Hp). rewrite foldM_app.
  destruct (entries_run conv n es body Hb [] [] []) as (name & type & Ef & D). match goal with |- context [foldM (vtk_line conv n) body ?s] => assert (Em : foldM (vtk_line conv n) body s = Ok ([] ++ map conv (values_of es), name, type)) by exact Ef; rewrite Em; clear Em end. cbn [bind foldM]. enough (E : forall st, vtk_line conv n st l = Throw RuntimeError) by (rewrite E; reflexivity).
  intros [[v nm] ty]. unfold vtk_line. destruct C132_expressions as (_ & _ & _ & _ & E5 & E6 & E7). destruct Hbad as [(t & m & L & [Nt St] & Hm)|[(nm' & L & Hd)|(nm' & ty' & t & m & L & [Nt St] & Hm)]].
  - rewrite (proj2 (E5 _ _) L), (numeral_stoul _ _ Nt St). cbn [bind]. rewrite (proj2 (N.eqb_neq _ _) Hm). reflexivity.
  - destruct (language_head _ _ _ _ _ L) as (u & E). assert (X1 : match_point_data l = None) by (rewrite E; apply no_match_point_data; discriminate). assert (X2 : match_scalars l = None) by (rewrite E; apply no_match_scalars; discriminate). rewrite X1, X2. rewrite (proj2 (E6 _ _) L). destruct (str_eqb nm' (chars "default")) eqn:X; [apply str_eqb_spec in X; contradiction|reflexivity].
  - destruct (scalars_head _ _ _ _ L) as (u & E). assert (X1 : match_point_data l = None) by (rewrite E; apply no_match_point_data; discriminate). rewrite X1. rewrite (proj2 (E7 _ _ _ _) L). pose proof (numeral_some _ _ Nt). destruct t as [|c t]; [contradiction|]. rewrite (numeral_stoul _ _ Nt St). cbn [bind]. rewrite (proj2 (N.eqb_neq _ _) Hm). reflexivity.
Qed.

(** ** Examples *)
Definition vtk_text (lines : list string) : str := text_of (map chars lines) [].
Definition vtk_with (dims points : string) (body : list string) : str :=
  vtk_text (["# vtk DataFile Version 3.0"; "any text"; " ASCII "; "DATASET STRUCTURED_GRID"; "DIMENSIONS " ++ dims; "POINTS " ++ points]%string ++ body).
Definition read_simplices (r : outcome (option vtk)) : outcome (option (list (list nat * Z) * nat * str * str)) :=
  let* r := r in Ok (option_map (fun v => (map (fun s => (verts s, data s)) (by_index (vtk_complex v)), vtk_size v, vtk_name v, vtk_type v)) r).
Example C132_read_example :
  read_simplices (readVTK int_conv Z.max (vtk_with "3 2 1" "6 float" ["0 0 0 1 0 0"; "2 0 0 0 1 0"; "1 1 0  2 1 0 "; "POINT_DATA 6"; "SCALARS density double 1"; "LOOKUP_TABLE default"; " 5 3"; "4 1 2 6"]%string)) =
  Ok (Some ([([0], 5%Z); ([1], 3%Z); ([2], 4%Z); ([3], 1%Z); ([4], 2%Z); ([5], 6%Z);
             ([1; 0], 5%Z); ([2; 1], 4%Z); ([3; 0], 5%Z); ([4; 3], 2%Z); ([4; 1], 3%Z); ([5; 4], 6%Z); ([5; 2], 6%Z)], 4, chars "density", chars "double")).
Proof. vm_compute. reflexivity. Qed.
Example C132_rejected_example :
  readVTK int_conv Z.max (vtk_text ["# vtk DataFile Version 3.0"; "x"; "BINARY"]%string) = Throw RuntimeError /\
  readVTK int_conv Z.max (vtk_text ["# vtk DataFile"; "x"; "BINARY"]%string) = Ok None /\
  readVTK int_conv Z.max (vtk_text ["# vtk DataFile Version 3.0"; "x"; "ASCII"; "DATASET STRUCTURED_POINTS"; "DIMENSIONS 1 1 1"; "POINTS 1 float"]%string) = Ok None.
Proof. vm_compute. auto. Qed.
Example C132_errors_example :
  readVTK int_conv Z.max (vtk_with "2 1 1" "2 float" ["0 0 0 1 0 0"; "POINT_DATA 3"]%string) = Throw RuntimeError /\
  readVTK int_conv Z.max (vtk_with "2 1 1" "2 float" ["0 0 0 1 0 0"; "SCALARS a int 3"]%string) = Throw RuntimeError /\
  readVTK int_conv Z.max (vtk_with "2 1 1" "2 float" ["0 0 0 1 0 0"; "LOOKUP_TABLE mine"]%string) = Throw RuntimeError.
Proof. vm_compute. auto. Qed.
Example C132_index_example : grid 3 2 2 (1, 1, 1) /\ coordinatesToIndex 3 2 1 1 1 = 10 /\ indexToCoordinates 3 2 10 = (1, 1, 1).
Proof. vm_compute. auto. Qed.

(** ** What does not hold *)
(** a blank line among the values is read as the value of the empty text *)
Theorem C132_blank_line_refuted :
  read_simplices (readVTK int_conv Z.max (vtk_with "2 1 1" "2 float" ["0 0 0 1 0 0"; ""; "POINT_DATA 2"; "SCALARS a int"; "7"; "8"]%string)) =
  Ok (Some ([([0], 0%Z); ([1], 7%Z); ([2], 8%Z); ([1; 0], 7%Z)], 4, chars "a", chars "int")).
Proof. vm_compute. reflexivity. Qed.
(** the name of the scalars must not contain an underscore; otherwise the words of the line are taken as values *)
Theorem C132_name_refuted :
  read_simplices (readVTK int_conv Z.max (vtk_with "2 1 1" "2 float" ["0 0 0 1 0 0"; "POINT_DATA 2"; "SCALARS my_data int"; "7"; "8"]%string)) =
  Ok (Some ([([0], 0%Z); ([1], 0%Z); ([2], 0%Z); ([3], 7%Z); ([4], 8%Z); ([1; 0], 0%Z)], 4, [], [])).
Proof. vm_compute. reflexivity. Qed.
(** the same holds for white space after the number of point data, such as a carriage return *)
Theorem C132_carriage_return_refuted :
  read_simplices (readVTK int_conv Z.max (vtk_with "2 1 1" "2 float" ["0 0 0 1 0 0"; "POINT_DATA 2 "; "SCALARS a int"; "7"; "8"]%string)) =
  Ok (Some ([([0], 0%Z); ([1], 2%Z); ([2], 7%Z); ([3], 8%Z); ([1; 0], 2%Z)], 4, chars "a", chars "int")).
Proof. vm_compute. reflexivity. Qed.
(** types with an underscore are in the list of sizes, but their files are never read *)
Theorem C132_unsigned_refuted conv f : type_size (chars "unsigned_int") = Some 4 /\ readVTK conv f (vtk_with "1 1 1" "1 unsigned_int" ["0 0 0"; "7"]%string) = Ok None.
Proof. split; vm_compute; reflexivity. Qed.
(** the size of another type is indeterminate *)
Theorem C132_unknown_type_refuted : readVTK int_conv Z.max (vtk_with "1 1 1" "1 vtktypeint" ["0 0 0"; "7"]%string) = UB.
Proof. vm_compute. reflexivity. Qed.
(** the number of values is not checked: the data of edges replace missing values, and edges lead to vertices that do not exist *)
Theorem C132_few_values_refuted :
  read_simplices (readVTK int_conv Z.max (vtk_with "2 2 1" "4 float" ["0 0 0 1 0 0"; "0 1 0 1 1 0"; "POINT_DATA 4"; "7 8 9"]%string)) =
  Ok (Some ([([0], 7%Z); ([1], 8%Z); ([2], 9%Z); ([1; 0], 8%Z); ([2; 0], 9%Z); ([3; 2], 9%Z); ([3; 1], 8%Z)], 4, [], [])).
Proof. vm_compute. reflexivity. Qed.
(** the number of points is not compared with the dimensions, and without points the whole file is taken as coordinates *)
Theorem C132_number_of_points_refuted :
  read_simplices (readVTK int_conv Z.max (vtk_with "2 1 1" "1 float" ["0 0 0"; "POINT_DATA 1"; "7 8"]%string)) = Ok (Some ([([0], 7%Z); ([1], 8%Z); ([1; 0], 8%Z)], 4, [], [])) /\
  read_simplices (readVTK int_conv Z.max (vtk_with "0 0 0" "0 float" ["POINT_DATA 5"; "LOOKUP_TABLE mine"; "7 8"]%string)) = Ok (Some ([], 4, [], [])).
Proof. vm_compute. split; reflexivity. Qed.

Print Assumptions C132_expressions.
Print Assumptions C132_index.
Print Assumptions C132_read.
Print Assumptions C132_rejected.
Print Assumptions C132_errors.
