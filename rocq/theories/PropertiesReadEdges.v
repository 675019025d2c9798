(** * C89: lists of edges. *)
From Coq Require Import String.
From Coq Require Import List Arith Bool ZArith Ascii Lia Sorted Permutation.
From Verif Require Import Base BaseFacts Simplex SimplexFacts SpecComplex Complex ComplexFacts FiltrationFacts History Subcomplex SubcomplexFacts PairingFacts RipsFacts PropertiesRips PropertiesIntersections Intersections Barycentric
  LoadMatrix SpecText LoadFacts StringUtilities PropertiesString PropertiesCliqueGraph BarycentricFacts ReadMatrices ReadFacts PropertiesReadMatrix WeightedGraphFacts PropertiesPointCloud ReadEdges.
Import ListNotations.
Local Open Scope nat_scope.

(** ** Specification *)
(** [vs] is the set [{u, v}] *)
Definition pair_of (u v : nat) (vs : list nat) : Prop := set_eq vs [u; v].
(** The complex of a list of weighted edges: the vertices have no weight, and the first
    mention of an edge determines its weight. *)
Definition edge_list_complex (T : list (nat * nat * Z)) (K : complex) : Prop :=
  reachable K /\ closed (by_index K) /\ filtration_order (by_index K) /\
  (forall vs, has (by_index K) vs <-> exists u v w, In (u, v, w) T /\ (set_eq vs [u] \/ set_eq vs [v] \/ set_eq vs [u; v])) /\
  (forall s v, In s (by_index K) -> verts s = [v] -> data s = 0%Z) /\
  (forall s a b, In s (by_index K) -> a <> b -> set_eq (verts s) [a; b] ->
     exists before u v after, T = before ++ (u, v, data s) :: after /\ set_eq [u; v] [a; b] /\
       forall u' v' w', In (u', v', w') before -> ~ set_eq [u'; v'] [a; b]).

(** ** Sets of simplices *)
Lemma sset_insert_new s l x : StronglySorted (fun a b => s_ltb a b = true) l -> In x (sset_insert s l) -> In x l \/ (x = s /\ ~ In (verts s) (map verts l)).
Proof.
  intro HS. induction HS as [|t l HS IH HF]; cbn [sset_insert].
  - intros [<-|[]]. right. auto.
  - destruct (s_ltb t s) eqn:E1.
    + intros [<-|Hx]; [left; simpl; auto|]. destruct (IH Hx) as [H|[-> H]]; [left; simpl; auto|]. right. split; [reflexivity|]. cbn [map]. intros [E|E]; [|contradiction].
      apply ltb_eqb_false in E1. rewrite (proj2 (s_eqb_eq t s) E) in E1. discriminate.
    + destruct (s_ltb s t) eqn:E2; [|auto]. intros [<-|Hx]; [|left; exact Hx]. right. split; [reflexivity|]. cbn [map]. intros [E|E].
      * apply ltb_eqb_false in E2. rewrite (proj2 (s_eqb_eq s t) (eq_sym E)) in E2. discriminate.
      * apply in_map_iff in E. destruct E as (x & E & Hx). rewrite Forall_forall in HF. specialize (HF x Hx). pose proof (ltb_trans s t x E2 HF) as L. apply ltb_eqb_false in L. rewrite (proj2 (s_eqb_eq s x) (eq_sym E)) in L. discriminate.
Qed.
Lemma insert_all_first l : forall acc x, ssorted acc -> In x (sset_insert_all l acc) ->
  In x acc \/ (~ In (verts x) (map verts acc) /\ exists l1 l2, l = l1 ++ x :: l2 /\ ~ In (verts x) (map verts l1)).
Proof.
  induction l as [|s l IH]; intros acc x HS Hx; cbn [sset_insert_all fold_left] in Hx; [auto|]. fold (sset_insert_all l (sset_insert s acc)) in Hx.
  destruct (IH (sset_insert s acc) x (sset_insert_sorted s acc HS) Hx) as [H|(H1 & l1 & l2 & -> & H2)].
  - destruct (sset_insert_new s acc x HS H) as [H'|[-> H']]; [auto|]. right. split; [exact H'|]. exists [], l. auto.
  - right. split; [intro X; apply H1; apply sset_insert_verts; auto|]. exists (s :: l1), l2. split; [reflexivity|]. cbn [map]. intros [E|E]; [|contradiction]. apply H1. apply sset_insert_verts. auto.
Qed.
Lemma ssorted_nodup l : ssorted l -> NoDup (map verts l).
Proof.
  induction 1 as [|s l HS IH HF]; cbn [map]; constructor; auto. intro H. apply in_map_iff in H. destruct H as (t & E & Ht). rewrite Forall_forall in HF. specialize (HF t Ht).
  apply ltb_eqb_false in HF. rewrite (proj2 (s_eqb_eq s t) (eq_sym E)) in HF. discriminate.
Qed.
Lemma ssorted_filtration l : (forall s, In s l -> wf s) -> ssorted l -> filtration_order l.
Proof.
  intros Hw HS i j s t Hi Hj Hp. destruct (Nat.lt_ge_cases j i) as [?|Hle]; [assumption|]. exfalso.
  assert (Hs : In s l) by (apply nth_error_In in Hi; exact Hi). assert (Ht : In t l) by (apply nth_error_In in Hj; exact Hj).
  pose proof (proper_face_lex t s (Hw t Ht) (Hw s Hs) Hp) as L. destruct (Nat.eq_dec i j) as [->|Hne].
  - assert (s = t) by congruence. subst t. apply ltb_eqb_false in L. rewrite (proj2 (s_eqb_eq s s) eq_refl) in L. discriminate.
  - assert (L' : s_ltb s t = true).
    { clear -HS Hi Hj Hle Hne. revert i j Hi Hj Hle Hne. induction HS as [|a l HS IH HF]; intros i j Hi Hj Hle Hne; [destruct i; discriminate|]. destruct i as [|i], j as [|j]; [lia| |lia|]; cbn [nth_error] in *.
      - injection Hi as <-. rewrite Forall_forall in HF. apply HF. apply nth_error_In in Hj. exact Hj.
      - apply (IH i j); auto; lia. }
    rewrite (ltb_asym s t L') in L. discriminate.
Qed.

(** ** The complex of a list of edges *)
Definition triple_edge (t : nat * nat * Z) : simplex := simplex_of [fst (fst t); snd (fst t)] (snd t).
Definition triple_vertices (t : nat * nat * Z) (l : list simplex) : list simplex :=
  sset_insert (simplex_vertex (snd (fst t)) 0) (sset_insert (simplex_vertex (fst (fst t)) 0) l).
Definition vertex_set (T : list (nat * nat * Z)) (l : list simplex) : list simplex := fold_left (fun acc t => triple_vertices t acc) T l.

Lemma triple_edge_verts t : good (triple_edge t) /\ set_eq (verts (triple_edge t)) [fst (fst t); snd (fst t)] /\ data (triple_edge t) = snd t.
Proof.
  unfold triple_edge. refine (conj _ (conj _ eq_refl)).
  - apply simplex_of_good. discriminate.
  - intro x. rewrite simplex_of_In. reflexivity.
Qed.

Lemma vertex_set_spec T : forall l, ssorted l -> (forall s, In s l -> exists v, s = Simplex [v] 0) ->
  ssorted (vertex_set T l) /\ (forall s, In s (vertex_set T l) -> exists v, s = Simplex [v] 0) /\
  (forall vs, In vs (map verts (vertex_set T l)) <-> In vs (map verts l) \/ exists u v w, In (u, v, w) T /\ (vs = [u] \/ vs = [v])).
Proof.
  induction T as [|[[u v] w] T IH]; intros l HS Hl; cbn [vertex_set fold_left].
  - refine (conj HS (conj Hl _)). intro vs. split; [auto|]. intros [H|(u & v & w & [] & _)]; exact H.
  - fold (vertex_set T (triple_vertices (u, v, w) l)). unfold triple_vertices. cbn [fst snd].
    assert (HS' : ssorted (sset_insert (simplex_vertex v 0) (sset_insert (simplex_vertex u 0) l))) by (apply sset_insert_sorted, sset_insert_sorted; exact HS).
    assert (Hl' : forall s, In s (sset_insert (simplex_vertex v 0) (sset_insert (simplex_vertex u 0) l)) -> exists x, s = Simplex [x] 0).
    { intros s Hs. apply sset_insert_In in Hs. destruct Hs as [-> |Hs]; [exists v; reflexivity|]. apply sset_insert_In in Hs. destruct Hs as [-> |Hs]; [exists u; reflexivity|auto]. }
    destruct (IH _ HS' Hl') as (H1 & H2 & H3). refine (conj H1 (conj H2 _)). intro vs. rewrite H3, !sset_insert_verts. cbn [simplex_vertex verts]. split.
    + intros [[-> |[-> |H]]|(u' & v' & w' & H & E)]; [right; exists u, v, w; simpl; auto|right; exists u, v, w; simpl; auto|auto|right; exists u', v', w'; simpl; auto].
    + intros [H|(u' & v' & w' & [E|H] & E')]; [auto|injection E as <- <- <-; tauto|right; exists u', v', w'; auto].
Qed.

Lemma pair_wf a b vs : a <> b -> StronglySorted gt vs -> set_eq vs [a; b] -> vs = [Nat.max a b; Nat.min a b].
Proof.
  intros Hne HS E. apply (wf_ext (Simplex vs 0) (Simplex [Nat.max a b; Nat.min a b] 0)); [exact HS| |].
  - unfold wf. cbn [verts]. constructor; [constructor; constructor|]. constructor; [lia|constructor].
  - cbn [verts]. intro x. rewrite (E x). simpl. split; intros [<-|[<-|[]]]; lia.
Qed.

Theorem edge_list T : exists K, k_of_range (sset_insert_all (map triple_edge T) (sset_insert_all (vertex_set T []) [])) = Ok K /\ edge_list_complex T K.
Proof.
  destruct (vertex_set_spec T [] (SSorted_nil _) ltac:(intros s [])) as (V1 & V2 & V3). set (V := vertex_set T []) in *.
  set (V' := sset_insert_all V []). assert (S1 : ssorted V') by (apply insert_all_sorted; constructor).
  assert (V2' : forall s, In s V' -> exists v, s = Simplex [v] 0) by (intros s Hs; apply insert_all_In in Hs; destruct Hs as [Hs|[]]; auto).
  assert (V3' : forall vs, In vs (map verts V') <-> exists u v w, In (u, v, w) T /\ (vs = [u] \/ vs = [v])).
  { intro vs. unfold V'. rewrite insert_all_verts, V3. simpl. tauto. }
  set (L := sset_insert_all (map triple_edge T) V'). assert (SL : ssorted L) by (apply insert_all_sorted; exact S1).
  assert (GL : forall s, In s L -> good s).
  { intros s Hs. apply insert_all_In in Hs. destruct Hs as [Hs|Hs]; [apply in_map_iff in Hs; destruct Hs as (t & <- & _); apply triple_edge_verts|]. destruct (V2' s Hs) as (v & ->). split; [repeat constructor|discriminate]. }
  assert (HL : forall vs, has L vs <-> exists u v w, In (u, v, w) T /\ (set_eq vs [u] \/ set_eq vs [v] \/ set_eq vs [u; v])).
  { intro vs. split.
    - intros (s & Hs & E). assert (Hv : In (verts s) (map verts L)) by (apply in_map; exact Hs). unfold L in Hv. apply insert_all_verts in Hv. destruct Hv as [Hv|Hv].
      + apply in_map_iff in Hv. destruct Hv as (s' & E' & Hs'). apply in_map_iff in Hs'. destruct Hs' as ([[u v] w] & <- & Ht). exists u, v, w. split; [exact Ht|]. right. right.
        destruct (triple_edge_verts (u, v, w)) as (_ & Q & _). cbn [fst snd] in Q. intro x. rewrite <- (E x), <- E'. apply Q.
      + apply V3' in Hv. destruct Hv as (u & v & w & Ht & Hor). exists u, v, w. split; [exact Ht|]. destruct Hor as [E'|E']; rewrite E' in E; [left|right; left]; intro x; symmetry; apply E.
    - intros (u & v & w & Ht & Hor). assert (X : exists us, In us (map verts L) /\ set_eq us vs).
      { destruct Hor as [E|[E|E]].
        - exists [u]. split; [unfold L; apply insert_all_verts; right; apply V3'; exists u, v, w; auto|]. intro x. symmetry. apply E.
        - exists [v]. split; [unfold L; apply insert_all_verts; right; apply V3'; exists u, v, w; auto|]. intro x. symmetry. apply E.
        - exists (verts (triple_edge (u, v, w))). split; [unfold L; apply insert_all_verts; left; apply in_map; apply in_map; exact Ht|].
          destruct (triple_edge_verts (u, v, w)) as (_ & Q & _). intro x. rewrite (Q x). cbn [fst snd]. symmetry. apply E. }
      destruct X as (us & Hus & E). apply in_map_iff in Hus. destruct Hus as (s & <- & Hs). exists s. auto. }
  destruct (of_range_new L GL (ssorted_nodup L SL)) as (K & EK & KK & IK). exists K. split; [exact EK|].
  assert (WL : forall s, In s L -> wf s) by (intros s Hs; apply (GL s Hs)).
  unfold edge_list_complex. rewrite IK. refine (conj (of_range_reachable L K WL EK) (conj _ (conj (ssorted_filtration L WL SL) (conj HL (conj _ _))))).
  - intros s vs Hs Hne Hi. assert (HH : has L (verts s)) by (exists s; split; [exact Hs|intro; tauto]). apply HL in HH. destruct HH as (u & v & w & Ht & Hor). apply HL. exists u, v, w. split; [exact Ht|].
    assert (Hi' : forall x, In x vs -> x = u \/ x = v) by (intros x Hx; apply Hi in Hx; destruct Hor as [E|[E|E]]; apply E in Hx; simpl in Hx; intuition).
    destruct (in_dec Nat.eq_dec u vs) as [Iu|Iu], (in_dec Nat.eq_dec v vs) as [Iv|Iv].
    + right. right. intro x. split; [intro Hx; apply Hi' in Hx; simpl; intuition|intros [<-|[<-|[]]]; assumption].
    + left. intro x. split; [intro Hx; destruct (Hi' x Hx) as [-> | ->]; [simpl; auto|contradiction]|intros [<-|[]]; assumption].
    + right. left. intro x. split; [intro Hx; destruct (Hi' x Hx) as [-> | ->]; [contradiction|simpl; auto]|intros [<-|[]]; assumption].
    + exfalso. destruct vs as [|x vs]; [easy|]. destruct (Hi' x (or_introl eq_refl)) as [-> | ->]; [apply Iu|apply Iv]; simpl; auto.
  - intros s v Hs Ev. destruct (insert_all_first _ _ _ S1 Hs) as [Hv|(Hn & l1 & l2 & E & _)]; [destruct (V2' s Hv) as (x & ->); reflexivity|]. exfalso. apply Hn.
    assert (Ht : In s (map triple_edge T)) by (rewrite E; apply in_or_app; simpl; auto). apply in_map_iff in Ht. destruct Ht as ([[a b] w] & <- & Ht).
    destruct (triple_edge_verts (a, b, w)) as (_ & Q & _). cbn [fst snd] in Q. rewrite Ev in *. apply V3'. exists a, b, w. split; [exact Ht|]. left. f_equal. destruct (proj2 (Q a)) as [->|[]]; [simpl; auto|reflexivity].
  - intros s a b Hs Hab Eab. destruct (insert_all_first _ _ _ S1 Hs) as [Hv|(_ & l1 & l2 & E & Hf)].
    + exfalso. destruct (V2' s Hv) as (x & ->). cbn [verts] in Eab. destruct (proj2 (Eab a)) as [X|[]]; [simpl; auto|]. destruct (proj2 (Eab b)) as [Y|[]]; [simpl; auto|]. congruence.
    + apply map_eq_app in E. destruct E as (before & rest & -> & E1 & E2). apply map_eq_cons in E2. destruct E2 as ([[u v] w] & after & -> & E2 & E3).
      exists before, u, v, after. destruct (triple_edge_verts (u, v, w)) as (_ & Q & D). cbn [fst snd] in Q, D. rewrite E2 in Q, D. rewrite D. split; [reflexivity|]. split; [intro x; rewrite <- (Q x); apply Eab|].
      intros u' v' w' Hb X. apply Hf. rewrite <- E1. apply in_map_iff. exists (triple_edge (u', v', w')). split; [|apply in_map; exact Hb].
      destruct (triple_edge_verts (u', v', w')) as ([W' _] & Q' & _). cbn [fst snd] in Q'. apply (wf_ext (triple_edge (u', v', w')) s W' (WL s Hs)). intro x. rewrite (Q' x), (X x). symmetry. apply Eab.
Qed.

(** ** Lines *)
Lemma split_tokens s : trim s <> [] -> split isspace (trim s) = tokens [] s.
Proof.
  intro Hne. rewrite <- (tokens_trim s). destruct (C84_trim s) as ([T1 T2] & _). set (t := trim s) in *. clearbody t. clear s.
  change (tokens [] t) with (splitByWhitespace t). rewrite (proj1 (C84_whitespace t)).
  symmetry. assert (E := proj2 (C84_split isspace t (split isspace t)) eq_refl). destruct E as (f & rest & others & E1 & E2 & E3 & E4). rewrite E2.
  assert (Hf : f <> []).
  { intros ->. cbn [app] in E1. subst t. inversion E4 as [r Hr|r w u ws Hr Hn _ _ _ Q]; subst.
    - destruct rest as [|c rest]; [easy|]. inversion Hr; subst. rewrite (T1 c rest eq_refl) in H1. discriminate.
    - destruct r as [|c r]; [easy|]. inversion Hr; subst. rewrite (T1 c _ eq_refl) in H1. discriminate. }
  cbn [filter]. destruct f as [|c f]; [easy|]. cbn [nonempty]. f_equal.
  clear -E4. induction E4 as [|r w u ws _ _ _ Hw _ IH]; [reflexivity|]. cbn [filter]. destruct w; [easy|]. cbn [nonempty]. f_equal. exact IH.
Qed.
Lemma trim_spaces b : spaces b -> trim b = [].
Proof.
  intro Hb. apply (C84_trim_unique b [] b []); [|exact Hb|constructor|rewrite !app_nil_r; reflexivity]. split; intros c t E; [discriminate|]. destruct t; discriminate.
Qed.
Lemma trim_first b c t : spaces b -> isspace c = false -> exists r, trim (b ++ c :: t) = c :: r.
Proof.
  intros Hb Hc. destruct (C84_trim (b ++ c :: t)) as ([T1 _] & a & b' & Ha & Hb' & E). set (r := trim (b ++ c :: t)) in *. clearbody r.
  revert b Hb E. induction Ha as [|d a Hd Ha IH]; intros b Hb E; cbn [app] in E.
  - destruct r as [|e r]; cbn [app] in E.
    + exfalso. assert (X : In c b') by (rewrite <- E; apply in_or_app; simpl; auto). unfold spaces in Hb'. rewrite Forall_forall in Hb'. rewrite (Hb' c X) in Hc. discriminate.
    + destruct Hb as [|d b Hd Hb]; cbn [app] in E; injection E as <- _; [eauto|]. rewrite (T1 d r eq_refl) in Hd. discriminate.
  - destruct Hb as [|e b He Hb]; cbn [app] in E.
    + injection E as -> _. congruence.
    + injection E as _ E. apply (IH b Hb E).
Qed.

(** lines without content *)
Definition skipped_line (line : str) : Prop :=
  spaces line \/ exists b c t, spaces b /\ comment_token c = true /\ line = b ++ c :: t.
Lemma comment_no_space c : comment_token c = true -> isspace c = false.
Proof. unfold comment_token. rewrite !orb_true_iff, !Ascii.eqb_eq. intros [[[-> | ->]| ->]| ->]; reflexivity. Qed.

Section Lines.
  Variables (lo hi vmax : Z) (readWeights : bool).
  Notation rl := (read_line lo hi vmax readWeights true isspace).

  Lemma read_skipped st line : skipped_line line -> rl st line = Ok st.
  Proof.
    intros [H|(b & c & t & Hb & Hc & ->)]; unfold read_line.
    - rewrite (trim_spaces line H). reflexivity.
    - destruct (trim_first b c t Hb (comment_no_space c Hc)) as (r & ->). rewrite Hc. reflexivity.
  Qed.

  (** a line with tokens *)
  Lemma read_tokens st line us vs rest : tokens [] line = us :: vs :: rest -> (forall c t, us = c :: t -> comment_token c = false) -> us <> [] ->
    (forall c r, trim line = c :: r -> exists t, us = c :: t) ->
    rl st line =
      let* r := if numeric us then Ok (node_labels st, last_id st, vertex_of vmax us, vertex_of vmax vs)
                else let '(m, id) := label_add (label_add (node_labels st, last_id st) us) vs in
                     let* u := label_at m us in let* v := label_at m vs in Ok (m, id, u, v) in
      let '(m, id, u, v) := r in
      let w := match rest with x :: _ => if readWeights then fst (convert lo hi x) else 0%Z | [] => 0%Z end in
      Ok (Reader m id (edges st ++ [triple_edge (u, v, w)]) (triple_vertices (u, v, w) (vertices st))).
  Proof.
    intros E Hc Hne Hf. assert (Hn : trim line <> []).
    { intro X. pose proof (tokens_trim line) as T. rewrite X, E in T. discriminate. }
    unfold read_line. cbv zeta. rewrite (split_tokens line Hn), E. destruct (trim line) as [|c r]; [easy|]. destruct (Hf c r eq_refl) as (t & Et). rewrite (Hc c t Et). reflexivity.
  Qed.

  (** Numbers *)
  Lemma vertex_of_print z : (0 <= z <= vmax)%Z -> vertex_of vmax (print_Z z) = Z.to_nat z.
  Proof.
    intro Hz. unfold vertex_of. assert (E := extract_print (- vmax) vmax [] z [] (Forall_nil _) ltac:(discriminate)). cbn [app] in E. rewrite app_nil_r in E. rewrite E.
    destruct (Z.ltb_spec z (- vmax)); [lia|]. destruct (Z.ltb_spec vmax z); [lia|]. cbv iota beta. destruct (Z.ltb_spec z 0); [lia|reflexivity].
  Qed.
  Lemma numeric_print z : (0 <= z)%Z -> numeric (print_Z z) = true.
  Proof.
    intro Hz. unfold print_Z. assert (G : forall d, numeric (uint_chars d) = true) by (induction d as [|d IH|d IH|d IH|d IH|d IH|d IH|d IH|d IH|d IH|d IH]; [reflexivity|..]; cbn [uint_chars numeric forallb]; exact IH).
    destruct z as [|p|p]; [reflexivity| |lia]. cbn [Z.to_int]. apply G.
  Qed.
  Lemma print_first z c t : (0 <= z)%Z -> print_Z z = c :: t -> comment_token c = false /\ isspace c = false.
  Proof.
    intros Hz E. split.
    - assert (X : numeric (print_Z z) = true) by (apply numeric_print; exact Hz). rewrite E in X. cbn [numeric forallb] in X. apply andb_true_iff in X. destruct X as [X _].
      destruct (comment_token c) eqn:Y; [|reflexivity]. unfold comment_token in Y. rewrite !orb_true_iff, !Ascii.eqb_eq in Y. destruct Y as [[[-> | ->]| ->]| ->]; discriminate.
    - pose proof (print_word z) as W. rewrite E in W. inversion W; assumption.
  Qed.
  Lemma convert_print z : (lo <= z <= hi)%Z -> fst (convert lo hi (print_Z z)) = z.
  Proof. intro Hz. assert (E := proj1 (C84_convert lo hi [] z [] Hz (Forall_nil _) ltac:(discriminate))). cbn [app] in E. rewrite app_nil_r in E. rewrite E. reflexivity. Qed.

  (** the weight that is read from the rest of a line *)
  Definition line_weight (zs : list Z) : Z := if readWeights then hd 0%Z zs else 0%Z.
  Lemma weight_tokens zs : Forall (fun z => (lo <= z <= hi)%Z) zs ->
    match map print_Z zs with x :: _ => if readWeights then fst (convert lo hi x) else 0%Z | [] => 0%Z end = line_weight zs.
  Proof. intro H. unfold line_weight. destruct H as [|z zs Hz _]; cbn [map hd]; destruct readWeights; auto. apply convert_print. exact Hz. Qed.

  Lemma read_numbers_line st line u v zs : denotes line (Z.of_nat u :: Z.of_nat v :: zs) -> (Z.of_nat u <= vmax)%Z -> (Z.of_nat v <= vmax)%Z -> Forall (fun z => (lo <= z <= hi)%Z) zs ->
    rl st line = Ok (Reader (node_labels st) (last_id st) (edges st ++ [triple_edge (u, v, line_weight zs)]) (triple_vertices (u, v, line_weight zs) (vertices st))).
  Proof.
    intros Hd Hu Hv Hz. rewrite (read_tokens st line (print_Z (Z.of_nat u)) (print_Z (Z.of_nat v)) (map print_Z zs)).
    - rewrite numeric_print by lia. cbn [bind]. rewrite !vertex_of_print by lia. rewrite !Nat2Z.id. cbv zeta. pose proof (weight_tokens zs Hz) as EW. unfold str in EW |- *. rewrite EW. reflexivity.
    - exact (tokens_denoted _ _ Hd).
    - intros c t E. apply (print_first _ c t (Nat2Z.is_nonneg u) E).
    - intro E. pose proof (print_nonempty (Z.of_nat u)) as L. rewrite E in L. simpl in L. lia.
    - intros c r Et. inversion Hd as [|b z t zs' Hb Ht Hd' E1 E2]; subst. destruct (print_Z (Z.of_nat u)) as [|d p] eqn:E; [pose proof (print_nonempty (Z.of_nat u)) as L; rewrite E in L; simpl in L; lia|].
      destruct (print_first _ d p (Nat2Z.is_nonneg u) E) as [_ Hs]. destruct (trim_first b d (p ++ t) Hb Hs) as (r' & Er). cbn [app] in Et. assert (X : c :: r = d :: r') by (rewrite <- Et; exact Er). injection X as -> _. eauto.
  Qed.
End Lines.

(** what a line means: nothing, or an edge with numbers for its vertices and more numbers *)
Definition number_line (lo hi vmax : Z) (line : str) (o : option (nat * nat * list Z)) : Prop :=
  match o with
  | None => skipped_line line
  | Some (u, v, zs) => denotes line (Z.of_nat u :: Z.of_nat v :: zs) /\ (Z.of_nat u <= vmax)%Z /\ (Z.of_nat v <= vmax)%Z /\ Forall (fun z => (lo <= z <= hi)%Z) zs
  end.
(** the weighted edges *)
Definition mentioned (readWeights : bool) (entries : list (option (nat * nat * list Z))) : list (nat * nat * Z) :=
  flat_map (fun o => match o with None => [] | Some (u, v, zs) => [(u, v, line_weight readWeights zs)] end) entries.

Lemma number_lines lo hi vmax readW lines entries : Forall2 (number_line lo hi vmax) lines entries -> forall st,
  foldM (read_line lo hi vmax readW true isspace) lines st =
  Ok (Reader (node_labels st) (last_id st) (edges st ++ map triple_edge (mentioned readW entries)) (vertex_set (mentioned readW entries) (vertices st))).
Proof.
  induction 1 as [|line o lines entries Ho _ IH]; intro st; cbn [foldM mentioned flat_map map]; [rewrite app_nil_r; destruct st; reflexivity|]. fold (mentioned readW entries).
  destruct o as [[[u v] zs]|]; cbn [number_line] in Ho.
  - destruct Ho as (H1 & H2 & H3 & H4). rewrite (read_numbers_line lo hi vmax readW st line u v zs H1 H2 H3 H4). cbn [bind]. rewrite IH. cbn [node_labels last_id edges vertices app map vertex_set fold_left]. rewrite <- app_assoc. reflexivity.
  - rewrite (read_skipped lo hi vmax readW st line Ho). cbn [bind]. rewrite IH. reflexivity.
Qed.

(** the lines that are seen *)
Lemma rev_last_app {A} (l : list A) x : rev (l ++ [x]) = x :: rev l.
Proof. rewrite rev_app_distr. reflexivity. Qed.
Lemma text_of_snoc lines l : text_of (lines ++ [l]) [] = text_of lines (l ++ [newline]).
Proof. unfold text_of. rewrite flat_map_app. cbn [flat_map]. rewrite !app_nil_r. reflexivity. Qed.
Lemma file_seen lines text : file_of lines text -> exists x, seen_lines text = lines ++ [x] /\ (x = [] \/ In x lines).
Proof.
  intro Hf. unfold seen_lines. rewrite (file_lines lines text Hf). eexists. split; [reflexivity|]. destruct Hf as [H|front last E Hne H].
  - destruct lines as [|l lines] using rev_ind; [left; reflexivity|]. left. rewrite text_of_snoc. unfold text_of. rewrite app_assoc, rev_last_app. reflexivity.
  - right. subst lines. rewrite last_last. unfold text_of. destruct last as [|c last _] using rev_ind; [easy|]. rewrite app_assoc, rev_last_app.
    assert (N : Ascii.eqb c newline = false).
    { apply Ascii.eqb_neq. intros ->. rewrite Forall_forall in H. apply (H (last ++ [newline])); apply in_or_app; simpl; auto. }
    rewrite N. apply in_or_app. simpl. auto.
Qed.

Lemma edge_list_dup T t K : In t T -> edge_list_complex (T ++ [t]) K -> edge_list_complex T K.
Proof.
  intros Ht (H1 & H2 & H3 & H4 & H5 & H6). assert (I : forall x, In x (T ++ [t]) <-> In x T) by (intro x; rewrite in_app_iff; simpl; split; [intros [H|[<-|[]]]; auto|auto]).
  refine (conj H1 (conj H2 (conj H3 (conj _ (conj H5 _))))).
  - intro vs. rewrite H4. split; intros (u & v & w & Hin & Hor); exists u, v, w; (split; [apply I; exact Hin|exact Hor]).
  - intros s a b Hs Hab E. destruct (H6 s a b Hs Hab E) as (before & u & v & after & ET & Hp & Hb). destruct after as [|x after _] using rev_ind.
    + exfalso. apply app_inj_tail in ET. destruct ET as [-> ->]. apply (Hb u v (data s) Ht). exact Hp.
    + exists before, u, v, after. split; [|auto]. rewrite app_comm_cons, app_assoc in ET. apply app_inj_tail in ET. apply ET.
Qed.

(** A file with numbers for vertices *)
Theorem C89_numbers : forall lo hi vmax readWeights m lines entries text, file_of lines text -> Forall2 (number_line lo hi vmax) lines entries ->
  exists K, read_edges lo hi vmax readWeights true isspace m text = Ok (K, m) /\ edge_list_complex (mentioned readWeights entries) K.
Proof.
  intros lo hi vmax readW m lines entries text Hf HR. destruct (file_seen lines text Hf) as (x & Es & Hx).
  assert (X : exists o, number_line lo hi vmax x o /\ (mentioned readW (entries ++ [o]) = mentioned readW entries \/ exists t, In t (mentioned readW entries) /\ mentioned readW (entries ++ [o]) = mentioned readW entries ++ [t])).
  { destruct Hx as [-> |Hx].
    - exists None. split; [left; constructor|]. left. unfold mentioned. rewrite flat_map_app. apply app_nil_r.
    - clear -HR Hx. assert (Y : exists o, In o entries /\ number_line lo hi vmax x o).
      { induction HR as [|l o lines entries Ho _ IH]; [destruct Hx|]. destruct Hx as [<-|Hx]; [exists o; simpl; auto|]. destruct (IH Hx) as (o' & H1 & H2). exists o'. simpl; auto. }
      destruct Y as (o & Ho & Hn). exists o. split; [exact Hn|]. unfold mentioned. rewrite flat_map_app. cbn [flat_map]. rewrite app_nil_r. destruct o as [[[u v] zs]|]; [|left; apply app_nil_r].
      right. exists (u, v, line_weight readW zs). split; [|reflexivity]. apply in_flat_map. exists (Some (u, v, zs)). simpl. auto. }
  destruct X as (o & Ho & Hm). assert (HR' : Forall2 (number_line lo hi vmax) (lines ++ [x]) (entries ++ [o])) by (apply Forall2_app; [exact HR|repeat constructor; exact Ho]).
  unfold read_edges. rewrite Es, (number_lines lo hi vmax readW _ _ HR'). cbn [bind node_labels edges vertices app].
  destruct (edge_list (mentioned readW (entries ++ [o]))) as (K & EK & HK). cbv zeta. rewrite EK. cbn [bind]. exists K. split; [reflexivity|].
  destruct Hm as [<- |(t & Ht & E)]; [exact HK|]. rewrite E in HK. apply (edge_list_dup _ t); assumption.
Qed.

(** ** Labels *)
(** [D] contains the elements of [F], in the order in which they occur first *)
Definition first_occurrences {A} (F D : list A) : Prop :=
  NoDup D /\ (forall x, In x D <-> In x F) /\
  (forall i j x y, i < j -> nth_error D i = Some x -> nth_error D j = Some y -> exists F1 F2, F = F1 ++ x :: F2 /\ ~ In y F1).
(** what a line means: nothing, or an edge with labels for its vertices and numbers *)
Definition label_line (lo hi : Z) (line : str) (o : option (str * str * list Z)) : Prop :=
  match o with
  | None => skipped_line line
  | Some (a, b, zs) => exists b0 b1 t, line = b0 ++ a ++ b1 ++ b ++ t /\ spaces b0 /\ spaces b1 /\ b1 <> [] /\ spaced t /\ denotes t zs /\ Forall (fun z => (lo <= z <= hi)%Z) zs /\
      word isspace a /\ word isspace b /\ b <> [] /\ (exists c, In c a /\ digit c = None) /\ (forall c r, a = c :: r -> comment_token c = false)
  end.
Definition label_entries (entries : list (option (str * str * list Z))) : list (str * str * list Z) :=
  flat_map (fun o => match o with None => [] | Some e => [e] end) entries.
Definition label_list (entries : list (str * str * list Z)) : list str := flat_map (fun e => [fst (fst e); snd (fst e)]) entries.
(** the edge [t] stands for the entry [e] if the vertices are indices in [D] *)
Definition stands_for (readWeights : bool) (D : list str) (e : str * str * list Z) (t : nat * nat * Z) : Prop :=
  nth_error D (fst (fst t)) = Some (fst (fst e)) /\ nth_error D (snd (fst t)) = Some (snd (fst e)) /\ snd t = line_weight readWeights (snd e).

Lemma str_eqb_eq a : forall b, str_eqb a b = true <-> a = b.
Proof.
  induction a as [|c a IH]; intros [|d b]; cbn [str_eqb]; try (split; congruence). rewrite andb_true_iff, Ascii.eqb_eq, IH. split; [intros [-> ->]; reflexivity|intro E; injection E; auto].
Qed.
Definition lab_inv (m : labels) (id : nat) (D : list str) : Prop :=
  (forall x i, label_find m x = Some i <-> nth_error D i = Some x) /\ id = length D.

Lemma str_in_dec (x : str) D : {In x D} + {~ In x D}.
Proof. apply in_dec. apply list_eq_dec. apply Ascii.ascii_dec. Qed.
Lemma first_step {A} (F D : list A) x (dec : {In x D} + {~ In x D}) : first_occurrences F D -> first_occurrences (F ++ [x]) (if dec then D else D ++ [x]).
Proof.
  intros (H1 & H2 & H3). destruct dec as [I|I].
  - refine (conj H1 (conj _ _)).
    + intro y. rewrite H2, in_app_iff. simpl. split; [auto|]. intros [H|[<-|[]]]; [exact H|apply H2; exact I].
    + intros i j y z L E1 E2. destruct (H3 i j y z L E1 E2) as (F1 & F2 & -> & N). exists F1, (F2 ++ [x]). rewrite <- app_assoc. auto.
  - refine (conj _ (conj _ _)).
    + apply NoDup_app_intro; [exact H1|repeat constructor; auto|]. intros y Hy [<-|[]]. contradiction.
    + intro y. rewrite !in_app_iff, H2. tauto.
    + intros i j y z L E1 E2. assert (j < length (D ++ [x])) by (apply nth_error_Some; congruence). rewrite app_length in H. simpl in H.
      rewrite nth_error_app1 in E1 by lia. destruct (Nat.eq_dec j (length D)) as [-> |Hj].
      * rewrite nth_error_app2, Nat.sub_diag in E2 by lia. injection E2 as <-. assert (Hy : In y F) by (apply H2; apply nth_error_In in E1; exact E1). apply in_split in Hy. destruct Hy as (F1 & F2 & ->).
        exists F1, (F2 ++ [x]). rewrite <- app_assoc. split; [reflexivity|]. intro X. apply I, H2. apply in_or_app. auto.
      * rewrite nth_error_app1 in E2 by lia. destruct (H3 i j y z L E1 E2) as (F1 & F2 & -> & N). exists F1, (F2 ++ [x]). rewrite <- app_assoc. auto.
Qed.
Lemma lab_step m id D x : NoDup D -> lab_inv m id D -> exists m' id', label_add (m, id) x = (m', id') /\ lab_inv m' id' (if str_in_dec x D then D else D ++ [x]).
Proof.
  intros N [H1 H2]. unfold label_add. destruct (label_find m x) as [i|] eqn:E.
  - exists m, id. split; [reflexivity|]. destruct (str_in_dec x D) as [I|I]; [split; assumption|]. exfalso. apply I. apply H1 in E. apply nth_error_In in E. exact E.
  - exists ((x, id) :: m), (S id). split; [reflexivity|]. destruct (str_in_dec x D) as [I|I].
    + exfalso. apply In_nth_error in I. destruct I as (i & Hi). apply H1 in Hi. congruence.
    + split; [|rewrite app_length; simpl; lia]. intros y i. cbn [label_find]. destruct (str_eqb x y) eqn:Exy.
      * apply str_eqb_eq in Exy. subst y. split.
        -- intro Q. injection Q as <-. rewrite H2, nth_error_app2, Nat.sub_diag by lia. reflexivity.
        -- intro Q. destruct (Nat.lt_ge_cases i (length D)) as [L|L]; [rewrite nth_error_app1 in Q by lia; apply H1 in Q; congruence|].
           assert (i < length (D ++ [x])) by (apply nth_error_Some; congruence). rewrite app_length in H. simpl in H. f_equal. lia.
      * rewrite H1. split; [intro Q; rewrite nth_error_app1; [exact Q|apply nth_error_Some; congruence]|]. intro Q.
        destruct (Nat.lt_ge_cases i (length D)) as [L|L]; [rewrite nth_error_app1 in Q by lia; exact Q|]. exfalso.
        assert (i < length (D ++ [x])) by (apply nth_error_Some; congruence). rewrite app_length in H. simpl in H. rewrite nth_error_app2 in Q by lia. replace (i - length D) with 0 in Q by lia. injection Q as <-.
        rewrite (proj2 (str_eqb_eq x x) eq_refl) in Exy. discriminate.
Qed.
Lemma grow_prefix (D : list str) x i y : nth_error D i = Some y -> nth_error (if str_in_dec x D then D else D ++ [x]) i = Some y.
Proof. intro H. destruct (str_in_dec x D); [exact H|]. rewrite nth_error_app1; [exact H|]. apply nth_error_Some. congruence. Qed.
Lemma grow_in (D : list str) x : In x (if str_in_dec x D then D else D ++ [x]).
Proof. destruct (str_in_dec x D); [assumption|apply in_or_app; simpl; auto]. Qed.

Lemma read_label_line lo hi vmax readW st line a b zs D F : label_line lo hi line (Some (a, b, zs)) -> lab_inv (node_labels st) (last_id st) D -> first_occurrences F D ->
  exists m' id' D' t, read_line lo hi vmax readW true isspace st line = Ok (Reader m' id' (edges st ++ [triple_edge t]) (triple_vertices t (vertices st))) /\
    lab_inv m' id' D' /\ first_occurrences (F ++ [a; b]) D' /\ (forall i x, nth_error D i = Some x -> nth_error D' i = Some x) /\ stands_for readW D' (a, b, zs) t.
Proof.
  intros (b0 & b1 & t & -> & Hb0 & Hb1 & Hn1 & Ht & Hd & Hz & Ha & Hb & Hbn & (c & Hc & Hdc) & Hcm) HL HF.
  assert (Han : a <> []) by (intros ->; destruct Hc).
  assert (Nn : numeric a = false).
  { destruct (numeric a) eqn:E; [|reflexivity]. unfold numeric in E. rewrite forallb_forall in E. specialize (E c Hc). rewrite Hdc in E. discriminate. }
  destruct (lab_step _ _ D a (proj1 HF) HL) as (m1 & id1 & E1 & L1). pose proof (first_step F D a (str_in_dec a D) HF) as F1. set (D1 := if str_in_dec a D then D else D ++ [a]) in *.
  destruct (lab_step m1 id1 D1 b (proj1 F1) L1) as (m2 & id2 & E2 & L2). pose proof (first_step _ D1 b (str_in_dec b D1) F1) as F2. set (D2 := if str_in_dec b D1 then D1 else D1 ++ [b]) in *.
  assert (Ia : exists u, nth_error D2 u = Some a) by (destruct (In_nth_error D1 a (grow_in D a)) as (u & Hu); exists u; apply grow_prefix; exact Hu).
  assert (Ib : exists v, nth_error D2 v = Some b) by (apply In_nth_error; apply grow_in).
  destruct Ia as (u & Hu), Ib as (v & Hv). exists m2, id2, D2, (u, v, line_weight readW zs). refine (conj _ (conj L2 (conj _ (conj _ _)))).
  - rewrite (read_tokens lo hi vmax readW st _ a b (map print_Z zs)).
    + rewrite Nn, E1, E2. unfold label_at. rewrite (proj2 (proj1 L2 a u) Hu), (proj2 (proj1 L2 b v) Hv). cbn [bind]. cbv zeta.
      pose proof (weight_tokens lo hi readW zs Hz) as EW. unfold str in EW |- *. rewrite EW. reflexivity.
    + rewrite tokens_spaces by exact Hb0. rewrite tokens_word by exact Ha. cbn [app]. rewrite tokens_end; [|exact Han|].
      * rewrite tokens_spaces by exact Hb1. rewrite tokens_word by exact Hb. cbn [app]. rewrite tokens_end by assumption. rewrite (tokens_denoted _ _ Hd). reflexivity.
      * destruct b1 as [|d b1]; [easy|]. inversion Hb1; subst. intros x s E. injection E as <- _. assumption.
    + exact Hcm.
    + exact Han.
    + intros d r Et. destruct a as [|e a]; [easy|]. inversion Ha as [|? ? He _]; subst. destruct (trim_first b0 e (a ++ b1 ++ b ++ t) Hb0 He) as (r' & Er).
      cbn [app] in Et. assert (X : d :: r = e :: r') by (rewrite <- Et; exact Er). injection X as -> _. eauto.
  - rewrite <- app_assoc in F2. exact F2.
  - intros i x Hx. apply grow_prefix, grow_prefix. exact Hx.
  - refine (conj Hu (conj Hv eq_refl)).
Qed.

Lemma label_lines lo hi vmax readW lines entries : Forall2 (label_line lo hi) lines entries -> forall st F D, lab_inv (node_labels st) (last_id st) D -> first_occurrences F D ->
  exists m' id' D' T, foldM (read_line lo hi vmax readW true isspace) lines st = Ok (Reader m' id' (edges st ++ map triple_edge T) (vertex_set T (vertices st))) /\
    lab_inv m' id' D' /\ first_occurrences (F ++ label_list (label_entries entries)) D' /\ (forall i x, nth_error D i = Some x -> nth_error D' i = Some x) /\
    Forall2 (stands_for readW D') (label_entries entries) T.
Proof.
  induction 1 as [|line o lines entries Ho _ IH]; intros st F D HL HF; cbn [foldM].
  - exists (node_labels st), (last_id st), D, []. cbn [map vertex_set fold_left label_entries label_list flat_map]. rewrite !app_nil_r. destruct st. auto.
  - destruct o as [[[a b] zs]|].
    + destruct (read_label_line lo hi vmax readW st line a b zs D F Ho HL HF) as (m1 & id1 & D1 & t & E1 & L1 & F1 & P1 & S1). rewrite E1. cbn [bind].
      destruct (IH (Reader m1 id1 (edges st ++ [triple_edge t]) (triple_vertices t (vertices st))) (F ++ [a; b]) D1 L1 F1) as (m2 & id2 & D2 & T & E2 & L2 & F2 & P2 & S2).
      exists m2, id2, D2, (t :: T). rewrite E2. cbn [edges vertices map vertex_set fold_left label_entries label_list flat_map app fst snd]. rewrite <- !app_assoc in *. cbn [app] in *. refine (conj eq_refl (conj L2 (conj F2 (conj _ _)))).
      * intros i x Hx. apply P2, P1. exact Hx.
      * constructor; [|exact S2]. destruct S1 as (X1 & X2 & X3). refine (conj _ (conj _ X3)); apply P2; assumption.
    + rewrite (read_skipped lo hi vmax readW st line Ho). cbn [bind]. destruct (IH st F D HL HF) as (m2 & id2 & D2 & T & E2 & H2). exists m2, id2, D2, T. split; [exact E2|exact H2].
Qed.

(** A file with labels for vertices, and a new reader: the vertices are numbered in the
    order in which they occur. *)
Theorem C89_labels : forall lo hi vmax readWeights lines entries text, file_of lines text -> Forall2 (label_line lo hi) lines entries ->
  exists K m D T, read_edges lo hi vmax readWeights true isspace [] text = Ok (K, m) /\ edge_list_complex T K /\
    first_occurrences (label_list (label_entries entries)) D /\ Forall2 (stands_for readWeights D) (label_entries entries) T.
Proof.
  intros lo hi vmax readW lines entries text Hf HR. destruct (file_seen lines text Hf) as (x & Es & Hx).
  destruct (label_lines lo hi vmax readW lines entries HR (Reader [] 0 [] []) [] []) as (m & id & D & T & E & L & F & _ & S).
  { split; [|reflexivity]. intros y i. cbn [node_labels label_find]. split; [discriminate|destruct i; discriminate]. }
  { refine (conj (NoDup_nil _) (conj (fun x => iff_refl _) _)). intros i j y z _ X. destruct i; discriminate. }
  cbn [app edges vertices] in E, F. unfold read_edges. rewrite Es, BarycentricFacts.foldM_app, E. cbn [bind foldM].
  destruct Hx as [-> |Hx].
  - rewrite (read_skipped lo hi vmax readW _ [] (or_introl (Forall_nil _))). cbn [bind edges vertices node_labels]. destruct (edge_list T) as (K & EK & HK). cbv zeta. rewrite EK. cbn [bind]. exists K, m, D, T. auto.
  - assert (Y : exists o, In o entries /\ label_line lo hi x o).
    { clear -HR Hx. induction HR as [|l o lines entries Ho _ IH]; [destruct Hx|]. destruct Hx as [<-|Hx]; [exists o; simpl; auto|]. destruct (IH Hx) as (o' & H1 & H2). exists o'. simpl; auto. }
    destruct Y as ([[[a b] zs]|] & Ho & Hn).
    + destruct (read_label_line lo hi vmax readW (Reader m id (map triple_edge T) (vertex_set T [])) x a b zs D _ Hn L F) as (m1 & id1 & D1 & t & E1 & L1 & F1 & P1 & S1). rewrite E1. cbn [bind edges vertices node_labels].
      assert (He : In (a, b, zs) (label_entries entries)) by (unfold label_entries; apply in_flat_map; exists (Some (a, b, zs)); simpl; auto).
      assert (Q : exists t', In t' T /\ stands_for readW D (a, b, zs) t').
      { clear -He S. induction S as [|e t' es T Hs _ IH]; [destruct He|]. destruct He as [-> |He]; [exists t'; simpl; auto|]. destruct (IH He) as (t'' & H1 & H2). exists t''; simpl; auto. }
      destruct Q as (t' & Ht' & (Q1 & Q2 & Q3)). destruct S1 as (X1 & X2 & X3). assert (t = t').
      { destruct t as [[u v] w], t' as [[u' v'] w']. cbn [fst snd] in *. apply P1 in Q1, Q2. destruct F1 as (N1 & _).
        assert (U : forall i j y, nth_error D1 i = Some y -> nth_error D1 j = Some y -> i = j) by (intros i j y Hi Hj; rewrite NoDup_nth_error in N1; apply N1; [apply nth_error_Some; congruence|congruence]).
        rewrite (U _ _ _ X1 Q1), (U _ _ _ X2 Q2), X3, Q3. reflexivity. }
      subst t'. replace (map triple_edge T ++ [triple_edge t]) with (map triple_edge (T ++ [t])) by (rewrite map_app; reflexivity).
      replace (triple_vertices t (vertex_set T [])) with (vertex_set (T ++ [t]) []) by (unfold vertex_set; rewrite fold_left_app; reflexivity).
      destruct (edge_list (T ++ [t])) as (K & EK & HK). cbv zeta. rewrite EK. cbn [bind]. exists K, m1, D, T. refine (conj eq_refl (conj _ (conj F S))). apply (edge_list_dup T t); assumption.
    + rewrite (read_skipped lo hi vmax readW _ x Hn). cbn [bind edges vertices node_labels]. destruct (edge_list T) as (K & EK & HK). cbv zeta. rewrite EK. cbn [bind]. exists K, m, D, T. auto.
Qed.

(** Every text: no undefined behaviour and no exception except for lines with a single
    token; the complex is closed and in filtration order. *)
Lemma label_found st s : exists i, label_find (fst (label_add st s)) s = Some i.
Proof.
  destruct st as [m id]. unfold label_add. destruct (label_find m s) as [i|] eqn:E; [exists i; exact E|]. exists id. cbn [fst label_find]. rewrite (proj2 (str_eqb_eq s s) eq_refl). reflexivity.
Qed.
Lemma label_kept st s t i : label_find (fst st) s = Some i -> label_find (fst (label_add st t)) s = Some i.
Proof.
  destruct st as [m id]. intro H. cbn [fst] in H. unfold label_add. destruct (label_find m t) eqn:E; [exact H|]. cbn [fst label_find]. destruct (str_eqb t s) eqn:X; [|exact H]. apply str_eqb_eq in X. subst t. congruence.
Qed.
Theorem C89_total : forall lo hi vmax readWeights trimLines sep m text,
  read_edges lo hi vmax readWeights trimLines sep m text = Throw RuntimeError \/
  exists K m' T, read_edges lo hi vmax readWeights trimLines sep m text = Ok (K, m') /\ edge_list_complex T K.
Proof.
  intros lo hi vmax readW trimL sep m text. unfold read_edges.
  assert (G : forall lines st, foldM (read_line lo hi vmax readW trimL sep) lines st = Throw RuntimeError \/
    exists m' id' T, foldM (read_line lo hi vmax readW trimL sep) lines st = Ok (Reader m' id' (edges st ++ map triple_edge T) (vertex_set T (vertices st)))).
  { induction lines as [|line lines IH]; intro st; cbn [foldM].
    - right. exists (node_labels st), (last_id st), []. cbn [map vertex_set fold_left]. rewrite app_nil_r. destruct st; reflexivity.
    - assert (S1 : read_line lo hi vmax readW trimL sep st line = Throw RuntimeError \/ read_line lo hi vmax readW trimL sep st line = Ok st \/
         exists m' id' t, read_line lo hi vmax readW trimL sep st line = Ok (Reader m' id' (edges st ++ [triple_edge t]) (triple_vertices t (vertices st)))).
      { unfold read_line. cbv zeta. set (l := if trimL then trim line else line). destruct l as [|c l]; [auto|]. destruct (comment_token c); [auto|].
        destruct (split sep (c :: l)) as [|us [|vs rest]]; [auto|auto|]. right. right. destruct (numeric us).
        - cbn [bind]. eexists _, _, (_, _, _). reflexivity.
        - destruct (label_found (label_add (node_labels st, last_id st) us) vs) as (v & Hv). destruct (label_found (node_labels st, last_id st) us) as (u & Hu). apply (label_kept _ _ vs) in Hu.
          destruct (label_add (label_add (node_labels st, last_id st) us) vs) as [m2 id2]. cbn [fst] in Hu, Hv. unfold label_at. rewrite Hu, Hv. cbn [bind]. eexists _, _, (_, _, _). reflexivity. }
      destruct S1 as [S1|[S1|(m' & id' & t & S1)]]; rewrite S1; cbn [bind]; [auto|apply IH|].
      destruct (IH (Reader m' id' (edges st ++ [triple_edge t]) (triple_vertices t (vertices st)))) as [E|(m2 & id2 & T & E)]; [auto|]. right. exists m2, id2, (t :: T). rewrite E. cbn [edges vertices map vertex_set fold_left]. rewrite <- app_assoc. reflexivity. }
  destruct (G (seen_lines text) (Reader m 0 [] [])) as [-> |(m' & id' & T & ->)]; [left; reflexivity|]. right. cbn [bind edges vertices node_labels app]. destruct (edge_list T) as (K & EK & HK). cbv zeta. rewrite EK. cbn [bind]. eauto 8.
Qed.

(** A line with a single token is rejected. *)
Theorem C89_tokens : forall lo hi vmax readWeights m b0 w b1, spaces b0 -> spaces b1 -> word isspace w -> w <> [] -> no_newline (b0 ++ w ++ b1) -> (forall c r, w = c :: r -> comment_token c = false) ->
  read_edges lo hi vmax readWeights true isspace m (b0 ++ w ++ b1) = Throw RuntimeError.
Proof.
  intros lo hi vmax readW m b0 w b1 H0 H1 Hw Hne Hnl Hc. set (line := b0 ++ w ++ b1). assert (Hl : line <> []) by (unfold line; destruct b0; [destruct w; easy|discriminate]).
  assert (Hf : file_of [line] (text_of [] line)) by (apply (file_open [line] [] line); auto). change (text_of [] line) with line in Hf.
  unfold read_edges. destruct (file_seen [line] line Hf) as (x & Es & _). rewrite Es. cbn [app foldM].
  assert (E : read_line lo hi vmax readW true isspace (Reader m 0 [] []) line = Throw RuntimeError); [|rewrite E; reflexivity].
  destruct w as [|c r]; [easy|]. inversion Hw as [|? ? Hs _]; subst. unfold read_line. cbv zeta. destruct (trim_first b0 c (r ++ b1) H0 Hs) as (r' & Er). change (b0 ++ c :: r ++ b1) with line in Er.
  assert (Hn : trim line <> []) by (rewrite Er; discriminate). assert (Et : tokens [] line = [c :: r]).
  { unfold line. rewrite tokens_spaces by exact H0. rewrite tokens_word by exact Hw. cbn [app]. change (c :: r) with ([] ++ (c :: r)) at 1. cbn [app].
    rewrite tokens_end; [|discriminate|intros d s E; rewrite E in H1; inversion H1; assumption]. f_equal. rewrite <- (app_nil_r b1), tokens_spaces by exact H1. reflexivity. }
  rewrite (split_tokens line Hn), Et. rewrite Er. rewrite (Hc c r eq_refl). reflexivity.
Qed.

(** FINDING: the labels survive the call but the counter restarts, so that a reader that
    is used for a second file gives the same number to different labels. *)
Theorem C89_second_file_refuted : exists lo hi vmax K1 m1 K2 m2,
  read_edges lo hi vmax true true isspace [] (chars "a b") = Ok (K1, m1) /\ read_edges lo hi vmax true true isspace m1 (chars "b c") = Ok (K2, m2) /\
  label_find m2 (chars "a") = Some 0 /\ label_find m2 (chars "c") = Some 0 /\
  exists K3 m3, read_edges lo hi vmax true true isspace m1 (chars "a c") = Ok (K3, m3) /\ by_index K3 = [Simplex [0] 0].
Proof. exists (-128)%Z, 127%Z, 255%Z. do 4 eexists. refine (conj _ (conj _ (conj _ (conj _ _)))); [vm_compute; reflexivity..|]. do 2 eexists. split; vm_compute; reflexivity. Qed.

(** FINDING: only the first token decides whether a line has numbers or labels: labels
    after a number become vertex 0, and numbers and labels share their vertices. *)
Theorem C89_mixed_refuted : exists lo hi vmax K m,
  read_edges lo hi vmax true true isspace [] (chars "1 x" ++ [newline] ++ chars "2 y" ++ [newline] ++ chars "x 1") = Ok (K, m) /\
  by_index K = [Simplex [0] 0; Simplex [1] 0; Simplex [1; 0] 0; Simplex [2] 0; Simplex [2; 0] 0].
Proof. exists (-128)%Z, 127%Z, 255%Z. do 2 eexists. split; vm_compute; reflexivity. Qed.

(** FINDING: without trimming, a space in front of a line adds the vertex 0. *)
Theorem C89_untrimmed_refuted : exists lo hi vmax K m,
  read_edges lo hi vmax true false isspace [] (chars " 1 2") = Ok (K, m) /\ by_index K = [Simplex [0] 0; Simplex [1] 0; Simplex [1; 0] 2].
Proof. exists (-128)%Z, 127%Z, 255%Z. do 2 eexists. split; vm_compute; reflexivity. Qed.

Example C89_example :
  (exists K m, read_edges (-128) 127 255 true true isspace [] (chars "% comment" ++ [newline] ++ chars " 3 1 -4" ++ [newline; newline] ++ chars "1 3 7" ++ [newline] ++ chars "2 2 5 9") = Ok (K, m) /\
     by_index K = [Simplex [1] 0; Simplex [2] 0; Simplex [3] 0; Simplex [3; 1] (-4)%Z]) /\
  (exists K m, read_edges (-128) 127 255 true true isspace [] (chars "x y 3" ++ [newline] ++ chars "z x") = Ok (K, m) /\
     by_index K = [Simplex [0] 0; Simplex [1] 0; Simplex [1; 0] 3; Simplex [2] 0; Simplex [2; 0] 0%Z]).
Proof. split; do 2 eexists; split; vm_compute; reflexivity. Qed.

Print Assumptions C89_numbers.
Print Assumptions C89_labels.
Print Assumptions C89_total.
Print Assumptions C89_tokens.
Print Assumptions C89_second_file_refuted.
Print Assumptions C89_mixed_refuted.
Print Assumptions C89_untrimmed_refuted.
