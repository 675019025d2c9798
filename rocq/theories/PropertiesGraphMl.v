(** * GraphML files (C136) *)
From Coq Require Import String Ascii List Arith Bool NArith ZArith Lia Permutation Sorted.
From Verif Require Import Base BaseFacts SpecText LoadMatrix LoadFacts StringUtilities PropertiesString Simplex SimplexFacts Complex ComplexFacts RipsFacts EnumerateFacts BarycentricFacts DualFacts DiagramIO PropertiesJSON Pajek PropertiesPajek Gml PropertiesGml GraphMl.
Import ListNotations.
Local Open Scope list_scope.
Local Open Scope nat_scope.

(** ** Specification *)
(** the value of an attribute, and an attribute that is missing *)
Definition attribute_is (name value : str) (x : xml) : Prop := match x with Element _ a _ _ => exists p q, a = p ++ (name, value) :: q /\ ~ In name (map fst p) end.
Definition attribute_missing (name : str) (x : xml) : Prop := match x with Element _ a _ _ => ~ In name (map fst a) end.
Definition is_named (name : str) (x : xml) : Prop := match x with Element n _ _ _ => n = name end.
Definition text_is (t : str) (x : xml) : Prop := match x with Element _ _ t' _ => t' = Some t end.
Definition inside (x : xml) (c : list xml) : Prop := match x with Element _ _ _ c' => c = c' end.

(** the data of an element: keys and texts, in their order *)
Inductive data_of : list xml -> list entry -> Prop :=
| data_nil : data_of [] []
| data_item x xs k v es : is_named (chars "data") x -> attribute_is (chars "key") k x -> text_is v x -> data_of xs es -> data_of (x :: xs) ((k, v) :: es)
| data_skip x xs es : ~ is_named (chars "data") x -> data_of xs es -> data_of (x :: xs) es.
(** the nodes (identifiers and data) and the edges (source, target and data) of a graph *)
Definition node_item : Type := str * list entry.
Definition edge_item : Type := str * str * list entry.
Inductive content : list xml -> list node_item -> list edge_item -> Prop :=
| content_nil : content [] [] []
| content_node x xs c id n ns es : is_named (chars "node") x -> attribute_is (chars "id") id x -> inside x c -> data_of c n -> content xs ns es -> content (x :: xs) ((id, n) :: ns) es
| content_edge x xs c id s t e ns es : is_named (chars "edge") x -> attribute_is (chars "id") id x -> attribute_is (chars "source") s x -> attribute_is (chars "target") t x -> inside x c -> data_of c e ->
    content xs ns es -> content (x :: xs) ns ((s, t, e) :: es)
| content_skip x xs ns es : ~ is_named (chars "node") x -> ~ is_named (chars "edge") x -> content xs ns es -> content (x :: xs) ns es.
(** the keys of nodes and of edges: names and identifiers *)
Inductive keys_of : list xml -> list entry -> list entry -> Prop :=
| keys_nil : keys_of [] [] []
| keys_node x xs name id kn ke : is_named (chars "key") x -> attribute_is (chars "for") (chars "node") x -> attribute_is (chars "attr.name") name x -> attribute_is (chars "id") id x ->
    keys_of xs kn ke -> keys_of (x :: xs) ((name, id) :: kn) ke
| keys_edge x xs name id kn ke : is_named (chars "key") x -> attribute_is (chars "for") (chars "edge") x -> attribute_is (chars "attr.name") name x -> attribute_is (chars "id") id x ->
    keys_of xs kn ke -> keys_of (x :: xs) kn ((name, id) :: ke)
| keys_skip x xs kn ke : ~ is_named (chars "key") x -> keys_of xs kn ke -> keys_of (x :: xs) kn ke.

(** the element of the format follows another item of the document *)
Definition graphml_document (d : document) (c : list xml) : Prop :=
  exists first before x after, d = first :: before ++ Some x :: after /\ (forall y, In (Some y) before -> ~ is_named (chars "graphml") y) /\ is_named (chars "graphml") x /\ inside x c.
Definition first_graph (c : list xml) (g : list xml) : Prop :=
  exists p x q, c = p ++ x :: q /\ (forall y, In y p -> ~ is_named (chars "graph") y) /\ is_named (chars "graph") x /\ inside x g.
Definition graphml_file (d : document) (kn ke : list entry) (ns : list node_item) (es : list edge_item) : Prop :=
  exists c g, graphml_document d c /\ keys_of c kn ke /\ first_graph c g /\ content g ns es.

(** the weight that is stored for an attribute *)
Definition stored (conv : str -> Z * bool) (attribute : str) (keys es : list entry) (d : Z) : Prop :=
  (exists key t, value_of attribute keys key /\ value_of key es t /\ conv t = (d, true)) \/
  ((no_value attribute keys \/ exists key, value_of attribute keys key /\ no_value key es) /\ d = 0%Z).
Definition reads_nodes (o : graphml_settings) : Prop := g_readNodes o = true /\ g_nodeAttribute o <> [].
Definition reads_edges (o : graphml_settings) : Prop := g_readEdges o = true /\ g_edgeAttribute o <> [].
Definition node_weight conv o kn (n : list entry) (d : Z) : Prop := (reads_nodes o /\ stored conv (g_nodeAttribute o) kn n d) \/ (~ reads_nodes o /\ d = 0%Z).
(** vertex number i is the node with the number i among the sorted ones *)
Definition vertices_are conv o kn (ns : list node_item) (V : list simplex) : Prop :=
  length V = length ns /\ forall i id n s, nth_error ns i = Some (id, n) -> nth_error V i = Some s -> verts s = [i] /\ node_weight conv o kn n (data s).
Definition edge_is conv (f : Z -> Z -> Z) o kn ke (ns : list node_item) (e : edge_item) (s : simplex) : Prop :=
  exists u v nu nv d, nth_error ns u = Some (fst (fst e), nu) /\ nth_error ns v = Some (snd (fst e), nv) /\ s = simplex_of [u; v] d /\
    ((reads_edges o /\ stored conv (g_edgeAttribute o) ke (snd e) d) \/
     (~ reads_edges o /\ reads_nodes o /\ no_value (g_nodeAttribute o) kn /\ d = 0%Z) \/
     (~ reads_edges o /\ reads_nodes o /\ exists key tu tv, value_of (g_nodeAttribute o) kn key /\ value_of key nu tu /\ value_of key nv tv /\ d = f (fst (conv tu)) (fst (conv tv))) \/
     (~ reads_edges o /\ ~ reads_nodes o /\ d = 0%Z)).

(** ** The tree *)
Lemma attribute_ok name value x : attribute_is name value x -> x_attribute x name = Some value.
Proof.
  destruct x as [n a t c]. intros (p & q & -> & Hn). cbn [x_attribute]. induction p as [|[k v] p IH]; cbn [app find fst].
  - rewrite eqb_refl. reflexivity.
  - destruct (str_eqb k name) eqn:E; [apply str_eqb_spec in E; subst; exfalso; apply Hn; simpl; auto|]. apply IH. intro X. apply Hn. simpl. auto.
Qed.
Lemma attribute_none name x : attribute_missing name x -> x_attribute x name = None.
Proof.
  destruct x as [n a t c]. cbn [attribute_missing x_attribute]. intro H. induction a as [|[k v] a IH]; [reflexivity|]. cbn [find fst]. destruct (str_eqb k name) eqn:E; [apply str_eqb_spec in E; subst; exfalso; apply H; simpl; auto|].
  apply IH. intro X. apply H. simpl. auto.
Qed.
Lemma named_ok name x : named_element name x = true <-> is_named name x.
Proof. destruct x as [n a t c]. apply str_eqb_spec. Qed.
Lemma named_not name x : ~ is_named name x -> named_element name x = false.
Proof. intro H. destruct (named_element name x) eqn:E; [apply named_ok in E; contradiction|reflexivity]. Qed.
Lemma text_ok t x : text_is t x -> x_text x = Some t.
Proof. destruct x. exact (fun H => H). Qed.
Lemma inside_ok x c : inside x c -> x_children x = c.
Proof. destruct x. exact (fun H => eq_sym H). Qed.

(** ** Dictionaries *)
Definition dictionary_of (es : list entry) (m : smap) : Prop := (forall k v, value_of k es v -> smap_find k m = Some v) /\ (forall k, no_value k es -> smap_find k m = None).
Lemma dictionary_nil : dictionary_of [] [].
Proof. split; [intros k v (a & b & E & _); destruct a; discriminate|reflexivity]. Qed.
Lemma dictionary_snoc es m k v : dictionary_of es m -> dictionary_of (es ++ [(k, v)]) (smap_set k v m).
Proof.
  intros [H1 H2]. split.
  - intros k' v' H. rewrite smap_find_set. apply value_snoc in H. destruct H as [E|[Hk H]].
    + injection E as -> ->. rewrite eqb_refl. reflexivity.
    + destruct (str_eqb k' k) eqn:E; [apply str_eqb_spec in E; subst; exfalso; apply Hk; reflexivity|]. apply H1. exact H.
  - intros k' H. unfold no_value in H. rewrite map_app, in_app_iff in H. cbn [map fst In] in H. rewrite smap_find_set. destruct (str_eqb k' k) eqn:E; [apply str_eqb_spec in E; subst; tauto|]. apply H2. unfold no_value. tauto.
Qed.
Lemma value_cases k es : (exists v, value_of k es v) \/ no_value k es.
Proof.
  induction es as [|[k' v'] es IH]; [right; intros []|]. destruct IH as [(v & a & b & -> & Hb)|H]; [left; exists v, ((k', v') :: a), b; split; [reflexivity|exact Hb]|].
  destruct (str_eqb k k') eqn:E; [apply str_eqb_spec in E; subst; left; exists v', [], es; split; [reflexivity|exact H]|]. right. intros [X|X]; [|contradiction]. cbn in X. subst. rewrite eqb_refl in E. discriminate.
Qed.
Lemma parse_data x c es : inside x c -> data_of c es -> exists m, parseData x = Ok m /\ dictionary_of es m.
Proof.
  intros Hx Hd. unfold parseData. rewrite (inside_ok x c Hx). clear x Hx. change es with ([] ++ es). pose proof dictionary_nil as H. revert H. generalize (@nil entry) as es0. generalize (@nil (str * str)) as m0.
  induction Hd as [|x xs k v es Hn Ha Ht _ IH|x xs es Hn _ IH]; intros m0 es0 H; cbn [foldM].
  - exists m0. rewrite app_nil_r. auto.
  - rewrite (proj2 (named_ok _ _) Hn), (attribute_ok _ _ _ Ha), (text_ok _ _ Ht). cbn [c_str bind]. destruct (IH _ _ (dictionary_snoc es0 m0 k v H)) as (m & E & D). exists m. split; [exact E|]. rewrite <- app_assoc in D. exact D.
  - rewrite (named_not _ _ Hn). cbn [bind]. apply IH. exact H.
Qed.

(** ** Elements *)
Definition parsed_node (n : node_item) (g : gnode) : Prop := n_id g = fst n /\ dictionary_of (snd n) (n_dict g).
Definition parsed_edge (e : edge_item) (g : gedge) : Prop := e_source g = fst (fst e) /\ e_target g = snd (fst e) /\ dictionary_of (snd e) (e_dict g).
Lemma node_edge_names : chars "node" <> chars "edge".
Proof. discriminate. Qed.
Lemma named_other a b x : a <> b -> is_named a x -> named_element b x = false.
Proof. intros H Ha. apply named_not. intro Hb. destruct x as [n t c d]. cbn in *. congruence. Qed.
Lemma parse_content c ns es : content c ns es -> forall nodes edges, exists nodes' edges', foldM parseChild c (nodes, edges) = Ok (nodes ++ nodes', edges ++ edges') /\ Forall2 parsed_node ns nodes' /\ Forall2 parsed_edge es edges'.
Proof.
  induction 1 as [|x xs c id n ns es Hn Hi Hc Hd _ IH|x xs c id s t e ns es Hn Hi Hs Ht Hc Hd _ IH|x xs ns es Hn He _ IH]; intros nodes edges; cbn [foldM].
  - exists [], []. rewrite !app_nil_r. repeat split; constructor.
  - unfold parseChild at 1. rewrite (proj2 (named_ok _ _) Hn). unfold parseNode. rewrite (attribute_ok _ _ _ Hi). destruct (parse_data x c n Hc Hd) as (m & Em & Dm). rewrite Em. cbn [bind].
    destruct (IH (nodes ++ [GNode id m]) edges) as (nodes' & edges' & E & F1 & F2). exists (GNode id m :: nodes'), edges'. rewrite E, <- app_assoc. refine (conj eq_refl (conj _ F2)). constructor; [split; [reflexivity|exact Dm]|exact F1].
  - unfold parseChild at 1. rewrite (named_other (chars "edge") (chars "node") x) by (discriminate || exact Hn). rewrite (proj2 (named_ok _ _) Hn). unfold parseEdge. rewrite (attribute_ok _ _ _ Hi), (attribute_ok _ _ _ Hs), (attribute_ok _ _ _ Ht).
    destruct (parse_data x c e Hc Hd) as (m & Em & Dm). rewrite Em. cbn [bind]. destruct (IH nodes (edges ++ [GEdge s t m])) as (nodes' & edges' & E & F1 & F2). exists nodes', (GEdge s t m :: edges'). rewrite E, <- app_assoc.
    refine (conj eq_refl (conj F1 _)). constructor; [repeat split; apply Dm|exact F2].
  - unfold parseChild at 1. rewrite (named_not _ _ Hn), (named_not _ _ He). cbn [bind]. apply IH.
Qed.
Lemma parse_keys c kn ke : keys_of c kn ke -> forall kn0 ke0 m m', dictionary_of kn0 m -> dictionary_of ke0 m' ->
  exists n e, foldM graphml_key (filter (named_element (chars "key")) c) (m, m') = Ok (n, e) /\ dictionary_of (kn0 ++ kn) n /\ dictionary_of (ke0 ++ ke) e.
Proof.
  induction 1 as [|x xs name id kn ke Hn Hf Ha Hi _ IH|x xs name id kn ke Hn Hf Ha Hi _ IH|x xs kn ke Hn _ IH]; intros kn0 ke0 m m' D D'; cbn [filter].
  - exists m, m'. rewrite !app_nil_r. auto.
  - rewrite (proj2 (named_ok _ _) Hn). cbn [foldM]. unfold graphml_key at 1. rewrite (attribute_ok _ _ _ Hf), (attribute_ok _ _ _ Ha), (attribute_ok _ _ _ Hi). cbn [c_str bind]. rewrite eqb_refl. cbn [fst snd bind].
    destruct (IH (kn0 ++ [(name, id)]) ke0 _ _ (dictionary_snoc _ _ name id D) D') as (n & e & E & E1 & E2). exists n, e. rewrite <- app_assoc in E1. auto.
  - rewrite (proj2 (named_ok _ _) Hn). cbn [foldM]. unfold graphml_key at 1. rewrite (attribute_ok _ _ _ Hf), (attribute_ok _ _ _ Ha), (attribute_ok _ _ _ Hi). cbn [c_str bind]. rewrite eqb_refl.
    replace (str_eqb (chars "edge") (chars "node")) with false by reflexivity. cbn [fst snd bind].
    destruct (IH kn0 (ke0 ++ [(name, id)]) _ _ D (dictionary_snoc _ _ name id D')) as (n & e & E & E1 & E2). exists n, e. rewrite <- app_assoc in E2. auto.
  - rewrite (named_not _ _ Hn). apply IH; assumption.
Qed.
Lemma find_document d c : graphml_document d c -> exists x, graphml_element d = Ok x /\ x_children x = c.
Proof.
  intros (first & before & x & after & -> & Hb & Hx & Hc). exists x. split; [|apply inside_ok; exact Hc]. cbn [graphml_element]. induction before as [|[y|] l IH]; cbn [app find].
  - rewrite (proj2 (named_ok _ _) Hx). reflexivity.
  - rewrite (named_not _ _ (Hb y (or_introl eq_refl))). apply IH. intros z Hz. apply Hb. simpl. auto.
  - apply IH. intros z Hz. apply Hb. simpl. auto.
Qed.
Lemma find_graph c g : first_graph c g -> exists x, find (named_element (chars "graph")) c = Some x /\ x_children x = g.
Proof.
  intros (p & x & q & -> & Hp & Hx & Hc). exists x. split; [|apply inside_ok; exact Hc]. induction p as [|y p IH]; cbn [app find].
  - rewrite (proj2 (named_ok _ _) Hx). reflexivity.
  - rewrite (named_not _ _ (Hp y (or_introl eq_refl))). apply IH. intros z Hz. apply Hp. simpl. auto.
Qed.
Lemma parse_graphml d kn ke ns es : graphml_file d kn ke ns es ->
  exists n e nodes edges, graphml_parse d = Ok ((n, e), (nodes, edges)) /\ dictionary_of kn n /\ dictionary_of ke e /\ Forall2 parsed_node ns nodes /\ Forall2 parsed_edge es edges.
Proof.
  intros (c & g & Hd & Hk & Hg & Hc). destruct (find_document d c Hd) as (x & Ex & Cx). destruct (find_graph c g Hg) as (y & Ey & Cy). destruct (parse_keys c kn ke Hk [] [] [] [] dictionary_nil dictionary_nil) as (n & e & E & D1 & D2).
  destruct (parse_content g ns es Hc [] []) as (nodes & edges & E' & F1 & F2). exists n, e, nodes, edges. unfold graphml_parse. rewrite Ex. cbn [bind]. rewrite Cx.
  match goal with |- context [foldM ?gg ?ll ?ss] => assert (Em : foldM gg ll ss = Ok (n, e)) by exact E; rewrite Em; clear Em end. cbn [bind]. rewrite Ey, Cy, E'. auto.
Qed.

(** ** The order of the nodes *)
Definition node_before (a b : gnode) : Prop := before (n_id a) (n_id b).
Lemma sorted_map {A B} (R : B -> B -> Prop) (f : A -> B) l : StronglySorted (fun a b => R (f a) (f b)) l <-> StronglySorted R (map f l).
Proof.
  induction l as [|a l IH]; cbn [map]; [split; constructor|]. split; intro H; inversion H as [|? ? H1 H2]; subst; constructor; try (apply IH; exact H1).
  - apply Forall_map. exact H2.
  - exact (proj1 (Forall_map _ _ _) H2).
Qed.
Lemma sorted_permutation {A} (R : A -> A -> Prop) : (forall a b, R a b -> ~ R b a) -> forall l m, Permutation l m -> StronglySorted R l -> StronglySorted R m -> l = m.
Proof.
  intros As l. induction l as [|a l IH]; intros m P Sl Sm; [apply Permutation_nil in P; symmetry; exact P|]. destruct m as [|b m]; [apply Permutation_sym, Permutation_nil in P; discriminate|].
  assert (E : a = b).
  { inversion Sl as [|? ? S1 F1]; subst. inversion Sm as [|? ? S2 F2]; subst. rewrite Forall_forall in F1, F2. assert (Ha : In a (b :: m)) by (apply (Permutation_in a P); simpl; auto).
    assert (Hb : In b (a :: l)) by (apply (Permutation_in b (Permutation_sym P)); simpl; auto). destruct Ha as [->|Ha]; [reflexivity|]. destruct Hb as [->|Hb]; [reflexivity|]. exfalso. apply (As a b); auto. }
  subst b. f_equal. apply IH; [apply Permutation_cons_inv in P; exact P|inversion Sl; assumption|inversion Sm; assumption].
Qed.
Lemma before_asym a b : before a b -> ~ before b a.
Proof. intros H H'. apply (before_irrefl a). unfold before in *. eapply str_ltb_trans; eassumption. Qed.
Lemma index_sorted nodes i id : StronglySorted before (map n_id nodes) -> nth_error (map n_id nodes) i = Some id -> id_to_index nodes id = Some i.
Proof.
  intros S E. unfold id_to_index. destruct (ids_fold nodes [] (SSorted_nil _)) as [S' I']. rewrite (sorted_ext _ (map n_id nodes) S' S) by (intro x; rewrite I'; simpl; tauto).
  replace (existsb (fun n => str_eqb (n_id n) id) nodes) with true; [f_equal; apply srank_nth; assumption|]. symmetry. apply existsb_exists. apply nth_error_In in E. apply in_map_iff in E. destruct E as (n & <- & Hn). exists n. split; [exact Hn|apply eqb_refl].
Qed.
Lemma index_perm nodes nodes' id : Permutation nodes nodes' -> id_to_index nodes id = id_to_index nodes' id.
Proof.
  intro P. unfold id_to_index. destruct (ids_fold nodes [] (SSorted_nil _)) as [S I]. destruct (ids_fold nodes' [] (SSorted_nil _)) as [S' I'].
  rewrite (sorted_ext _ _ S S'); [|intro x; rewrite I, I'; assert (X : In x (map n_id nodes) <-> In x (map n_id nodes')) by (split; apply Permutation_in, Permutation_map; [exact P|apply Permutation_sym; exact P]); tauto].
  replace (existsb (fun n => str_eqb (n_id n) id) nodes) with (existsb (fun n => str_eqb (n_id n) id) nodes'); [reflexivity|]. apply eq_true_iff_eq. rewrite !existsb_exists. split; intros (x & Hx & E); exists x; (split; [|exact E]); [apply (Permutation_in x (Permutation_sym P))|apply (Permutation_in x P)]; exact Hx.
Qed.
Lemma sorted_nodes_spec nodes nodes' : Permutation nodes nodes' -> StronglySorted before (map n_id nodes') -> sorted_nodes nodes = nodes'.
Proof.
  intros P S. assert (Sn : StronglySorted (fun a b => index_of_node nodes' b <? index_of_node nodes' a = false) (sorted_nodes nodes)).
  { unfold sorted_nodes. set (cmp := fun a b => index_of_node nodes a <? index_of_node nodes b). assert (W : swo cmp). { split; unfold cmp; intros; rewrite ?Nat.ltb_lt, ?Nat.ltb_ge in *; lia. }
    pose proof (cpp_sort_sorted cmp nodes W) as X. clear - X P. unfold cmp in *. revert X. generalize (cpp_sort (fun a b => index_of_node nodes a <? index_of_node nodes b) nodes) as l. intros l X. induction X as [|a l _ IH F]; constructor; [exact IH|].
    eapply Forall_impl; [|exact F]. intros b Hb. cbv beta in *. unfold index_of_node in *. rewrite <- !(index_perm nodes nodes' _ P). exact Hb. }
  assert (Pn : Permutation (sorted_nodes nodes) nodes'). { unfold sorted_nodes. eapply Permutation_trans; [apply cpp_sort_perm|exact P]. }
  assert (Nd : NoDup (map n_id nodes')) by (apply sorted_NoDup; exact S).
  assert (Hidx : forall a, In a nodes' -> exists i, nth_error nodes' i = Some a /\ index_of_node nodes' a = i).
  { intros a Ha. apply In_nth_error in Ha. destruct Ha as [i Hi]. exists i. split; [exact Hi|]. unfold index_of_node. rewrite (index_sorted nodes' i (n_id a) S); [reflexivity|]. rewrite nth_error_map, Hi. reflexivity. }
  apply (sorted_permutation (fun a b => index_of_node nodes' a < index_of_node nodes' b)); [intros; lia|exact Pn| |].
  - assert (Nn : NoDup (sorted_nodes nodes)). { apply (Permutation_NoDup (Permutation_sym Pn)). eapply NoDup_map_inv. exact Nd. }
    assert (Hall : forall a, In a (sorted_nodes nodes) -> In a nodes') by (intros a; apply Permutation_in; exact Pn). revert Sn Nn Hall. generalize (sorted_nodes nodes) as l. intros l Sn. induction Sn as [|a l _ IH F]; intros Nn Hall; constructor.
    + inversion Nn; subst. apply IH; [assumption|]. intros; apply Hall; simpl; auto.
    + rewrite Forall_forall in *. intros b Hb. specialize (F b Hb). cbv beta in F. apply Nat.ltb_ge in F. destruct (Hidx a (Hall a (or_introl eq_refl))) as (i & Ei & Ii). destruct (Hidx b (Hall b (or_intror Hb))) as (j & Ej & Ij).
      rewrite Ii, Ij in *. assert (i <> j); [|lia]. intros ->. rewrite Ei in Ej. injection Ej as ->. inversion Nn; contradiction.
  - clear - S. assert (Hi : forall i a, nth_error nodes' i = Some a -> index_of_node nodes' a = i).
    { intros i a Hi. unfold index_of_node. rewrite (index_sorted nodes' i (n_id a) S); [reflexivity|]. rewrite nth_error_map, Hi. reflexivity. }
    assert (G : forall l p, nodes' = p ++ l -> StronglySorted (fun a b => index_of_node nodes' a < index_of_node nodes' b) l).
    2: { apply (G nodes' [] eq_refl). }
    induction l as [|a l IH]; intros p E; constructor; [apply (IH (p ++ [a])); rewrite <- app_assoc; exact E|].
    apply Forall_forall. intros b Hb. apply In_nth_error in Hb. destruct Hb as [j Hj].
    rewrite (Hi (length p) a), (Hi (length p + Datatypes.S j) b); [lia| |]; rewrite E, nth_error_app2 by lia.
    + replace (length p + Datatypes.S j - length p) with (Datatypes.S j) by lia. exact Hj.
    + rewrite Nat.sub_diag. reflexivity.
Qed.

(** ** Weights *)
Lemma nonempty o : negb (str_eqb o []) = true <-> o <> [].
Proof. rewrite negb_true_iff. split; [intros H ->; discriminate|intro H; destruct (str_eqb o []) eqn:E; [apply str_eqb_spec in E; contradiction|reflexivity]]. Qed.
Lemma reads_spec (b : bool) o : b && negb (str_eqb o []) = true <-> b = true /\ o <> [].
Proof. rewrite andb_true_iff, nonempty. tauto. Qed.
Lemma reads_case (b : bool) o : (b && negb (str_eqb o []) = true /\ b = true /\ o <> []) \/ (b && negb (str_eqb o []) = false /\ ~ (b = true /\ o <> [])).
Proof. destruct (b && negb (str_eqb o [])) eqn:E; [left; split; [reflexivity|apply reads_spec; exact E]|right; split; [reflexivity|]; intro X; apply reads_spec in X; congruence]. Qed.
Lemma stored_ok conv a keys es k m d : dictionary_of keys k -> dictionary_of es m -> stored conv a keys es d -> stored_weight conv a k m = Ok d.
Proof.
  intros [K1 K2] [M1 M2] H. unfold stored_weight. destruct H as [(key & t & Hk & Ht & E)|[[Hk|(key & Hk & Hn)] ->]].
  - rewrite (K1 _ _ Hk), (M1 _ _ Ht), E. reflexivity.
  - rewrite (K2 _ Hk). reflexivity.
  - rewrite (K1 _ _ Hk), (M2 _ Hn). reflexivity.
Qed.
Lemma stored_exists conv a keys es : (forall key t, value_of a keys key -> value_of key es t -> snd (conv t) = true) -> exists d, stored conv a keys es d.
Proof.
  intro H. destruct (value_cases a keys) as [[key Hk]|Hk]; [|exists 0%Z; right; auto]. destruct (value_cases key es) as [[t Ht]|Ht]; [|exists 0%Z; right; split; [right; exists key; auto|reflexivity]].
  specialize (H key t Hk Ht). destruct (conv t) as [d b] eqn:E. cbn in H. subst b. exists d. left. exists key, t. auto.
Qed.

Section Build.
Variable conv : str -> Z * bool.
Variable f : Z -> Z -> Z.
Variable o : graphml_settings.
Variable kn ke : list entry.
Variable n e : smap.
Hypothesis (Dn : dictionary_of kn n) (De : dictionary_of ke e).

Lemma vertex_ok nodes i id x g s : StronglySorted before (map n_id nodes) -> nth_error nodes i = Some g -> parsed_node (id, x) g -> verts s = [i] -> node_weight conv o kn x (data s) ->
  graphml_vertex conv o n nodes g = Ok s.
Proof.
  intros S Hg [Hid Dg] Hv Hw. unfold graphml_vertex, index_at. rewrite (index_sorted nodes i (n_id g) S) by (rewrite nth_error_map, Hg; reflexivity). cbn [bind].
  assert (E : (if g_readNodes o && negb (str_eqb (g_nodeAttribute o) []) then stored_weight conv (g_nodeAttribute o) n (n_dict g) else Ok 0%Z) = Ok (data s)).
  { unfold node_weight, reads_nodes in Hw. destruct (reads_case (g_readNodes o) (g_nodeAttribute o)) as [[-> Hr]|[-> Hr]]; destruct Hw as [[Hy Hw]|[Hy Hw]]; try contradiction; [apply (stored_ok conv _ kn x); assumption|rewrite Hw; reflexivity]. }
  rewrite E. cbn [bind]. destruct s as [vs ds]. cbn [verts data] in *. subst vs. reflexivity.
Qed.
Lemma vertices_part nodes : StronglySorted before (map n_id nodes) -> forall l0 pre post ns0 V0 acc, nodes = pre ++ l0 ++ post -> Forall2 parsed_node ns0 l0 -> length V0 = length ns0 ->
  (forall i id x s, nth_error ns0 i = Some (id, x) -> nth_error V0 i = Some s -> verts s = [length pre + i] /\ node_weight conv o kn x (data s)) ->
  foldM (fun l g => let* s := graphml_vertex conv o n nodes g in Ok (l ++ [s])) l0 acc = Ok (acc ++ V0).
Proof.
  intro S. induction l0 as [|g l0 IH]; intros pre post ns0 V0 acc E F0 L0 H0; inversion F0 as [|[id x] ? ns1 ? F1 F2]; subst.
  - destruct V0; [|discriminate]. rewrite (app_nil_r acc). reflexivity.
  - destruct V0 as [|s V0]; [discriminate|]. cbn [foldM]. destruct (H0 0 id x s eq_refl eq_refl) as [Hv Hw]. rewrite Nat.add_0_r in Hv.
    rewrite (vertex_ok _ (length pre) id x g s S); [|rewrite nth_error_app2, Nat.sub_diag by lia; reflexivity|exact F1|exact Hv|exact Hw]. cbn [bind].
    rewrite (IH (pre ++ [g]) post ns1 V0 _); [rewrite <- app_assoc; reflexivity|rewrite <- app_assoc; reflexivity|exact F2|cbn in L0; lia|].
    intros i id' x' s' A B. destruct (H0 (Datatypes.S i) id' x' s' A B) as [X Y]. rewrite app_length. cbn [length]. split; [rewrite X; f_equal; lia|exact Y].
Qed.
Lemma vertices_ok nodes ns V : StronglySorted before (map n_id nodes) -> Forall2 parsed_node ns nodes -> vertices_are conv o kn ns V ->
  foldM (fun l g => let* s := graphml_vertex conv o n nodes g in Ok (l ++ [s])) nodes [] = Ok V.
Proof. intros S F [HL HV]. exact (vertices_part nodes S nodes [] [] ns V [] (eq_sym (app_nil_r nodes)) F HL HV). Qed.
Lemma parsed_nth ns nodes i x : Forall2 parsed_node ns nodes -> nth_error ns i = Some x -> exists g, nth_error nodes i = Some g /\ parsed_node x g.
Proof. intros F. revert i. induction F as [|a b l l' H _ IH]; intros [|i] E; cbn [nth_error] in *; try discriminate; [injection E as ->; eauto|apply IH; exact E]. Qed.
Lemma at_nth {A} (l : list A) i x : nth_error l i = Some x -> at_ l i = Ok x.
Proof. intro H. unfold at_. rewrite H. reflexivity. Qed.
Lemma edge_ok nodes ns it g s : StronglySorted before (map n_id nodes) -> Forall2 parsed_node ns nodes -> parsed_edge it g -> edge_is conv f o kn ke ns it s -> graphml_edge conv f o (n, e) nodes g = Ok s.
Proof.
  intros S F (Es & Et & Dg) (u & v & nu & nv & d & Hu & Hv & -> & Hw). destruct (parsed_nth ns nodes u _ F Hu) as (gu & Gu & Iu & Du). destruct (parsed_nth ns nodes v _ F Hv) as (gv & Gv & Iv & Dv). cbn [fst snd] in Iu, Iv, Du, Dv.
  unfold graphml_edge, index_at. rewrite Es, Et, <- Iu, <- Iv. rewrite (index_sorted nodes u (n_id gu) S) by (rewrite nth_error_map, Gu; reflexivity). rewrite (index_sorted nodes v (n_id gv) S) by (rewrite nth_error_map, Gv; reflexivity). cbn [bind fst snd].
  unfold reads_edges, reads_nodes in Hw. destruct Hw as [[Hr Hw]|[(Hr & Hn & Hno & ->)|[(Hr & Hn & key & tu & tv & Hk & Htu & Htv & ->)|(Hr & Hn & ->)]]];
    destruct (reads_case (g_readEdges o) (g_edgeAttribute o)) as [[-> Hr']|[-> Hr']]; try contradiction.
  - rewrite (stored_ok conv _ ke (snd it) e (e_dict g) d De Dg Hw). reflexivity.
  - destruct (reads_case (g_readNodes o) (g_nodeAttribute o)) as [[-> Hn']|[-> Hn']]; try contradiction. rewrite (proj2 Dn _ Hno). reflexivity.
  - destruct (reads_case (g_readNodes o) (g_nodeAttribute o)) as [[-> Hn']|[-> Hn']]; try contradiction. rewrite (proj1 Dn _ _ Hk), (at_nth _ _ _ Gu), (at_nth _ _ _ Gv). cbn [bind]. unfold smap_at. rewrite (proj1 Du _ _ Htu), (proj1 Dv _ _ Htv). reflexivity.
  - destruct (reads_case (g_readNodes o) (g_nodeAttribute o)) as [[-> Hn']|[-> Hn']]; try contradiction. reflexivity.
Qed.
Lemma edges_ok nodes ns es edges E : StronglySorted before (map n_id nodes) -> Forall2 parsed_node ns nodes -> Forall2 parsed_edge es edges -> Forall2 (edge_is conv f o kn ke ns) es E -> forall acc,
  foldM (fun l g => let* s := graphml_edge conv f o (n, e) nodes g in Ok (l ++ [s])) edges acc = Ok (acc ++ E).
Proof.
  intros S F Fe. revert E. induction Fe as [|it g es edges Hg _ IH]; intros E HE acc; inversion HE as [|? s ? E' Hs HE']; subst; cbn [foldM]; [rewrite app_nil_r; reflexivity|].
  rewrite (edge_ok nodes ns it g s S F Hg Hs). cbn [bind]. rewrite (IH E' HE'). rewrite <- app_assoc. reflexivity.
Qed.
End Build.

Lemma sorted_text l : StronglySorted text_before l -> StronglySorted before l.
Proof. induction 1 as [|a l _ IH F]; constructor; [exact IH|]. eapply Forall_impl; [|exact F]. intros x. apply before_spec. Qed.
Lemma parsed_ids ns nodes : Forall2 parsed_node ns nodes -> map n_id nodes = map fst ns.
Proof. induction 1 as [|a b l l' [H _] _ IH]; [reflexivity|]. cbn [map]. rewrite H, IH. reflexivity. Qed.
Lemma parsed_sorted ns ns' nodes : Forall2 parsed_node ns nodes -> Permutation ns ns' -> StronglySorted text_before (map fst ns') ->
  exists nodes', sorted_nodes nodes = nodes' /\ Permutation nodes nodes' /\ Forall2 parsed_node ns' nodes' /\ StronglySorted before (map n_id nodes').
Proof.
  intros F P S. destruct (Permutation_Forall2 P F) as (nodes' & P' & F'). exists nodes'. assert (S' : StronglySorted before (map n_id nodes')) by (rewrite (parsed_ids _ _ F'); apply sorted_text; exact S).
  refine (conj (sorted_nodes_spec nodes nodes' P' S') (conj P' (conj F' S'))).
Qed.

(** the simplices are the nodes in the order of their identifiers, and the edges in their order *)
Theorem C136_read conv f o d kn ke ns es ns' V E :
  graphml_file d kn ke ns es -> Permutation ns ns' -> StronglySorted text_before (map fst ns') ->
  vertices_are conv o kn ns' V -> Forall2 (edge_is conv f o kn ke ns') es E ->
  exists nodes edges, readGraphML conv f o d = (let* K := k_of_range (V ++ E) in Ok (K, nodes, edges)) /\ Forall2 parsed_node ns' nodes /\ Forall2 parsed_edge es edges /\
    (NoDup (map verts (V ++ E)) -> exists K, readGraphML conv f o d = Ok (K, nodes, edges) /\ by_index K = V ++ E).
Proof.
  intros Hd P S HV HE. destruct (parse_graphml d kn ke ns es Hd) as (n & e & nodes0 & edges & Ep & Dn & De & Fn & Fe). destruct (parsed_sorted ns ns' nodes0 Fn P S) as (nodes & Es & _ & Fn' & S'). exists nodes, edges.
  assert (R : readGraphML conv f o d = (let* K := k_of_range (V ++ E) in Ok (K, nodes, edges))).
  { unfold readGraphML. rewrite Ep. cbn [bind fst snd]. rewrite Es. rewrite (vertices_ok conv o kn n Dn nodes ns' V S' Fn' HV). cbn [bind]. rewrite (edges_ok conv f o kn ke n e Dn De nodes ns' es edges E S' Fn' Fe HE). reflexivity. }
  refine (conj R (conj Fn' (conj Fe _))). intro Hnd. destruct (of_range_new (V ++ E)) as (K & EK & _ & BK); [|exact Hnd|].
  - intros s Hs. apply in_app_iff in Hs. destruct Hs as [Hs|Hs].
    + destruct HV as [HL HV]. apply In_nth_error in Hs. destruct Hs as [i Hi]. assert (Hi' : exists x, nth_error ns' i = Some x). { destruct (nth_error ns' i) eqn:X; [eauto|]. apply nth_error_None in X. assert (i < length V) by (apply nth_error_Some; congruence). lia. }
      destruct Hi' as [[id x] Hx]. destruct (HV i id x s Hx Hi) as [Ev _]. unfold good, wf. rewrite Ev. split; [repeat constructor|discriminate].
    + clear - HE Hs. induction HE as [|it s' es E (u & v & nu & nv & dd & _ & _ & -> & _) _ IH]; [destruct Hs|]. destruct Hs as [<-|Hs]; [|auto]. split; [apply simplex_of_wf|]. assert (X : In u (verts (simplex_of [u; v] dd))) by (apply simplex_of_In; simpl; auto). intro Y. rewrite Y in X. destruct X.
  - exists K. rewrite R, EK. split; [reflexivity|exact BK].
Qed.

(** with the default settings (and any others that read the edges), each graph whose nodes have distinct identifiers, whose edges have known ends, and whose weights are numbers, is read *)
Lemma sorted_items (ns : list node_item) : NoDup (map fst ns) -> exists ns', Permutation ns ns' /\ StronglySorted text_before (map fst ns').
Proof.
  intro Nd. set (cmp := fun a b : node_item => str_ltb (fst a) (fst b)). exists (cpp_sort cmp ns). assert (P : Permutation (cpp_sort cmp ns) ns) by apply cpp_sort_perm. split; [apply Permutation_sym; exact P|].
  assert (W : swo cmp).
  { split; unfold cmp.
    - intros x y H. destruct (str_ltb (fst y) (fst x)) eqn:E; [|reflexivity]. exfalso. exact (before_asym _ _ H E).
    - intros x y z H1 H2. destruct (str_ltb (fst z) (fst x)) eqn:E; [|reflexivity]. exfalso. destruct (str_ltb (fst x) (fst y)) eqn:E1.
      + pose proof (str_ltb_trans _ _ _ E E1). congruence.
      + rewrite (str_ltb_total _ _ E1 H1) in E. congruence. }
  pose proof (cpp_sort_sorted cmp ns W) as S. apply text_sorted. assert (Nd' : NoDup (map fst (cpp_sort cmp ns))) by (apply (Permutation_NoDup (l := map fst ns)); [apply Permutation_map, Permutation_sym; exact P|exact Nd]).
  clear - S Nd'. induction S as [|a l _ IH F]; cbn [map] in *; constructor; inversion Nd' as [|? ? N1 N2]; subst; [apply IH; exact N2|]. apply Forall_map. rewrite Forall_forall in *. intros b Hb. specialize (F b Hb). cbv beta in F. unfold cmp in F.
  unfold before. destruct (str_ltb (fst a) (fst b)) eqn:E; [reflexivity|]. exfalso. apply N1. rewrite <- (str_ltb_total _ _ F E). apply in_map. exact Hb.
Qed.
Lemma weights_exist conv o kn (ns : list node_item) : (forall id x key t, In (id, x) ns -> value_of (g_nodeAttribute o) kn key -> value_of key x t -> snd (conv t) = true) -> exists V, vertices_are conv o kn ns V.
Proof.
  intro H. assert (G : forall k, exists V, length V = length ns /\ forall i id x s, nth_error ns i = Some (id, x) -> nth_error V i = Some s -> verts s = [k + i] /\ node_weight conv o kn x (data s)).
  { induction ns as [|[id x] ns IH]; intro k; [exists []; split; [reflexivity|intros [|i] ? ? ? X; discriminate]|]. destruct (IH (fun id x key t Hx => H id x key t (or_intror Hx)) (S k)) as (V & HL & HV).
    assert (W : exists d, node_weight conv o kn x d).
    { unfold node_weight, reads_nodes. destruct (reads_case (g_readNodes o) (g_nodeAttribute o)) as [[_ Hr]|[_ Hr]]; [|exists 0%Z; right; auto].
      destruct (stored_exists conv (g_nodeAttribute o) kn x) as [d Hd]; [intros key t; apply (H id x key t); simpl; auto|exists d; left; auto]. }
    destruct W as [d Hd]. exists (simplex_vertex k d :: V). split; [cbn; lia|]. intros [|i] id' x' s A B; cbn [nth_error] in A, B.
    - injection A as <- <-. injection B as <-. cbn [verts data]. rewrite Nat.add_0_r. split; [reflexivity|exact Hd].
    - destruct (HV i id' x' s A B) as [X Y]. split; [rewrite X; f_equal; lia|exact Y]. }
  destruct (G 0) as (V & HV). exists V. exact HV.
Qed.
Theorem C136_total conv f o d kn ke ns es :
  graphml_file d kn ke ns es -> NoDup (map fst ns) -> reads_edges o ->
  (forall e, In e es -> In (fst (fst e)) (map fst ns) /\ In (snd (fst e)) (map fst ns)) ->
  (forall id x key t, In (id, x) ns -> value_of (g_nodeAttribute o) kn key -> value_of key x t -> snd (conv t) = true) ->
  (forall e key t, In e es -> value_of (g_edgeAttribute o) ke key -> value_of key (snd e) t -> snd (conv t) = true) ->
  exists ns' V E nodes edges, Permutation ns ns' /\ StronglySorted text_before (map fst ns') /\ vertices_are conv o kn ns' V /\ Forall2 (edge_is conv f o kn ke ns') es E /\
    readGraphML conv f o d = (let* K := k_of_range (V ++ E) in Ok (K, nodes, edges)).
Proof.
  intros Hd Nd Hr He Hn Hw. destruct (sorted_items ns Nd) as (ns' & P & S). destruct (weights_exist conv o kn ns') as [V HV]. { intros id x key t Hx. apply (Hn id x key t). apply (Permutation_in _ (Permutation_sym P)). exact Hx. }
  assert (HE : exists E, Forall2 (edge_is conv f o kn ke ns') es E).
  { clear - He Hw Hr P. induction es as [|[[s t] e] es IH]; [exists []; constructor|]. destruct IH as [E HE]; [intros; apply He; simpl; auto|intros; eapply Hw; simpl; eauto|].
    destruct (He (s, t, e) (or_introl eq_refl)) as [Hs Ht]. cbn [fst snd] in Hs, Ht.
    assert (X : forall id, In id (map fst ns) -> exists i x, nth_error ns' i = Some (id, x)).
    { intros id Hid. apply in_map_iff in Hid. destruct Hid as ([id' x] & <- & Hx). apply (Permutation_in _ P) in Hx. apply In_nth_error in Hx. destruct Hx as [i Hi]. exists i, x. exact Hi. }
    destruct (X s Hs) as (u & nu & Hu). destruct (X t Ht) as (v & nv & Hv). destruct (stored_exists conv (g_edgeAttribute o) ke e) as [w Hsw]; [intros key tx; apply (Hw (s, t, e)); simpl; auto|].
    exists (simplex_of [u; v] w :: E). constructor; [|exact HE]. exists u, v, nu, nv, w. refine (conj Hu (conj Hv (conj eq_refl _))). left. split; [exact Hr|exact Hsw]. }
  destruct HE as [E HE]. destruct (C136_read conv f o d kn ke ns es ns' V E Hd P S HV HE) as (nodes & edges & R & _). exists ns', V, E, nodes, edges. auto.
Qed.

(** ** Attributes *)
Lemma dictionary_domain es m k : dictionary_of es m -> (In k (map fst m) <-> In k (map fst es)).
Proof.
  intros [H1 H2]. rewrite smap_find_In. split.
  - intros [v E]. destruct (value_cases k es) as [[w (a & b & -> & _)]|H]; [rewrite map_app, in_app_iff; simpl; auto|]. rewrite (H2 k H) in E. discriminate.
  - intro H. destruct (value_cases k es) as [[w Hw]|Hn]; [exists w; apply H1; exact Hw|contradiction].
Qed.
(** the names of the attributes are the keys of the data, in their order and each of them once *)
Theorem C136_names ns es nodes edges : Forall2 parsed_node ns nodes -> Forall2 parsed_edge es edges ->
  (StronglySorted text_before (getNodeAttributeNames nodes) /\ forall k, In k (getNodeAttributeNames nodes) <-> exists n, In n ns /\ In k (map fst (snd n))) /\
  (StronglySorted text_before (getEdgeAttributeNames edges) /\ forall k, In k (getEdgeAttributeNames edges) <-> exists e, In e es /\ In k (map fst (snd e))).
Proof.
  intros F1 F2. unfold getNodeAttributeNames, getEdgeAttributeNames, attribute_names. destruct (names_fold (map n_dict nodes) [] (SSorted_nil _)) as [S I]. destruct (names_fold (map e_dict edges) [] (SSorted_nil _)) as [S' I'].
  split; (split; [apply text_sorted; assumption|]); intro k; [rewrite I|rewrite I']; clear - F1 F2.
  - split.
    + intros [[]|(m & Hm & Hk)]. apply in_map_iff in Hm. destruct Hm as (g & <- & Hg). clear F2. induction F1 as [|a b l l' [_ D] _ IH]; [destruct Hg|]. destruct Hg as [<-|Hg]; [exists a; split; [simpl; auto|apply (dictionary_domain _ _ k D); exact Hk]|]. destruct (IH Hg) as (n & Hn & X). exists n. split; [simpl; auto|exact X].
    + intros (n & Hn & Hk). right. clear F2. induction F1 as [|a b l l' [_ D] _ IH]; [destruct Hn|]. destruct Hn as [<-|Hn]; [exists (n_dict b); split; [simpl; auto|apply (dictionary_domain _ _ k D); exact Hk]|]. destruct (IH Hn) as (m & Hm & X). exists m. split; [simpl; auto|exact X].
  - split.
    + intros [[]|(m & Hm & Hk)]. apply in_map_iff in Hm. destruct Hm as (g & <- & Hg). clear F1. induction F2 as [|a b l l' (_ & _ & D) _ IH]; [destruct Hg|]. destruct Hg as [<-|Hg]; [exists a; split; [simpl; auto|apply (dictionary_domain _ _ k D); exact Hk]|]. destruct (IH Hg) as (n & Hn & X). exists n. split; [simpl; auto|exact X].
    + intros (n & Hn & Hk). right. clear F1. induction F2 as [|a b l l' (_ & _ & D) _ IH]; [destruct Hn|]. destruct Hn as [<-|Hn]; [exists (e_dict b); split; [simpl; auto|apply (dictionary_domain _ _ k D); exact Hk]|]. destruct (IH Hn) as (m & Hm & X). exists m. split; [simpl; auto|exact X].
Qed.

(** ** Errors *)
Lemma keys_app p q kn ke kn' ke' : keys_of p kn ke -> keys_of q kn' ke' -> keys_of (p ++ q) (kn ++ kn') (ke ++ ke').
Proof. intros H Hq. induction H; cbn [app]; [exact Hq| | |]; [eapply keys_node|eapply keys_edge|eapply keys_skip]; eauto. Qed.
Lemma content_error pre ns es x rest : content pre ns es -> (forall st, parseChild st x = Throw RuntimeError) -> foldM parseChild (pre ++ x :: rest) ([], []) = Throw RuntimeError.
Proof. intros Hp Hx. rewrite foldM_app. destruct (parse_content pre ns es Hp [] []) as (a & b & -> & _). cbn [bind foldM]. rewrite Hx. reflexivity. Qed.
Theorem C136_errors :
  (* a key of something else than nodes or edges *)
  (forall conv f o d c p x q kn ke t, graphml_document d c -> c = p ++ x :: q -> keys_of p kn ke -> is_named (chars "key") x -> attribute_is (chars "for") t x -> t <> chars "node" -> t <> chars "edge" ->
     readGraphML conv f o d = Throw RuntimeError) /\
  (* no graph *)
  (forall conv f o d c kn ke, graphml_document d c -> keys_of c kn ke -> (forall x, In x c -> ~ is_named (chars "graph") x) -> readGraphML conv f o d = Throw RuntimeError) /\
  (* a node without identifier; an edge without identifier, source or target *)
  (forall conv f o d c kn ke g p x q ns es, graphml_document d c -> keys_of c kn ke -> first_graph c g -> g = p ++ x :: q -> content p ns es ->
     (is_named (chars "node") x /\ attribute_missing (chars "id") x \/
      is_named (chars "edge") x /\ exists a, In a [chars "id"; chars "source"; chars "target"] /\ attribute_missing a x) -> readGraphML conv f o d = Throw RuntimeError) /\
  (* a weight of a node that is not a number *)
  (forall conv f o d kn ke ns es ns' V s key t pre id x post, graphml_file d kn ke ns es -> Permutation ns ns' -> StronglySorted text_before (map fst ns') -> ns' = pre ++ (id, x) :: post ->
     vertices_are conv o kn pre V -> reads_nodes o -> value_of (g_nodeAttribute o) kn key -> value_of key x t -> conv t = (s, false) -> readGraphML conv f o d = Throw RuntimeError) /\
  (* an edge with an unknown end; a weight of an edge that is not a number *)
  (forall conv f o d kn ke ns es ns' V pre it post E, graphml_file d kn ke ns es -> Permutation ns ns' -> StronglySorted text_before (map fst ns') -> vertices_are conv o kn ns' V ->
     es = pre ++ it :: post -> Forall2 (edge_is conv f o kn ke ns') pre E ->
     (~ (In (fst (fst it)) (map fst ns) /\ In (snd (fst it)) (map fst ns)) -> readGraphML conv f o d = Throw OutOfRange) /\
     (forall key t z, In (fst (fst it)) (map fst ns) -> In (snd (fst it)) (map fst ns) -> reads_edges o -> value_of (g_edgeAttribute o) ke key -> value_of key (snd it) t -> conv t = (z, false) -> readGraphML conv f o d = Throw RuntimeError)).
Proof.
  refine (conj _ (conj _ (conj _ (conj _ _)))).
  - intros conv f o d c p x q kn ke t Hd -> Hp Hx Ht N1 N2. destruct (find_document d _ Hd) as (y & Ey & Cy). unfold readGraphML, graphml_parse. rewrite Ey. cbn [bind]. rewrite Cy. rewrite filter_app. cbn [filter]. rewrite (proj2 (named_ok _ _) Hx), foldM_app.
    destruct (parse_keys p kn ke Hp [] [] [] [] dictionary_nil dictionary_nil) as (n & e & E & _). match goal with |- context [foldM ?gg ?ll ?ss] => assert (Em : foldM gg ll ss = Ok (n, e)) by exact E; rewrite Em; clear Em end. cbn [bind foldM].
    unfold graphml_key at 1. rewrite (attribute_ok _ _ _ Ht). cbn [c_str bind]. destruct (str_eqb t (chars "node")) eqn:E1; [apply str_eqb_spec in E1; contradiction|]. destruct (str_eqb t (chars "edge")) eqn:E2; [apply str_eqb_spec in E2; contradiction|]. reflexivity.
  - intros conv f o d c kn ke Hd Hk Hg. destruct (find_document d _ Hd) as (y & Ey & Cy). unfold readGraphML, graphml_parse. rewrite Ey. cbn [bind]. rewrite Cy. destruct (parse_keys c kn ke Hk [] [] [] [] dictionary_nil dictionary_nil) as (n & e & E & _).
    match goal with |- context [foldM ?gg ?ll ?ss] => assert (Em : foldM gg ll ss = Ok (n, e)) by exact E; rewrite Em; clear Em end. cbn [bind]. destruct (find (named_element (chars "graph")) c) as [x|] eqn:Ef; [|reflexivity]. apply find_some in Ef. destruct Ef as [Hx Nx]. exfalso. apply (Hg x Hx). apply named_ok. exact Nx.
  - intros conv f o d c kn ke g p x q ns es Hd Hk Hg -> Hp Hx. destruct (find_document d _ Hd) as (y & Ey & Cy). destruct (find_graph c _ Hg) as (z & Ez & Cz). unfold readGraphML, graphml_parse. rewrite Ey. cbn [bind]. rewrite Cy. destruct (parse_keys c kn ke Hk [] [] [] [] dictionary_nil dictionary_nil) as (n & e & E & _).
    match goal with |- context [foldM ?gg ?ll ?ss] => assert (Em : foldM gg ll ss = Ok (n, e)) by exact E; rewrite Em; clear Em end. cbn [bind]. rewrite Ez, Cz. rewrite (content_error p ns es x q Hp); [reflexivity|]. intros [a b]. unfold parseChild. destruct Hx as [[Hx Hi]|(Hx & k & Hk' & Hi)].
    + rewrite (proj2 (named_ok _ _) Hx). unfold parseNode. rewrite (attribute_none _ _ Hi). reflexivity.
    + rewrite (named_other (chars "edge") (chars "node") x) by (discriminate || exact Hx). rewrite (proj2 (named_ok _ _) Hx). unfold parseEdge. destruct Hk' as [<-|[<-|[<-|[]]]]; rewrite (attribute_none _ _ Hi); destruct (x_attribute x (chars "id")); try reflexivity; destruct (x_attribute x (chars "source")); reflexivity.
  - intros conv f o d kn ke ns es ns' V s key t pre id x post Hd P S -> HV Hr Hk Ht Ec. destruct (parse_graphml d kn ke ns es Hd) as (n & e & nodes0 & edges & Ep & Dn & De & Fn & Fe). destruct (parsed_sorted ns _ nodes0 Fn P S) as (nodes & Es & _ & Fn' & S').
    unfold readGraphML. rewrite Ep. cbn [bind fst snd]. rewrite Es. apply Forall2_app_inv_l in Fn'. destruct Fn' as (np & nq & Fp & Fq & ->). inversion Fq as [|? g ? nq' Fg Fq']; subst. rewrite foldM_app.
    destruct HV as [HL HV]. rewrite (vertices_part conv o kn n Dn _ S' np [] (g :: nq') pre V [] eq_refl Fp HL HV). cbn [bind foldM]. destruct Fg as [Hid Dg]. cbn [fst snd] in Hid, Dg.
    unfold graphml_vertex at 1, index_at. rewrite (index_sorted _ (length np) (n_id g) S') by (rewrite nth_error_map, nth_error_app2, Nat.sub_diag by lia; reflexivity). cbn [bind].
    rewrite (proj2 (reads_spec (g_readNodes o) (g_nodeAttribute o)) Hr). unfold stored_weight at 1. rewrite (proj1 Dn _ _ Hk), (proj1 Dg _ _ Ht), Ec. reflexivity.
  - intros conv f o d kn ke ns es ns' V pre it post E Hd P S HV -> HE. destruct (parse_graphml d kn ke ns _ Hd) as (n & e & nodes0 & edges & Ep & Dn & De & Fn & Fe). destruct (parsed_sorted ns _ nodes0 Fn P S) as (nodes & Es & _ & Fn' & S').
    apply Forall2_app_inv_l in Fe. destruct Fe as (ep & eq' & Fp & Fq & ->). inversion Fq as [|? g ? eq'' (Gs & Gt & Dg) Fq']; subst.
    assert (Hno : forall id, ~ In id (map fst ns) -> id_to_index (sorted_nodes nodes0) id = None).
    { intros id Hid. unfold id_to_index. replace (existsb (fun n => str_eqb (n_id n) id) (sorted_nodes nodes0)) with false; [reflexivity|]. symmetry. apply Bool.not_true_is_false. intro X. apply existsb_exists in X. destruct X as (x & Hx & Ex). apply str_eqb_spec in Ex. apply Hid.
      apply (Permutation_in id (Permutation_map fst (Permutation_sym P))). rewrite <- (parsed_ids _ _ Fn'), <- Ex. apply in_map. exact Hx. }
    assert (Hyes : forall id, In id (map fst ns) -> exists i, id_to_index (sorted_nodes nodes0) id = Some i).
    { intros id Hid. apply (Permutation_in id (Permutation_map fst P)) in Hid. rewrite <- (parsed_ids _ _ Fn') in Hid. apply In_nth_error in Hid. destruct Hid as [i Hi]. exists i. apply index_sorted; assumption. }
    unfold readGraphML. rewrite Ep. cbn [bind fst snd]. rewrite (vertices_ok conv o kn n Dn _ ns' V S' Fn' HV). cbn [bind]. rewrite foldM_app. rewrite (edges_ok conv f o kn ke n e Dn De _ ns' pre ep E S' Fn' Fp HE). cbn [bind foldM]. unfold graphml_edge at 1 3, index_at. rewrite Gs, Gt. cbn [fst snd]. split.
    + intro Hnot. destruct (in_dec (list_eq_dec ascii_dec) (fst (fst it)) (map fst ns)) as [Hs|Hs]; [|rewrite (Hno _ Hs); reflexivity]. destruct (Hyes _ Hs) as [i Hi]. rewrite Hi. cbn [bind]. rewrite Hno by tauto. reflexivity.
    + intros key t z Hs Ht Hr Hk Hv Ec. destruct (Hyes _ Hs) as [i Hi]. destruct (Hyes _ Ht) as [j Hj]. rewrite Hi, Hj. cbn [bind]. rewrite (proj2 (reads_spec (g_readEdges o) (g_edgeAttribute o)) Hr). unfold stored_weight. rewrite (proj1 De _ _ Hk), (proj1 Dg _ _ Hv), Ec. reflexivity.
Qed.

(** ** Findings *)
(** with the default settings, and any others that read the edges, the functor is not used *)
Theorem C136_functor_refuted conv f f' o d : reads_edges o -> readGraphML conv f o d = readGraphML conv f' o d.
Proof.
  intro Hr. unfold readGraphML. destruct (graphml_parse d) as [[keys [nodes edges]]| | |]; cbn [bind]; try reflexivity. destruct (foldM _ (sorted_nodes nodes) []) as [V| | |]; cbn [bind]; try reflexivity.
  replace (foldM (fun l e => let* s := graphml_edge conv f o keys (sorted_nodes nodes) e in Ok (l ++ [s])) edges V) with (foldM (fun l e => let* s := graphml_edge conv f' o keys (sorted_nodes nodes) e in Ok (l ++ [s])) edges V); [reflexivity|].
  revert V. induction edges as [|g edges IH]; intro V; cbn [foldM]; [reflexivity|].
  assert (E : graphml_edge conv f o keys (sorted_nodes nodes) g = graphml_edge conv f' o keys (sorted_nodes nodes) g). { unfold graphml_edge. rewrite (proj2 (reads_spec (g_readEdges o) (g_edgeAttribute o)) Hr). reflexivity. }
  rewrite E. destruct (graphml_edge conv f' o keys (sorted_nodes nodes) g); cbn [bind]; try reflexivity. apply IH.
Qed.

Definition el (name : string) (a : list (string * string)) (t : option string) (c : list xml) : xml := Element (chars name) (map (fun p => (chars (fst p), chars (snd p))) a) (option_map chars t) c.
Definition key_el (id for_ name : string) : xml := el "key" [("id", id); ("for", for_); ("attr.name", name)]%string None [].
Definition data_el (key : string) (t : option string) : xml := el "data" [("key", key)]%string t [].
Definition node_el (id : string) (c : list xml) : xml := el "node" [("id", id)]%string None c.
Definition edge_el (id s t : string) (c : list xml) : xml := el "edge" [("id", id); ("source", s); ("target", t)]%string None c.
Definition doc (keys graph : list xml) : document := [None; None; Some (el "graphml" [] None (keys ++ [el "graph" [("edgedefault", "undirected")]%string None graph]))].
Definition int32 (s : str) : Z * bool := convert (- 2 ^ 31) (2 ^ 31 - 1) s.
Definition only_nodes : graphml_settings := GraphMLSettings false true (chars "weight") (chars "weight").
Definition weighted_nodes : document := doc [key_el "d0" "node" "weight"]%string
  [node_el "b" [data_el "d0" (Some "7")]; node_el "a" [data_el "d0" (Some "5")]; edge_el "e" "b" "a" []]%string.

Example C136_read_ex : simplices_of (readGraphML int32 Z.max graphml_defaults (doc [key_el "d0" "node" "colour"; key_el "d1" "edge" "weight"; key_el "d2" "node" "weight"]%string
    [node_el "n1" [data_el "d0" (Some "green"); data_el "d2" (Some "3")]; edge_el "e0" "n2" "n1" [data_el "d1" (Some "8")]; el "desc" [] (Some "text") []; node_el "n0" []; node_el "n2" [data_el "d2" (Some "4")]; edge_el "e1" "n0" "n2" []]%string)) =
  Ok [([0], 0%Z); ([1], 3%Z); ([2], 4%Z); ([2; 1], 8%Z); ([2; 0], 0%Z)].
Proof. vm_compute. reflexivity. Qed.
(** the hypotheses of [C136_total] hold for a graph *)
Example C136_file_ex : graphml_file weighted_nodes [(chars "weight", chars "d0")] [] [(chars "b", [(chars "d0", chars "7")]); (chars "a", [(chars "d0", chars "5")])] [(chars "b", chars "a", [])].
Proof.
  exists [key_el "d0" "node" "weight"; el "graph" [("edgedefault", "undirected")]%string None [node_el "b" [data_el "d0" (Some "7")]; node_el "a" [data_el "d0" (Some "5")]; edge_el "e" "b" "a" []]]%string. eexists. refine (conj _ (conj _ (conj _ _))).
  - exists None, [None]. eexists. exists []. refine (conj eq_refl (conj _ (conj _ _))); [intros y [H|[]]; discriminate|reflexivity|reflexivity].
  - eapply keys_node; [reflexivity| | | |apply keys_skip; [discriminate|constructor]].
    + exists [(chars "id", chars "d0")]. eexists. split; [reflexivity|]. intros [H|[]]. discriminate.
    + exists [(chars "id", chars "d0"); (chars "for", chars "node")]. eexists. split; [reflexivity|]. intros [H|[H|[]]]; discriminate.
    + exists []. eexists. split; [reflexivity|]. intros [].
  - exists [key_el "d0" "node" "weight"]%string. eexists. exists []. refine (conj eq_refl (conj _ (conj _ _))); [intros y [<-|[]]; discriminate|reflexivity|reflexivity].
  - assert (D : forall x, data_of [data_el "d0" (Some x)] [(chars "d0", chars x)]). { intro x. apply data_item; [reflexivity| |reflexivity|constructor]. exists []. eexists. split; [reflexivity|]. intros []. }
    eapply content_node; [reflexivity| |reflexivity|apply D|]. { exists []. eexists. split; [reflexivity|]. intros []. }
    eapply content_node; [reflexivity| |reflexivity|apply D|]. { exists []. eexists. split; [reflexivity|]. intros []. }
    eapply content_edge with (id := chars "e"); [reflexivity| | | |reflexivity|constructor|constructor].
    + exists []. eexists. split; [reflexivity|]. intros [].
    + exists [(chars "id", chars "e")]. eexists. split; [reflexivity|]. intros [H|[]]. discriminate.
    + exists [(chars "id", chars "e"); (chars "source", chars "b")]. eexists. split; [reflexivity|]. intros [H|[H|[]]]; discriminate.
Qed.
Example C136_functor_ex :
  simplices_of (readGraphML int32 Z.max only_nodes weighted_nodes) = Ok [([0], 5%Z); ([1], 7%Z); ([1; 0], 7%Z)] /\
  simplices_of (readGraphML int32 Z.min only_nodes weighted_nodes) = Ok [([0], 5%Z); ([1], 7%Z); ([1; 0], 5%Z)].
Proof. vm_compute. auto. Qed.
(** the edge of a graph with weighted nodes appears before them *)
Theorem C136_monotone_refuted : simplices_of (readGraphML int32 Z.max graphml_defaults weighted_nodes) = Ok [([0], 5%Z); ([1], 7%Z); ([1; 0], 0%Z)].
Proof. vm_compute. reflexivity. Qed.
(** a document that starts with its element, and a file that cannot be loaded *)
Theorem C136_declaration_refuted conv f o x : readGraphML conv f o [Some x] = UB /\ readGraphML conv f o [] = UB.
Proof. split; reflexivity. Qed.
(** vertices follow the order of the texts, neither the order in the file nor the one of numbers *)
Theorem C136_order_refuted : simplices_of (readGraphML int32 Z.max graphml_defaults (doc [key_el "d0" "node" "weight"]%string
    [node_el "1" [data_el "d0" (Some "1")]; node_el "2" [data_el "d0" (Some "2")]; node_el "10" [data_el "d0" (Some "10")]]%string)) = Ok [([0], 1%Z); ([1], 10%Z); ([2], 2%Z)].
Proof. vm_compute. reflexivity. Qed.
(** nodes with equal identifiers are accepted, and then edges use the weights of other nodes *)
Theorem C136_duplicate_refuted : simplices_of (readGraphML int32 Z.max only_nodes (doc [key_el "d0" "node" "weight"]%string
    [node_el "a" [data_el "d0" (Some "1")]; node_el "a" [data_el "d0" (Some "2")]; node_el "b" [data_el "d0" (Some "7")]; edge_el "e" "a" "b" []]%string)) = Ok [([0], 1%Z); ([1], 7%Z); ([1; 0], 2%Z)].
Proof. vm_compute. reflexivity. Qed.
(** data without text *)
Theorem C136_empty_data_refuted conv f o : readGraphML conv f o (doc [] [node_el "a" [data_el "d0" None]]%string) = UB.
Proof. reflexivity. Qed.
(** a node without weight is accepted, but not the edges at it *)
Theorem C136_missing_weight_refuted :
  simplices_of (readGraphML int32 Z.max only_nodes (doc [key_el "d0" "node" "weight"]%string [node_el "a" [data_el "d0" (Some "1")]; node_el "b" []]%string)) = Ok [([0], 1%Z); ([1], 0%Z)] /\
  readGraphML int32 Z.max only_nodes (doc [key_el "d0" "node" "weight"]%string [node_el "a" [data_el "d0" (Some "1")]; node_el "b" []; edge_el "e" "a" "b" []]%string) = Throw OutOfRange.
Proof. split; vm_compute; reflexivity. Qed.
(** the format permits keys for all elements and edges without identifier *)
Theorem C136_valid_refuted conv f o :
  readGraphML conv f o (doc [key_el "d0" "all" "weight"]%string [node_el "a" []]%string) = Throw RuntimeError /\
  readGraphML conv f o (doc [] [node_el "a" []; node_el "b" []; el "edge" [("source", "a"); ("target", "b")] None []]%string) = Throw RuntimeError.
Proof. split; reflexivity. Qed.
(** the names of the attributes are the identifiers of the keys *)
Theorem C136_names_refuted : exists K nodes edges, readGraphML int32 Z.max graphml_defaults weighted_nodes = Ok (K, nodes, edges) /\ getNodeAttributeNames nodes = [chars "d0"].
Proof. eexists. eexists. eexists. split; [vm_compute; reflexivity|reflexivity]. Qed.

Print Assumptions C136_read.
Print Assumptions C136_total.
Print Assumptions C136_names.
Print Assumptions C136_errors.
Print Assumptions C136_functor_refuted.
