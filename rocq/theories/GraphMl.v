(** * Model of [topology/io/GraphML.hh].

    The text of a file is parsed by tinyxml2, which is not modelled: the reader is modelled on the tree that
    the library yields.  A document that cannot be loaded has no children.  A null pointer that is
    dereferenced, or that is converted to a string, has undefined behaviour.  The conversion [conv] of a text
    yields the data and the flag for success; the data of a simplex is an integer. *)
From Coq Require Import String Ascii List Arith Bool NArith ZArith.
From Verif Require Import Base LoadMatrix StringUtilities Simplex Complex DiagramIO Pajek Gml.
Import ListNotations.
Local Open Scope list_scope.
Local Open Scope nat_scope.

(** an element of tinyxml2: the name, the attributes, the result of [GetText], and the elements that are its
    children; comments and other text are left out, because the reader skips them *)
Inductive xml := Element (x_name : str) (x_attributes : list (str * str)) (x_text : option str) (x_children : list xml).
Definition x_name (x : xml) : str := match x with Element n _ _ _ => n end.
Definition x_text (x : xml) : option str := match x with Element _ _ t _ => t end.
Definition x_children (x : xml) : list xml := match x with Element _ _ _ c => c end.
(** [XMLElement::Attribute] *)
Definition x_attribute (x : xml) (name : str) : option str :=
  match x with Element _ a _ _ => option_map snd (find (fun p => str_eqb (fst p) name) a) end.
(** a document: declarations and comments have no element *)
Definition document : Type := list (option xml).
Definition named_element (name : str) (x : xml) : bool := str_eqb (x_name x) name.

(** GraphML.hh 425-449, 454-458 *)
Record graphml_settings := GraphMLSettings { g_readEdges : bool; g_readNodes : bool; g_edgeAttribute : str; g_nodeAttribute : str }.
Definition graphml_defaults : graphml_settings := GraphMLSettings true true (chars "weight") (chars "weight").

(** a pointer to characters that is used as a string *)
Definition c_str (p : option str) : outcome str := match p with Some s => Ok s | None => UB end.

(** GraphML.hh 102-103 *)
Definition graphml_element (d : document) : outcome xml :=
  match d with
  | [] => UB
  | _ :: siblings =>
      match find (fun n => match n with Some x => named_element (chars "graphml") x | None => false end) siblings with
      | Some (Some x) => Ok x
      | _ => UB
      end
  end.
(** GraphML.hh 109-125: the keys of nodes and of edges *)
Definition graphml_key (keys : smap * smap) (key : xml) : outcome (smap * smap) :=
  let* type := c_str (x_attribute key (chars "for")) in
  if str_eqb type (chars "node") then
    let* name := c_str (x_attribute key (chars "attr.name")) in let* id := c_str (x_attribute key (chars "id")) in
    Ok (smap_set name id (fst keys), snd keys)
  else if str_eqb type (chars "edge") then
    let* name := c_str (x_attribute key (chars "attr.name")) in let* id := c_str (x_attribute key (chars "id")) in
    Ok (fst keys, smap_set name id (snd keys))
  else Throw RuntimeError.
(** GraphML.hh 378-394 *)
Definition parseData (x : xml) : outcome smap :=
  foldM (fun dict child =>
    if named_element (chars "data") child then
      let* key := c_str (x_attribute child (chars "key")) in let* value := c_str (x_text child) in
      Ok (smap_set key value dict)
    else Ok dict) (x_children x) [].
(** GraphML.hh 330-349 *)
Definition parseNode (x : xml) : outcome gnode :=
  match x_attribute x (chars "id") with
  | None => Throw RuntimeError
  | Some id => let* dict := parseData x in Ok (GNode id dict)
  end.
(** GraphML.hh 351-376 *)
Definition parseEdge (x : xml) : outcome gedge :=
  match x_attribute x (chars "id"), x_attribute x (chars "source"), x_attribute x (chars "target") with
  | Some _, Some source, Some target => let* dict := parseData x in Ok (GEdge source target dict)
  | _, _, _ => Throw RuntimeError
  end.
(** GraphML.hh 144-158 *)
Definition parseChild (st : list gnode * list gedge) (x : xml) : outcome (list gnode * list gedge) :=
  let '(nodes, edges) := st in
  if named_element (chars "node") x then let* n := parseNode x in Ok (nodes ++ [n], edges)
  else if named_element (chars "edge") x then let* e := parseEdge x in Ok (nodes, edges ++ [e])
  else Ok st.
(** GraphML.hh 102-159; whether the graph is directed is not used *)
Definition graphml_parse (d : document) : outcome ((smap * smap) * (list gnode * list gedge)) :=
  let* graphml := graphml_element d in
  let* keys := foldM graphml_key (filter (named_element (chars "key")) (x_children graphml)) ([], []) in
  match find (named_element (chars "graph")) (x_children graphml) with
  | None => Throw RuntimeError
  | Some graph => let* content := foldM parseChild (x_children graph) ([], []) in Ok (keys, content)
  end.

Section Read.
Variable conv : str -> Z * bool.

(** GraphML.hh 192-207, 219-234 *)
Definition stored_weight (attribute : str) (keys dict : smap) : outcome Z :=
  match smap_find attribute keys with
  | None => Ok 0%Z
  | Some key =>
      match smap_find key dict with
      | None => Ok 0%Z
      | Some text => let '(weight, success) := conv text in if success then Ok weight else Throw RuntimeError
      end
  end.
(** [map::at] *)
Definition smap_at (k : str) (m : smap) : outcome str := match smap_find k m with Some v => Ok v | None => Throw OutOfRange end.
Definition index_at (nodes : list gnode) (id : str) : outcome nat := match id_to_index nodes id with Some i => Ok i | None => Throw OutOfRange end.

(** GraphML.hh 187-211 *)
Definition graphml_vertex (o : graphml_settings) (keys : smap) (nodes : list gnode) (n : gnode) : outcome simplex :=
  let* v := index_at nodes (n_id n) in
  let* weight := if g_readNodes o && negb (str_eqb (g_nodeAttribute o) []) then stored_weight (g_nodeAttribute o) keys (n_dict n) else Ok 0%Z in
  Ok (simplex_vertex v weight).
(** GraphML.hh 213-261 *)
Definition graphml_edge (f : Z -> Z -> Z) (o : graphml_settings) (keys : smap * smap) (nodes : list gnode) (e : gedge) : outcome simplex :=
  let* u := index_at nodes (e_source e) in
  let* v := index_at nodes (e_target e) in
  let* weight :=
    if g_readEdges o && negb (str_eqb (g_edgeAttribute o) []) then stored_weight (g_edgeAttribute o) (snd keys) (e_dict e)
    else if g_readNodes o && negb (str_eqb (g_nodeAttribute o) []) then
      match smap_find (g_nodeAttribute o) (fst keys) with
      | None => Ok 0%Z
      | Some key =>
          let* nu := at_ nodes u in let* du := smap_at key (n_dict nu) in
          let* nv := at_ nodes v in let* dv := smap_at key (n_dict nv) in
          Ok (f (fst (conv du)) (fst (conv dv)))
      end
    else Ok 0%Z in
  Ok (simplex_of [u; v] weight).

(** GraphML.hh 173-184; all nodes have an index.  Nodes with equal identifiers stay in their order, which
    [std::sort] does not ensure *)
Definition index_of_node (nodes : list gnode) (n : gnode) : nat := match id_to_index nodes (n_id n) with Some i => i | None => 0 end.
Definition sorted_nodes (nodes : list gnode) : list gnode := cpp_sort (fun a b => index_of_node nodes a <? index_of_node nodes b) nodes.

(** GraphML.hh 85-264: the complex, and the nodes and edges that the reader keeps.  The map of line 173 is
    computed again for the sorted nodes; it only depends on the set of the identifiers *)
Definition readGraphML (f : Z -> Z -> Z) (o : graphml_settings) (d : document) : outcome (complex * list gnode * list gedge) :=
  let* p := graphml_parse d in
  let '(keys, (nodes, edges)) := p in
  let nodes := sorted_nodes nodes in
  let* V := foldM (fun l n => let* s := graphml_vertex o (fst keys) nodes n in Ok (l ++ [s])) nodes [] in
  let* L := foldM (fun l e => let* s := graphml_edge f o keys nodes e in Ok (l ++ [s])) edges V in
  let* K := k_of_range L in
  Ok (K, nodes, edges).
End Read.
