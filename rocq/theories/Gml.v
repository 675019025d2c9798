(** * Model of [topology/io/GML.hh], and of the labels in [topology/io/SimplicialComplexReader.hh].

    The three regular expressions are modelled by functions that yield the captured groups; they are
    compared with the expressions in PropertiesGml.v.  The data of a simplex is an integer, with the
    conversion [conv] of a text and the text [show] that [operator<<] writes; vertices are unsigned numbers
    of 32 bits.  The dictionary of the graph itself is never read, but kept. *)
From Coq Require Import String Ascii List Arith Bool NArith ZArith.
From Verif Require Import Base LoadMatrix StringUtilities Simplex Complex DiagramIO Pajek.
Import ListNotations.
Local Open Scope list_scope.
Local Open Scope nat_scope.

(** the classes of GML.hh 142-143 *)
Definition isname (c : ascii) : bool := isalpha c || Ascii.eqb c "_" || Ascii.eqb c "|".
Definition isvalue (c : ascii) : bool := isalpha c || isdigit c || Ascii.eqb c ".".

(** GML.hh 142: the name *)
Definition match_attribute (line : str) : option str :=
  match span isname line with
  | ([], _) => None
  | (name, rest) => let '(_, rest) := span isspace rest in if forallb anychar rest then Some name else None
  end.
(** GML.hh 143: the value *)
Definition gml_key_value (line : str) : option str :=
  match span isname line with
  | ([], _) => None
  | (_, rest) =>
      match span isspace rest with
      | ([], _) => None
      | (_, []) => None
      | (_, value) => if forallb isvalue value then Some value else None
      end
  end.
(** GML.hh 144: the label *)
Definition isnoquote (c : ascii) : bool := negb (Ascii.eqb c quote).
Definition match_label (line : str) : option str :=
  match span isname line with
  | (name, rest) =>
      if str_eqb name (chars "label") then
        match span isspace rest with
        | ([], _) => None
        | (_, q :: t) => if Ascii.eqb q quote then
                           match span isnoquote t with
                           | ([], _) => None
                           | (label, [_]) => Some label
                           | _ => None
                           end
                         else None
        | _ => None
        end
      else None
  end.

(** GML.hh 458-472 *)
Record gnode := GNode { n_id : str; n_dict : smap }.
Record gedge := GEdge { e_source : str; e_target : str; e_dict : smap }.
(** GML.hh 130-140, 479-482; the last element of the stack comes first *)
Record gml := Gml { g_nodes : list gnode; g_edges : list gedge; g_stack : list str; g_last : str; g_node : gnode; g_edge : gedge; g_dict : smap }.
Definition no_node : gnode := GNode [] [].
Definition no_edge : gedge := GEdge [] [] [].

(** GML.hh 117-128 *)
Definition isLevel (s : str) : bool := existsb (str_eqb s) (map chars ["graph"; "node"; "edge"]%string).
Definition isAttribute (s : str) : bool := existsb (str_eqb s) (map chars ["id"; "label"; "source"; "target"; "value"; "weight"]%string).

(** GML.hh 211-214, 240, 252: a value of the current level *)
Inductive dictionary := NodeDict | EdgeDict | GraphDict.
Definition gml_store (d : dictionary) (name value : str) (st : gml) : gml :=
  match d with
  | NodeDict => Gml (g_nodes st) (g_edges st) (g_stack st) (g_last st) (GNode (n_id (g_node st)) (smap_set name value (n_dict (g_node st)))) (g_edge st) (g_dict st)
  | EdgeDict => Gml (g_nodes st) (g_edges st) (g_stack st) (g_last st) (g_node st) (GEdge (e_source (g_edge st)) (e_target (g_edge st)) (smap_set name value (e_dict (g_edge st)))) (g_dict st)
  | GraphDict => Gml (g_nodes st) (g_edges st) (g_stack st) (g_last st) (g_node st) (g_edge st) (smap_set name value (g_dict st))
  end.
(** GML.hh 204-256 *)
Definition gml_attribute (st : gml) (line : str) : outcome gml :=
  match g_stack st with
  | [] => Throw RuntimeError
  | top :: _ =>
      let* d := if str_eqb top (chars "node") then Ok NodeDict else if str_eqb top (chars "edge") then Ok EdgeDict
                else if str_eqb top (chars "graph") then Ok GraphDict else Throw RuntimeError in
      match match_attribute line with
      | None => Ok st
      | Some name =>
          if isAttribute name then
            let value := match (if str_eqb name (chars "label") then match_label line else gml_key_value line) with Some v => v | None => [] end in
            if str_eqb name (chars "id") then Ok (Gml (g_nodes st) (g_edges st) (g_stack st) (g_last st) (GNode value (n_dict (g_node st))) (g_edge st) (g_dict st))
            else if str_eqb name (chars "source") then Ok (Gml (g_nodes st) (g_edges st) (g_stack st) (g_last st) (g_node st) (GEdge value (e_target (g_edge st)) (e_dict (g_edge st))) (g_dict st))
            else if str_eqb name (chars "target") then Ok (Gml (g_nodes st) (g_edges st) (g_stack st) (g_last st) (g_node st) (GEdge (e_source (g_edge st)) value (e_dict (g_edge st))) (g_dict st))
            else Ok (gml_store d name value st)
          else match gml_key_value line with
               | Some value => Ok (gml_store d name value st)
               | None => Ok st
               end
      end
  end.
(** GML.hh 146-257 *)
Definition gml_line (st : gml) (line : str) : outcome gml :=
  let line := trim line in
  let tokens := split isspace line in
  let first := match tokens with t :: _ => t | [] => [] end in
  let inline := match tokens with [t; b] => str_eqb b ["["%char] && isLevel t | _ => false end in
  if str_eqb first (chars "comment") || str_eqb first (chars "Creator") then Ok st
  else if isLevel line || inline then
    let level := match tokens with [t; _] => t | _ => line end in
    match g_last st with
    | _ :: _ => Throw RuntimeError
    | [] => if length tokens =? 2 then Ok (Gml (g_nodes st) (g_edges st) (level :: g_stack st) [] (g_node st) (g_edge st) (g_dict st))
            else Ok (Gml (g_nodes st) (g_edges st) (g_stack st) level (g_node st) (g_edge st) (g_dict st))
    end
  else if str_eqb line ["["%char] then
    Ok (Gml (g_nodes st) (g_edges st) (g_last st :: g_stack st) [] (g_node st) (g_edge st) (g_dict st))
  else if str_eqb line ["]"%char] then
    match g_stack st with
    | [] => UB
    | top :: stack =>
        let nodes := if str_eqb top (chars "node") then g_nodes st ++ [g_node st] else g_nodes st in
        let edges := if str_eqb top (chars "node") then g_edges st else if str_eqb top (chars "edge") then g_edges st ++ [g_edge st] else g_edges st in
        Ok (Gml nodes edges stack (g_last st) no_node no_edge (g_dict st))
    end
  else gml_attribute st line.
(** GML.hh 107-257: the nodes and edges *)
Definition gml_parse (text : str) : outcome (list gnode * list gedge) :=
  let* st := foldM gml_line (getlines [] text) (Gml [] [] [] [] no_node no_edge []) in
  Ok (g_nodes st, g_edges st).

(** [std::set< std::string >] *)
Fixpoint sset_insert (k : str) (l : list str) : list str :=
  match l with
  | [] => [k]
  | k' :: t => if str_eqb k k' then l else if str_ltb k k' then k :: l else k' :: sset_insert k t
  end.
(** GML.hh 447: the distance from the beginning to [find] *)
Fixpoint srank (k : str) (l : list str) : nat :=
  match l with
  | [] => 0
  | k' :: t => if str_eqb k k' then 0 else S (srank k t)
  end.
(** GML.hh 432-449 and the conversion to [VertexType]; identifiers are empty or consist of letters, digits and
    dots, hence [std::stoll] reads the digits at the beginning *)
Definition getID (ids : list str) (id : str) : outcome nat :=
  match leading_digits id with
  | None => Ok (srank id ids)
  | Some n => if N.ltb n (2 ^ 63) then Ok (vertex_of n) else Throw OutOfRange
  end.

Section Reader.
Variable conv : str -> Z.
Variable f : Z -> Z -> Z.
(** GML.hh 261-268 *)
Definition node_ids (nodes : list gnode) : outcome (list str) :=
  foldM (fun ids n => if existsb (str_eqb (n_id n)) ids then Throw RuntimeError else Ok (sset_insert (n_id n) ids)) nodes [].
(** GML.hh 281-286 *)
Definition node_data (n : gnode) : Z :=
  match smap_find (chars "weight") (n_dict n) with
  | Some w => conv w
  | None => match smap_find (chars "value") (n_dict n) with Some w => conv w | None => 0%Z end
  end.
(** GML.hh 277-289; the map [id_to_simplex] keeps the last simplex of a vertex *)
Definition gml_node (ids : list str) (st : list simplex * list (nat * simplex)) (n : gnode) : outcome (list simplex * list (nat * simplex)) :=
  let* v := getID ids (n_id n) in
  let s := simplex_vertex v (node_data n) in
  Ok (fst st ++ [s], (v, s) :: snd st).
Definition id_to_simplex (m : list (nat * simplex)) (v : nat) : outcome simplex :=
  match find (fun p => fst p =? v) m with Some (_, s) => Ok s | None => Throw OutOfRange end.
(** GML.hh 293-313 *)
Definition gml_edge (ids : list str) (m : list (nat * simplex)) (simplices : list simplex) (e : gedge) : outcome (list simplex) :=
  let* u := getID ids (e_source e) in
  let* v := getID ids (e_target e) in
  match smap_find (chars "weight") (e_dict e), smap_find (chars "value") (e_dict e) with
  | None, None =>
      let* s := id_to_simplex m u in
      let* t := id_to_simplex m v in
      Ok (simplices ++ [simplex_of [u; v] (f (data s) (data t))])
  | Some w, _ => Ok (simplices ++ [simplex_of [u; v] (conv w)])
  | None, Some w => Ok (simplices ++ [simplex_of [u; v] (conv w)])
  end.
(** GML.hh 105-317: the complex and the nodes that are stored *)
Definition readGML (text : str) : outcome (complex * list gnode * list gedge) :=
  let* r := gml_parse text in
  let '(nodes, edges) := r in
  let* ids := node_ids nodes in
  let* st := foldM (gml_node ids) nodes ([], []) in
  let* simplices := foldM (gml_edge ids (snd st)) edges (fst st) in
  let* K := k_of_range simplices in
  Ok (K, nodes, edges).
End Reader.

(** GML.hh 319-345: [names] of the attributes *)
Definition attribute_names (dicts : list smap) : list str := fold_left (fun l m => fold_left (fun l p => sset_insert (fst p) l) m l) dicts [].
Definition getNodeAttributeNames (nodes : list gnode) : list str := attribute_names (map n_dict nodes).
Definition getEdgeAttributeNames (edges : list gedge) : list str := attribute_names (map e_dict edges).
(** GML.hh 353-366 *)
Definition getNodeAttribute (nodes : list gnode) (attribute : str) : smap :=
  fold_left (fun m n => smap_set (n_id n) (match smap_find attribute (n_dict n) with Some v => v | None => [] end) m) nodes [].
(** GML.hh 382-401 *)
Definition getEdgeAttribute (edges : list gedge) (source target attribute : str) : str :=
  match find (fun e => str_eqb (e_source e) source && str_eqb (e_target e) target) edges with
  | Some e => match smap_find attribute (e_dict e) with Some v => v | None => [] end
  | None => []
  end.
(** GML.hh 409-421, as a map from identifiers to indices *)
Definition id_to_index (nodes : list gnode) (id : str) : option nat :=
  let ids := fold_left (fun l n => sset_insert (n_id n) l) nodes [] in
  if existsb (fun n => str_eqb (n_id n) id) nodes then Some (srank id ids) else None.
(** SimplicialComplexReader.hh 265-282, for the maps of the reader *)
Definition gml_labels (nodes : list gnode) (attribute : str) : outcome (list str) :=
  let m := getNodeAttribute nodes attribute in
  match m with
  | [] => Ok []
  | _ => foldM (fun labels p => match snd p with
                                | [] => Ok labels
                                | l => match id_to_index nodes (fst p) with
                                       | None => Throw OutOfRange
                                       | Some i => let* _ := at_ labels i in Ok (upd labels i l)
                                       end
                                end) m (repeat [] (length m))
  end.

Section Writer.
Variable show : Z -> str.
(** GML.hh 523-548: the lines of a simplex *)
Definition write_node (labels : list str) (withData : bool) (s : simplex) : outcome (list str) :=
  let* id := s_nth s 0 in
  let* label := match labels with
                | [] => Ok []
                | _ => match id with 0 => Throw OutOfRange | S i => let* l := at_ labels i in Ok [chars "    label " ++ quote :: l ++ [quote]] end
                end in
  Ok ([chars "  node ["; chars "    id " ++ print_nat id] ++ label ++ (if withData then [chars "    data " ++ show (data s)] else []) ++ [chars "  ]"]).
Definition write_edge (s : simplex) : outcome (list str) :=
  let* u := s_nth s 0 in
  let* v := s_nth s 1 in
  Ok [chars "  edge ["; chars "    source " ++ print_nat u; chars "    target " ++ print_nat v; chars "    weight " ++ show (data s); chars "  ]"].
Definition write_simplex (labels : list str) (withData : bool) (st : list str * list str) (s : simplex) : outcome (list str * list str) :=
  let* d := s_dimension s in
  match d with
  | 0 => let* t := write_node labels withData s in Ok (fst st ++ t, snd st)
  | 1 => let* t := write_edge s in Ok (fst st, snd st ++ t)
  | _ => Ok st
  end.
(** GML.hh 516-556: the lines, each of which ends with a newline *)
Definition writeGML (labels : list str) (withData : bool) (K : complex) : outcome (list str) :=
  let* st := foldM (write_simplex labels withData) (by_index K) ([], []) in
  Ok ([chars "graph ["; chars "  directed 0"] ++ fst st ++ [[]] ++ snd st ++ [[]; chars "]"]).
End Writer.
