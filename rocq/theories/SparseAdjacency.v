(** * Model of [topology/io/SparseAdjacencyMatrix.hh].

    The files are given by their contents; the existence of files and their names are not modelled.
    [VertexType] is [nat] and [DataType] is [Z], with the conversions [conv] and [dconv] of a text; the
    second component of [conv] is the flag [success].  The order in which the hash set of vertices is
    traversed is the parameter [order]. *)
From Coq Require Import Ascii List Arith Bool ZArith.
From Verif Require Import Base LoadMatrix StringUtilities Simplex Complex.
Import ListNotations.
Local Open Scope list_scope.
Local Open Scope nat_scope.

Definition comma : ascii := ","%char.
(** String.hh 79-94 for the separator [","] (517) *)
Fixpoint fields (first : bool) (cur s : str) : list str :=
  match s with
  | [] => if first then [cur] else match cur with [] => [] | _ => [cur] end
  | c :: t => if Ascii.eqb c comma then cur :: fields false [] t else fields first (cur ++ [c]) t
  end.
Definition split_comma (s : str) : list str := fields true [] s.

Section Reader.
Variable conv : str -> nat * bool.
Variable dconv : str -> Z.

(** SparseAdjacencyMatrix.hh 278-296 *)
Definition sam_edges (text : str) : outcome (list (nat * nat)) :=
  foldM (fun edges line =>
           match split_comma line with
           | [a; b] => Ok (edges ++ [(fst (conv a), fst (conv b))])
           | _ => Throw RuntimeError
           end) (getlines [] text) [].
(** 291-292: the vertices in the order of their insertion *)
Definition sam_vertices (edges : list (nat * nat)) : list nat := nodup Nat.eq_dec (flat_map (fun e => [fst e; snd e]) edges).

(** 331-345: the graph identifiers of the nodes 1, 2, ...; [_firstNodeID] is 1 (485) *)
Definition sam_indicator (text : str) : outcome (list nat) :=
  foldM (fun ids line =>
           let '(g, success) := conv (trim line) in
           if success then Ok (ids ++ [g]) else Throw RuntimeError) (getlines [] text) [].
(** 73-76, 148: [node_id_to_graph_id[ v ]] *)
Definition graph_id (ids : list nat) (v : nat) : nat := match v with 0 => 0 | S i => nth i ids 0 end.
(** 68, 82-89: [graph_id_to_index[ id ]] *)
Definition graph_ids (ids : list nat) : list nat := cpp_unique Nat.eqb (cpp_sort Nat.ltb ids).
Definition graph_index (ids : list nat) (v : nat) : nat :=
  match position (Nat.eqb (graph_id ids v)) (graph_ids ids) with Some i => i | None => 0 end.
(** 98-113: [node_id_to_index[ v ]] *)
Definition node_index (ids : list nat) (edges : list (nat * nat)) (v : nat) : nat :=
  match position (Nat.eqb v) (cpp_unique Nat.eqb (cpp_sort Nat.ltb (sam_vertices edges ++ seq 1 (length ids)))) with Some i => i | None => 0 end.

(** 350-368 *)
Definition sam_labels (trimLines : bool) (text : str) : list str := map (fun l => if trimLines then trim l else l) (getlines [] text).
(** 388-419 *)
Definition sam_attributes (trimLines : bool) (text : str) : list (list Z) :=
  map (fun l => map dconv (split_comma (if trimLines then trim l else l))) (getlines [] text).

(** the attribute files with the column that is used; absent if attributes are not read, or if no column is
    selected *)
Variables nodeAttributes edgeAttributes : option (list (list Z) * nat).
Definition attribute (a : option (list (list Z) * nat)) (i : nat) (s : simplex) : outcome simplex :=
  match a with
  | None => Ok s
  | Some (rows, j) => let* row := get_ rows i in let* x := get_ row j in Ok (set_data s x)
  end.
Definition push_to (Ks : list complex) (i : nat) (s : simplex) : outcome (list complex) :=
  let* K := get_ Ks i in
  match k_push_back K s with
  | (K', Ok _) => Ok (upd Ks i K')
  | (_, Throw e) => Throw e
  | (_, UB) => UB
  | (_, OutOfFuel) => OutOfFuel
  end.

(** 146-165 *)
Definition sam_vertex (ids : list nat) (edges : list (nat * nat)) (graphLabels : list str) (st : list complex * list str) (v : nat)
  : outcome (list complex * list str) :=
  let '(Ks, labels) := st in
  let index := graph_index ids v in
  let* _ := get_ Ks index in
  let* label := at_ graphLabels index in
  let* s := attribute nodeAttributes (node_index ids edges v) (simplex_vertex v 0%Z) in
  let* Ks := push_to Ks index s in
  Ok (Ks, upd labels index label).
(** 167-186 *)
Definition sam_edge (ids : list nat) (Ks : list complex) (ie : nat * (nat * nat)) : outcome (list complex) :=
  let '(i, (u, v)) := ie in
  if negb (graph_id ids u =? graph_id ids v) then Throw RuntimeError
  else
    let* _ := get_ Ks (graph_index ids u) in
    let* s := attribute edgeAttributes i (simplex_of [u; v] 0%Z) in
    push_to Ks (graph_index ids u) s.

(** 47-193: the complexes, and the labels that are stored *)
Definition readSAM (order : list nat -> list nat) (matrix indicator : str) (graphLabels : list str) : outcome (list complex * list str) :=
  let* edges := sam_edges matrix in
  let* ids := sam_indicator indicator in
  let n := length (graph_ids ids) in
  let* st := foldM (sam_vertex ids edges graphLabels) (order (sam_vertices edges)) (repeat k_empty n, repeat [] n) in
  let '(Ks, labels) := st in
  let* Ks := foldM (sam_edge ids) (combine (seq 0 (length edges)) edges) Ks in
  Ok (map (k_sort data_cmp) Ks, if length labels <? length graphLabels then labels else graphLabels).
End Reader.
