(** * Model of [src/tools/interlevel_set_persistence_hierarchy.cc].

    Complexes are those of the readers (Function.v, Vtk.v), after sorting.  The text of the output is not modelled: nodes are
    given by their number and their two values, edges by the numbers of their nodes.  [inf] is infinity. *)
From Coq Require Import List Arith Bool ZArith.
From Verif Require Import Base Matrix Simplex Complex Diagram UnionFind ExtendedHierarchy.
Import ListNotations.
Local Open Scope nat_scope.

(** interlevel_set_persistence_hierarchy.cc 196-199 *)
Definition point_ltb (a b : point) : bool := (fst a <? fst b)%Z || ((fst a =? fst b)%Z && (snd a <? snd b)%Z).
(** 190-202: [front] of an empty vector is undefined *)
Definition hierarchy_diagram (inf : Z) (pairing : list (nat * option nat)) (K : complex) : outcome diagram :=
  let* ds := makePersistenceDiagrams inf pairing K in
  let* D := get_ ds 0 in
  let D := removeDiagonal D in
  Ok (Diagram (dgm_dim D) (cpp_sort point_ltb (points D))).

(** 206-212: the set of all vertices of edges *)
Definition hierarchy_vertices (edges : list (nat * nat)) : list nat :=
  set_insert_range (flat_map (fun e => [fst e; snd e]) edges) [].

(** 216-236: dereferencing the end of the pairing is undefined *)
Definition hierarchy_node (inf : Z) (pairing : list (nat * option nat)) (K : complex) (st : nat * list (nat * (Z * Z))) (vertex : nat) : outcome (nat * list (nat * (Z * Z))) :=
  let '(index, lines) := st in
  match k_lookup K (simplex_vertex vertex 0) with
  | None => Ok (S index, lines)
  | Some creator =>
      let* i := k_index K creator in
      match find (fun q => fst q =? i) pairing with
      | None => UB
      | Some q =>
          match snd q with
          | Some j =>
              if j <? k_size K then
                let* destroyer := at_ (by_index K) j in
                Ok (S index, lines ++ [(index, (data creator, data destroyer))])
              else Ok (S index, lines ++ [(index, (data creator, inf))])
          | None => Ok (S index, lines ++ [(index, (data creator, inf))])
          end
      end
  end.
Definition hierarchy_nodes (inf : Z) (pairing : list (nat * option nat)) (K : complex) (vertices : list nat) : outcome (list (nat * (Z * Z))) :=
  let* st := foldM (hierarchy_node inf pairing K) vertices (0, []) in Ok (snd st).
(** 240-246: the distance from the first element to the one that is found, or to the end *)
Definition number_of (vertices : list nat) (v : nat) : nat :=
  match position (Nat.eqb v) vertices with Some i => i | None => length vertices end.
Definition hierarchy_lines (vertices : list nat) (edges : list (nat * nat)) : list (nat * nat) :=
  map (fun e => (number_of vertices (fst e), number_of vertices (snd e))) edges.

(** 179-249: diagram, nodes and edges of one complex *)
Definition hierarchy_output (inf : Z) (order : list nat -> list nat) (K : complex) : outcome (diagram * list (nat * (Z * Z)) * list (nat * nat)) :=
  let* (pairing, edges) := extendedPersistenceHierarchy order K in
  let* D := hierarchy_diagram inf pairing K in
  let vertices := hierarchy_vertices edges in
  let* nodes := hierarchy_nodes inf pairing K vertices in
  Ok (D, nodes, hierarchy_lines vertices edges).

(** [operator==] of diagrams compares the points: PersistenceDiagram.hh 204-207 *)
Definition point_eqb (a b : point) : bool := (fst a =? fst b)%Z && (snd a =? snd b)%Z.
Fixpoint points_eqb (l m : list point) : bool :=
  match l, m with
  | [], [] => true
  | a :: l, b :: m => point_eqb a b && points_eqb l m
  | _, _ => false
  end.
(** 259-270 *)
Definition compare_step (ds : list diagram) (uf : parents) (ij : nat * nat) : outcome parents :=
  let* D1 := at_ ds (fst ij) in
  let* D2 := at_ ds (snd ij) in
  if points_eqb (points D1) (points D2) then uf_merge uf (snd ij) (fst ij) else Ok uf.
Definition index_pairs (n : nat) : list (nat * nat) :=
  flat_map (fun i => map (fun j => (i, j)) (seq (i + 1) (n - (i + 1)))) (seq 0 n).
(** 279-296: classes with more than one member *)
Definition class_step (order : list nat -> list nat) (st : parents * list (list nat)) (root : nat) : outcome (parents * list (list nat)) :=
  let* (uf, indices) := uf_get order (fst st) root in
  Ok (uf, if 1 <? length indices then snd st ++ [indices] else snd st).
(** 253-297: the number of different diagrams and the lines of the file of classes *)
Definition diagram_classes (order : list nat -> list nat) (ds : list diagram) : outcome (nat * list (list nat)) :=
  let n := length ds in
  let* uf := foldM (compare_step ds) (index_pairs n) (uf_init (seq 0 n)) in
  let* (uf, roots) := uf_roots order uf in
  let* (_, classes) := foldM (class_step order) roots (uf, []) in
  Ok (length roots, classes).
