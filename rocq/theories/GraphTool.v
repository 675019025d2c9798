(** * Model of [src/tools/graph_analysis.cc].

    The complex is the one that the reader of edge lists returns (ReadEdges.v).  Data are of type [unsigned]: [inf] is the
    value of points that are never destroyed (the maximum of the type), the least value is zero, and products are taken
    modulo [2^32].  File names are not modelled: the file of a diagram is given by its dimension and its lines. *)
From Coq Require Import List Arith Bool ZArith.
From Verif Require Import Base Simplex Complex Subcomplex Rips Matrix Diagram.
Import ListNotations.
Local Open Scope nat_scope.

(** graph_analysis.cc 97-104: the largest degree *)
Definition max_degree (ds : list Z) : Z := match ds with [] => 0%Z | d :: t => fold_left Z.max t d end.

(** graph_analysis.cc 97-116; [dimension] is the optional second argument *)
Definition degree_graph (order : list nat -> list nat) (dimension : option nat) (K : complex) : outcome (Z * complex) :=
  let ds := map Z.of_nat (degrees K) in
  let m := max_degree ds in
  let* K := match dimension with None => Ok K | Some d => ripsExpander order K d end in
  let* K := assignMaximumData 0 K ds in
  Ok (m, K).

(** graph_analysis.cc 126-137 *)
Definition zero_step (L : complex) (i : nat) : outcome complex :=
  let* s := get_ (by_index L) i in
  if sdim s =? 0 then
    let '(L', r) := k_replace L i (set_data s 0%Z) in
    let* success := r in
    if success : bool then Ok L' else Throw RuntimeError
  else Ok L.
Definition zero_vertices (K : complex) : outcome complex := foldM zero_step (seq 0 (length (by_index K))) K.

(** graph_analysis.cc 180-186 *)
Definition graph_line (inf factor m : Z) (p : point) : point :=
  if isUnpaired inf p && (0 <? factor)%Z then (fst p, (factor * m) mod 2 ^ 32)%Z else p.
(** graph_analysis.cc 165-188 *)
Definition graph_file (inf factor m : Z) (D : diagram) : nat * list point :=
  let D := if dgm_dim D =? 0 then removeDiagonal D else D in
  (dgm_dim D, map (graph_line inf factor m) (points D)).

(** graph_analysis.cc 90-191 *)
Definition graph_analysis (order horder : list nat -> list nat) (a : algorithm) (inf factor : Z) (dimension : option nat) (loops zero : bool)
  (K : complex) : outcome (list (nat * list point)) :=
  let* (m, K) := degree_graph order dimension K in
  let* K := if zero then zero_vertices K else Ok K in
  let K := k_sort data_cmp K in
  let* ds := calculatePersistenceDiagrams inf horder a K true loops in
  Ok (map (graph_file inf factor m) ds).
