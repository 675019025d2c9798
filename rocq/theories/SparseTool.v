(** * Model of [src/tools/sparse_adjacency_matrices.cc].

    The graphs are those that the reader returns (SparseAdjacency.v).  Data are integers; what normalization
    calculates is given by rational numbers.  Centralities are rational numbers, [None] is an infinite value.  Sums are
    exact.  The factor for unpaired points is an integer.  File names, the output of graphs, and labels are not
    modelled: a file with persistence diagrams is given by the index of its graph and a dimension. *)
From Coq Require Import List Arith Bool ZArith QArith.
From Verif Require Import Base Simplex Complex Subcomplex Rips SymmetricMatrix FloydWarshall Matrix Diagram.
Import ListNotations.
Local Open Scope nat_scope.

(** ** Centrality *)
(** sparse_adjacency_matrices.cc 58-61: the sum of the finite entries of a row *)
Definition row_sum (M : symmetric ext) (n i : nat) : outcome Z :=
  foldM (fun s j => let* e := sm_get M i j in Ok (match e with Fin x => (s + x)%Z | Inf => s end)) (seq 0 n) 0%Z.
(** sparse_adjacency_matrices.cc 63: the number of rows is positive here *)
Definition centrality (n : nat) (s : Z) : option Q :=
  if (s =? 0)%Z then None else Some (inject_Z (Z.of_nat n) / inject_Z s)%Q.
(** sparse_adjacency_matrices.cc 48-67 *)
Definition closenessCentrality (K : complex) : outcome (list (option Q)) :=
  let* M := floydWarshall K 1 in
  let n := sm_rows M in
  foldM (fun r i => let* s := row_sum M n i in Ok (r ++ [centrality n s])) (seq 0 n) [].
(** sparse_adjacency_matrices.cc 205-226: the values that are stored for a graph, and the graph, which is sorted *)
Definition store_centrality (K : complex) : outcome (complex * list (option Q)) :=
  let K := k_sort_default K in
  let* cc := closenessCentrality K in
  Ok (K, cc).

(** ** Filtrations *)
Section Filtrations.
Variable order : list nat -> list nat.
Variables lowest highest : Z.

(** sparse_adjacency_matrices.cc 232-240: the expanded complexes are not assigned *)
Definition expand (dimension : nat) (Ks : list complex) : outcome (list complex) :=
  if dimension =? 0 then Ok Ks
  else foldM (fun Ls K => let* _ := ripsExpander order K dimension in Ok (Ls ++ [K])) Ks [].

(** sparse_adjacency_matrices.cc 242-247 *)
Definition maximum_dimension (Ks : list complex) : outcome nat :=
  foldM (fun m K => let* d := k_dimension K in Ok (Nat.max d m)) Ks 0.

(** sparse_adjacency_matrices.cc 257-269 *)
Definition graph_degrees (K : complex) : list Z := map Z.of_nat (degrees K).
Definition update_maximum (m : Z) (ds : list Z) : Z :=
  match ds with [] => m | d :: ds => Z.max m (fold_left Z.max ds d) end.
(** sparse_adjacency_matrices.cc 285-308 *)
Definition assign_degrees (sum superlevel : bool) (K : complex) (ds : list Z) : outcome complex :=
  if sum then assignData K ds 0 Z.add
  else if superlevel then assignData K ds highest Z.min
  else assignMaximumData lowest K ds.
(** sparse_adjacency_matrices.cc 310-319: the function object is [std::less] in both cases *)
Definition sort_degrees (superlevel : bool) (K : complex) : complex :=
  if superlevel then k_sort data_cmp K else k_sort data_cmp K.
(** sparse_adjacency_matrices.cc 255-320 without normalization: the maximum degree and the complexes *)
Definition degree_step (sum superlevel : bool) (st : Z * list complex) (K : complex) : outcome (Z * list complex) :=
  let ds := graph_degrees K in
  let* L := assign_degrees sum superlevel K ds in
  Ok (update_maximum (fst st) ds, snd st ++ [sort_degrees superlevel L]).
Definition degree_filtrations (sum superlevel : bool) (Ks : list complex) : outcome (Z * list complex) :=
  foldM (degree_step sum superlevel) Ks (0%Z, []).
End Filtrations.

(** ** Normalization *)
(** sparse_adjacency_matrices.cc 262-283: the maximum degree and the values of a graph; quotients by zero are [None] *)
Definition q_max (a b : Q) : Q := if Qle_bool a b then b else a.
Definition q_update (m : Q) (ds : list nat) : Q :=
  match map (fun d => inject_Z (Z.of_nat d)) ds with [] => m | d :: ds => q_max m (fold_left q_max ds d) end.
Definition quotient (d : nat) (m : Q) : option Q :=
  if Qeq_bool m 0 then None else Some (inject_Z (Z.of_nat d) / m)%Q.
Definition normalise_step (st : Q * list (list (option Q))) (K : complex) : Q * list (list (option Q)) :=
  let ds := degrees K in
  let m := q_update (fst st) ds in
  (1%Q, snd st ++ [map (fun d => quotient d m) ds]).
Definition normalised_degrees (Ks : list complex) : Q * list (list (option Q)) := fold_left normalise_step Ks (0%Q, []).

(** ** Persistence diagrams *)
(** files of a graph *)
Definition files := nat -> option (list point).
Definition write (d : nat) (x : list point) (f : files) : files := fun e => if e =? d then Some x else f e.
(** sparse_adjacency_matrices.cc 386-392 *)
Definition diagram_lines (inf factor maxDegree : Z) (D : diagram) : list point :=
  map (fun p => if isUnpaired inf p then (fst p, factor * maxDegree)%Z else p) (points (removeDiagonal D)).
(** sparse_adjacency_matrices.cc 355-393 *)
Definition graph_files (inf : Z) (horder : list nat -> list nat) (a : algorithm) (factor maxDegree : Z) (maxDimension : nat) (K : complex) : outcome files :=
  let* ds := calculatePersistenceDiagrams inf horder a K true true in
  let f := fold_left (fun f d => write d [] f) (seq 0 (maxDimension + 1)) (fun _ => None) in
  Ok (fold_left (fun f D => write (dgm_dim D) (diagram_lines inf factor maxDegree D) f) ds f).

(** sparse_adjacency_matrices.cc 228-397, without normalization *)
Definition degree_diagrams (order : list nat -> list nat) (lowest highest inf : Z) (horder : list nat -> list nat) (a : algorithm)
  (dimension : nat) (sum superlevel : bool) (factor : Z) (Ks : list complex) : outcome (list files) :=
  let* Ks := expand order dimension Ks in
  let* maxDimension := maximum_dimension Ks in
  let* (maxDegree, Ls) := degree_filtrations lowest highest sum superlevel Ks in
  foldM (fun r K => let* f := graph_files inf horder a factor maxDegree maxDimension K in Ok (r ++ [f])) Ls [].
