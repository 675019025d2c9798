(** * examples/vtk.cc *)
From Coq Require Import String Ascii.
From Coq Require Import List Arith Bool ZArith.
From Verif Require Import Base Simplex Complex Matrix Diagram LoadMatrix StringUtilities Vtk DiagramIO ImageTool.
Import ListNotations.
Local Open Scope list_scope.

Section Vtk.
(** conversion of texts to numbers, as in Vtk.v *)
Variable conv : str -> Z.

(** vtk.cc 111-131: the functor for edges, reading the grid and sorting; the complex stays empty if the reader returns early *)
Definition vtk_sorted (superlevel : bool) (text : str) : outcome complex :=
  let* r := readVTK conv (if superlevel then Z.min else Z.max) text in
  let K := match r with Some v => vtk_complex v | None => k_empty end in
  Ok (k_sort (if superlevel then data_cmp_greater else data_cmp) K).
(** 133-144: the diagrams, with the default arguments of calculatePersistenceDiagrams, without points on the diagonal *)
Definition vtk_example (inf : Z) (order : list nat -> list nat) (a : algorithm) (superlevel : bool) (text : str) : outcome str :=
  let* K := vtk_sorted superlevel text in
  let* ds := calculatePersistenceDiagrams inf order a K true false in
  Ok (image_output inf ds).
End Vtk.
