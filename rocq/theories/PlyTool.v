(** * examples/ply.cc *)
From Coq Require Import String Ascii.
From Coq Require Import List Arith Bool ZArith.
From Verif Require Import Base Simplex Complex Matrix Diagram LoadMatrix StringUtilities PropertiesString Ply DiagramIO ImageTool.
Import ListNotations.
Local Open Scope list_scope.

Section Ply.
(** conversions of texts to numbers and the numeric limits, as in Ply.v *)
Variable conv : str -> Z.
Variable stod : str -> outcome Z.
Variables lowest highest : Z.

(** ply.cc 134-160, PLY.hh 555: reading the mesh; the property is [z] if none is given.  For superlevel sets
    the weights are calculated again, and the complex is sorted. *)
Definition ply_complex (superlevel : bool) (property : str) (text : str) : outcome complex :=
  let* K := readPLY conv stod lowest highest (match property with [] => chars "z" | _ => property end) text in
  Ok (if superlevel then k_sort data_cmp (recalculateWeights lowest highest false false K) else K).
(** 167-176: the diagrams without points on the diagonal; calculatePersistenceDiagrams has its default arguments *)
Definition ply_diagrams (inf : Z) (order : list nat -> list nat) (a : algorithm) (superlevel : bool) (property : str) (text : str) : outcome (list Diagram.diagram) :=
  let* K := ply_complex superlevel property text in
  let* ds := calculatePersistenceDiagrams inf order a K true false in
  Ok (map removeDiagonal ds).
(** 182: two ends of lines after each diagram *)
Definition ply_output (inf : Z) (ds : list Diagram.diagram) : str :=
  flat_map (fun D => print_points (show_value inf) (Dgm (dgm_dim D) (points D)) ++ [newline; newline]) ds.
(** 96-183: what is written to the standard output; the statistics written to the error stream (185-205) are left out *)
Definition ply_example (inf : Z) (order : list nat -> list nat) (a : algorithm) (superlevel : bool) (property : str) (text : str) : outcome str :=
  let* ds := ply_diagrams inf order a superlevel property text in
  Ok (ply_output inf ds).
End Ply.
