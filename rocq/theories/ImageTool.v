(** * examples/image_analysis.cc *)
From Coq Require Import String Ascii.
From Coq Require Import List Arith Bool ZArith.
From Verif Require Import Base Simplex Complex Matrix Diagram LoadMatrix StringUtilities PropertiesString ReadMatrices DiagramIO.
Import ListNotations.
Local Open Scope list_scope.

(** image_analysis.cc 55-81: reading the image and sorting its complex; [lo] and [hi] bound the numbers that can be read *)
Definition image_complex (lo hi : Z) (superlevel : bool) (text : str) : outcome complex :=
  if superlevel then let* K := read_matrix lo hi true Z.min text in Ok (k_sort data_cmp_greater K)
  else let* K := read_matrix lo hi true Z.max text in Ok (k_sort data_cmp K).
(** the text of a value; infinity is written as [inf] *)
Definition show_value (inf : Z) (z : Z) : str := if (z =? inf)%Z then chars "inf" else print_Z z.
(** 85-90, PersistenceDiagram.hh 248-254: the points that are not on the diagonal *)
Definition image_output (inf : Z) (ds : list Diagram.diagram) : str :=
  flat_map (fun D => print_points (show_value inf) (Dgm (dgm_dim D) (points (removeDiagonal D))) ++ [newline]) ds.
(** 53-91: the program for the text of a file.  calculatePersistenceDiagrams is called with its default arguments. *)
Definition image_analysis (lo hi inf : Z) (order : list nat -> list nat) (a : algorithm) (superlevel : bool) (text : str) : outcome str :=
  let* K := image_complex lo hi superlevel text in
  let* ds := calculatePersistenceDiagrams inf order a K true false in
  Ok (image_output inf ds).
