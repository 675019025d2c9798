(** * Model of [src/tools/persistent_spines.cc] and of the text that simplices and complexes are written as.

    The points are given by their coordinates (integers).  As in C70, the squared radius of the smallest ball around
    points and the conversion of such radii to weights are parameters (Miniball.hpp is not modelled); [pick] stands for
    the order of hash containers (see Spine.v).  Messages on [std::cerr] are left out. *)
From Coq Require Import String Ascii.
From Coq Require Import List Arith Bool ZArith.
From Verif Require Import Base LoadMatrix StringUtilities Simplex Complex PropertiesString DiagramIO Tikz Dowker Spine.
Import ListNotations.
Local Open Scope list_scope.
Local Open Scope nat_scope.

(** Simplex.hh 467-473 *)
Fixpoint print_vertices (first : bool) (vs : list nat) : str :=
  match vs with
  | [] => []
  | v :: t => (if first then [] else chars " ") ++ print_nat v ++ print_vertices false t
  end.
(** Simplex.hh 461-481 *)
Definition print_simplex (s : simplex) : str :=
  chars "{" ++ print_vertices true (verts s) ++
  (if negb (data s =? 0)%Z then chars " (" ++ print_Z (data s) ++ chars ")" else []) ++ chars "}".
(** SimplicialComplex.hh 765 and 770 *)
Definition dashes : str := repeat "-"%char 80 ++ [newline].
(** SimplicialComplex.hh 759-773 *)
Definition print_complex (K : complex) : str :=
  match by_index K with
  | [] => []
  | _ => dashes ++ flat_map (fun s => print_simplex s ++ [newline]) (by_index K) ++ dashes
  end.

(** persistent_spines.cc 37-39: method, radius, output as a picture *)
Record spine_options := SpineOptions { so_method : str; so_radius : Z; so_tikz : bool }.
Definition spine_defaults : spine_options := SpineOptions (chars "dumb") 0 false.

(** persistent_spines.cc 120-125 *)
Definition preamble : str :=
  chars "\documentclass{standalone}" ++ [newline] ++ chars "\usepackage{tikz}" ++ [newline] ++
  chars "\definecolor{cb-1}{RGB}{ 27,158,119}" ++ [newline] ++ chars "\definecolor{cb-2}{RGB}{217, 95,  2}" ++ [newline] ++
  chars "\definecolor{cb-3}{RGB}{117,112,179}" ++ [newline] ++ chars "\begin{document}" ++ [newline].
(** persistent_spines.cc 127-136 *)
Definition complex_settings (radius : Z) : tikz_settings :=
  let d := tikz_defaults in
  TikZ true (t_ballOpacity d) (print_Z radius) (t_ballColour d) (t_showVertexLabels d) (t_labelPosition d) (t_pointColour d) (t_pointSizeUnit d) (chars "1.5")
    (t_lineColour d) (t_lineWidthUnit d) (t_lineWidth d) true (chars "cb-1") (chars "0.4").
(** persistent_spines.cc 144-146 *)
Definition spine_settings (radius : Z) : tikz_settings :=
  let d := complex_settings radius in
  TikZ false (t_ballOpacity d) (t_ballRadius d) (t_ballColour d) (t_showVertexLabels d) (t_labelPosition d) (chars "cb-2") (t_pointSizeUnit d) (t_pointSize d)
    (chars "cb-2") (t_lineWidthUnit d) (t_lineWidth d) (t_showTriangles d) (t_triangleColour d) (t_triangleOpacity d).

Section Tool.
  Variables (radius2 : list nat -> Z) (diameter : Z -> Z) (pick : nat -> nat).

  (** persistent_spines.cc 105-111 *)
  Definition spine_by (method : str) (K : complex) : outcome complex :=
    if str_eqb method (chars "dumb") then dumb_spine pick K else spine pick K.
  (** persistent_spines.cc 118-159 *)
  Definition spine_output (o : spine_options) (points : list (list Z)) (K L : complex) : outcome str :=
    if so_tikz o then
      let* first := writeTikZ print_Z (complex_settings (so_radius o)) K points in
      let* second := writeTikZ print_Z (spine_settings (so_radius o)) L points in
      Ok (preamble ++ first ++ [newline; newline] ++ second ++ chars "\end{document}" ++ [newline])
    else Ok (print_complex K ++ [newline; newline] ++ print_complex L ++ [newline]).
  (** persistent_spines.cc 35-160, for a point cloud that has been loaded *)
  Definition persistent_spines (o : spine_options) (points : list (list Z)) : outcome str :=
    let* K := buildCechComplex radius2 diameter (length points) (so_radius o) in
    let* L := spine_by (so_method o) K in
    spine_output o points K L.
End Tool.
