(** * Model of [topology/io/TikZ.hh].

    The output is a list of characters.  [show] is the text that [operator<<] writes for a coordinate, and
    the sizes of the settings are given by their texts; the container is a vector of vectors of coordinates. *)
From Coq Require Import String Ascii List Arith Bool ZArith.
From Verif Require Import Base LoadMatrix StringUtilities Simplex Complex DiagramIO.
Import ListNotations.
Local Open Scope list_scope.
Local Open Scope nat_scope.

(** TikZ.hh 246-268 *)
Record tikz_settings := TikZ {
  t_showBalls : bool; t_ballOpacity : str; t_ballRadius : str; t_ballColour : str;
  t_showVertexLabels : bool; t_labelPosition : str;
  t_pointColour : str; t_pointSizeUnit : str; t_pointSize : str;
  t_lineColour : str; t_lineWidthUnit : str; t_lineWidth : str;
  t_showTriangles : bool; t_triangleColour : str; t_triangleOpacity : str }.
Definition tikz_defaults : tikz_settings :=
  TikZ false (chars "0.1") (chars "0") (chars "black") false (chars "above") (chars "black") (chars "pt") (chars "1")
    (chars "black") (chars "mm") (chars "0.5") false (chars "black") (chars "0.2").

Section Writer.
Context {V : Type}.
Variable show : V -> str.
Variable o : tikz_settings.

(** TikZ.hh 187-209 *)
Definition writePoint (v : nat) (p : list V) : outcome str :=
  let* x := get_ p 0 in
  let* y := get_ p 1 in
  Ok (chars "\coordinate" ++
      (if t_showVertexLabels o then chars "[label=" ++ t_labelPosition o ++ chars ":" ++ print_nat v ++ chars "] " else []) ++
      chars "(" ++ print_nat v ++ chars ") at (" ++ show x ++ chars "," ++ show y ++ chars ");" ++ [newline] ++
      chars "\filldraw[" ++ t_pointColour o ++ chars "]" ++ chars " " ++ chars "(" ++ print_nat v ++ chars ") circle (" ++ t_pointSize o ++ t_pointSizeUnit o ++ chars ");" ++ [newline] ++
      (if t_showBalls o then
         chars "\fill[" ++ t_ballColour o ++ chars "," ++ chars " fill opacity=" ++ t_ballOpacity o ++ chars "]" ++ chars " " ++ chars "(" ++ print_nat v ++ chars ") circle (" ++ t_ballRadius o ++ chars "cm" ++ chars ");" ++ [newline]
       else [])).
(** TikZ.hh 220-226 *)
Definition writeEdge (u v : nat) : str :=
  chars "\draw[" ++ t_lineColour o ++ chars "," ++ chars " line width=" ++ t_lineWidth o ++ t_lineWidthUnit o ++ chars "]" ++ chars " " ++ chars "(" ++ print_nat u ++ chars ") -- (" ++ print_nat v ++ chars ");" ++ [newline].
(** TikZ.hh 238-244 *)
Definition writeTriangle (u v w : nat) : str :=
  chars "\fill[" ++ t_triangleColour o ++ chars "," ++ chars " fill opacity=" ++ t_triangleOpacity o ++ chars "]" ++ chars " " ++ chars "(" ++ print_nat u ++ chars ") -- (" ++ print_nat v ++ chars ") -- (" ++ print_nat w ++ chars ") -- cycle;" ++ [newline].

(** TikZ.hh 60-72 *)
Definition tikz_vertex (container : list (list V)) (out : str) (s : simplex) : outcome str :=
  let* d := s_dimension s in
  if negb (d =? 0) then Ok out
  else
    let* u := s_nth s 0 in
    let* p := get_ container u in
    if 2 <=? length p then let* t := writePoint u p in Ok (out ++ t) else Throw RuntimeError.
(** TikZ.hh 80-90 *)
Definition tikz_triangle (out : str) (s : simplex) : outcome str :=
  let* d := s_dimension s in
  if negb (d =? 2) then Ok out
  else let* u := s_nth s 0 in let* v := s_nth s 1 in let* w := s_nth s 2 in Ok (out ++ writeTriangle u v w).
(** TikZ.hh 97-106 *)
Definition tikz_edge (out : str) (s : simplex) : outcome str :=
  let* d := s_dimension s in
  if negb (d =? 1) then Ok out
  else let* u := s_nth s 0 in let* v := s_nth s 1 in Ok (out ++ writeEdge u v).
(** TikZ.hh 50-109 *)
Definition writeTikZ (K : complex) (container : list (list V)) : outcome str :=
  let* out := foldM (tikz_vertex container) (by_index K) (chars "\begin{tikzpicture}" ++ [newline] ++ chars "% 0-simplices" ++ [newline]) in
  let* out := if t_showTriangles o then foldM tikz_triangle (by_index K) (out ++ chars "% 2-simplices" ++ [newline]) else Ok out in
  let* out := foldM tikz_edge (by_index K) (out ++ chars "% 1-simplices" ++ [newline]) in
  Ok (out ++ chars "\end{tikzpicture}" ++ [newline]).
End Writer.
