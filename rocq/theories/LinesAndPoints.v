(** * Model of [topology/io/LinesAndPoints.hh].

    The output is a list of characters.  [show] is the text that [operator<<] writes for a coordinate;
    the container is a vector of vectors of coordinates. *)
From Coq Require Import Ascii List Arith Bool ZArith.
From Verif Require Import Base LoadMatrix StringUtilities Simplex Complex DiagramIO.
Import ListNotations.
Local Open Scope list_scope.

Section Writer.
Context {V : Type}.
Variable show : V -> str.

Definition blank : ascii := " "%char.

(** LinesAndPoints.hh 114-125 *)
Definition lp_write (p : list V) (label : str) : outcome str :=
  let* x := get_ p 0 in
  let* y := get_ p 1 in
  let* z := if 3 <=? length p then (let* z := get_ p 2 in Ok (blank :: show z)) else Ok [] in
  Ok (show x ++ [tab] ++ show y ++ z ++ match label with [] => [] | _ => blank :: label end ++ [newline]).

(** LinesAndPoints.hh 65-77 *)
Definition lp_vertex (labels : bool) (container : list (list V)) (out : str) (s : simplex) : outcome str :=
  let* d := s_dimension s in
  if negb (d =? 0) then Ok out
  else
    let* u := s_nth s 0 in
    let* p := get_ container u in
    if 2 <=? length p then let* t := lp_write p (if labels then print_nat u else []) in Ok (out ++ t)
    else Throw RuntimeError.
(** LinesAndPoints.hh 81-100 *)
Definition lp_edge (container : list (list V)) (out : str) (s : simplex) : outcome str :=
  let* d := s_dimension s in
  if negb (d =? 1) then Ok out
  else
    let* u := s_nth s 0 in
    let* v := s_nth s 1 in
    let* p := get_ container u in
    let* q := get_ container v in
    if (2 <=? length p) && (2 <=? length q) then
      let* t := lp_write p [] in
      let* t' := lp_write q [] in
      Ok (out ++ t ++ t' ++ [newline])
    else Throw RuntimeError.
(** LinesAndPoints.hh 61-101 *)
Definition linesAndPoints (labels : bool) (K : complex) (container : list (list V)) : outcome str :=
  let* out := foldM (lp_vertex labels container) (by_index K) [] in
  foldM (lp_edge container) (by_index K) (out ++ [newline; newline]).
End Writer.
