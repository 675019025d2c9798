(** * Model of [topology/io/FlexSpectrum.hh].

    Numbers are rational.  A simplex is the list of its vertices in descending order with its data.  The
    extraction of the two numbers of a line is a parameter.  The two maps have the keys 0, 1, ..., and are
    modelled by the lists of their values; they are members of the reader and survive a call. *)
From Coq Require Import Ascii List Arith Bool QArith.
From Verif Require Import Base LoadMatrix StringUtilities Simplex.
Import ListNotations.
Local Open Scope list_scope.
Local Open Scope nat_scope.

Definition qsimplex : Type := list nat * Q.
Definition Qltb (x y : Q) : bool := negb (Qle_bool y x).

(** filtrations/Data.hh 21-37 with [Compare = std::greater] *)
Definition spectrum_cmp (s t : qsimplex) : bool :=
  if Qeq_bool (snd s) (snd t) then
    if length (fst s) =? length (fst t) then lex_ltb (fst s) (fst t) else length (fst s) <? length (fst t)
  else Qltb (snd t) (snd s).

(** members of the reader: FlexSpectrum.hh 138-159 *)
Record spectrum_reader := SpectrumReader { sr_normalize : bool; sr_values : list Q; sr_intensities : list Q }.
(** assignment to the keys 0, 1, ... *)
Definition overwrite {A} (new old : list A) : list A := new ++ skipn (length new) old.

(** FlexSpectrum.hh 55 *)
Definition is_data (line : str) : bool := match line with [] => false | c :: _ => match digit c with Some _ => true | None => false end end.
(** [std::min] *)
Definition qmin (a b : Q) : Q := if Qltb b a then b else a.

(** FlexSpectrum.hh 27-114 *)
Definition readSpectrum (parse : str -> Q * Q) (r : spectrum_reader) (text : str) : list qsimplex * spectrum_reader :=
  (* 50-73 *)
  let points := map parse (filter is_data (getlines [] text)) in
  let intensities := map snd points in
  let r1 := SpectrumReader (sr_normalize r) (overwrite (map fst points) (sr_values r)) (overwrite intensities (sr_intensities r)) in
  let vertices := map (fun i => ([i], nth i intensities 0%Q)) (seq 0 (length points)) in
  (* 77-81 *)
  if length points <=? 1 then (vertices, r1)
  else
    (* 88-95 *)
    let edges := map (fun i => ([S i; i], qmin (nth i intensities 0%Q) (nth (S i) intensities 0%Q))) (seq 0 (length points - 1)) in
    let simplices := vertices ++ edges in
    (* 97-107 *)
    let '(simplices, r2) :=
      if sr_normalize r then
        let total := fold_left Qplus intensities 0%Q in
        (map (fun s => (fst s, (snd s / total)%Q)) simplices,
         SpectrumReader (sr_normalize r) (sr_values r1) (map (fun y => (y / total)%Q) (sr_intensities r1)))
      else (simplices, r1) in
    (* 109-113 *)
    (cpp_sort spectrum_cmp simplices, r2).
