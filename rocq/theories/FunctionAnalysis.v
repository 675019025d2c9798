(** * Model of [src/tools/function_analysis.cc].

    Data ([double]) are [Z] up to the diagram and real numbers of the standard library from the
    normalization on; [inf] is the infinite value, [big] and [lowest] are the limits of the type.  The
    values of a line are given; texts of the output are not modelled. *)
From Coq Require Import Reals List Arith Bool ZArith.
From Verif Require Import Base Simplex Complex Matrix Diagram Function.
Import ListNotations.

(** function_analysis.cc 114-145: the complex of one line, in filtration order *)
Definition analysis_complex (sublevel : bool) (values : list Z) : complex :=
  if sublevel then k_sort data_cmp (functionComplex Z.max values)
  else k_sort data_cmp_greater (functionComplex Z.min values).

(** function_analysis.cc 74-88 *)
Definition minmaxData (big lowest : Z) (K : complex) : Z * Z :=
  fold_left (fun st s => (Z.min (fst st) (data s), Z.max (snd st) (data s))) (by_index K) (big, lowest).

(** function_analysis.cc 280-298 *)
Definition close_infinite (inf y : Z) (p : point) : point :=
  if (snd p =? inf)%Z then (fst p, y) else p.

(** function_analysis.cc 265-301: the points of the diagram before normalization; the defaults of the
    calculation dualize and do not include all unpaired creators *)
Definition analysis_diagram (inf big lowest : Z) (order : list nat -> list nat) (a : algorithm) (sublevel : bool)
  (K : complex) : outcome (list point) :=
  let* ds := calculatePersistenceDiagrams inf order a K true false in
  let minmax := minmaxData big lowest K in
  match ds with
  | [D] =>
      if (d_betti inf D =? 1)%nat then
        Ok (map (close_infinite inf (if sublevel then snd minmax else fst minmax)) (points D))
      else Throw RuntimeError
  | _ => Throw RuntimeError
  end.

Local Open Scope R_scope.

(** function_analysis.cc 303-318 *)
Definition analysis_points (normalize : bool) (minmax : Z * Z) (D : list point) : list (R * R) :=
  if normalize && negb (fst minmax =? snd minmax)%Z then
    let range := IZR (snd minmax) - IZR (fst minmax) in
    map (fun p => ((IZR (fst p) - IZR (fst minmax)) / range, (IZR (snd p) - IZR (fst minmax)) / range)) D
  else map (fun p => (IZR (fst p), IZR (snd p))) D.

(** function_analysis.cc 46-69.  [accumulate_kahan_sorted] is the sum, [std::pow] with exponents 2 and
    1/2 is the square and the square root (Norms.hh 28-57); the smallest element of no values is
    undefined. *)
Definition condensePersistenceDiagram (D : list (R * R)) : outcome (list R) :=
  match map (fun p => snd p - fst p) D with
  | [] => UB
  | h :: t =>
      Ok [fold_left Rmin t h; fold_left Rmax t h;
          fold_right Rplus 0 (h :: t) / INR (length D);
          sqrt (fold_right Rplus 0 (map (fun x => Rabs x * Rabs x) (h :: t)))]
  end.

(** function_analysis.cc 263-330: the points that are written for one line *)
Definition analysis (inf big lowest : Z) (order : list nat -> list nat) (a : algorithm) (sublevel normalize : bool)
  (values : list Z) : outcome (list (R * R)) :=
  let K := analysis_complex sublevel values in
  let* D := analysis_diagram inf big lowest order a sublevel K in
  Ok (analysis_points normalize (minmaxData big lowest K) D).
