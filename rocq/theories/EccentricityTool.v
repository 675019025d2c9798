(** * Model of [examples/vietoris_rips_eccentricity.cc], without FLANN.

    As in RipsTool.v, a point cloud with [n] points is represented by the function [dist] with its distances.  The eccentricities are
    given; the transformed ones are rational numbers, and the complex takes integers ([values]): a common multiple of them. *)
From Coq Require Import String Ascii.
From Coq Require Import List Arith NArith Bool ZArith QArith Qminmax.
From Verif Require Import Base Simplex Complex VietorisRips Matrix Diagram LoadMatrix StringUtilities ReadMatrices DiagramIO RipsTool.
Import ListNotations.
Local Open Scope list_scope.
Local Open Scope nat_scope.

(** vietoris_rips_eccentricity.cc 141-165.  Without points, the iterators at the end are dereferenced.  A quotient with the denominator
    0 is not a number: [None]. *)
Definition transformed (l : list Q) : outcome (list (option Q)) :=
  match l with
  | [] => UB
  | x :: r =>
      let min := fold_left Qmin r x in
      let max := fold_left Qmax r x in
      Ok (map (fun v => if Qeq_bool (max - min) 0 then None else Some ((max - v) / (max - min))%Q) l)
  end.

(** the filtrations: vietoris_rips_eccentricity.cc 117-129, for the arguments after the order *)
Inductive star := NoStar | UpperStar | LowerStar.
Definition star_of (arguments : list str) : star :=
  match arguments with
  | [] => NoStar
  | s :: _ =>
      let argument := trim s in
      if list_eq_dec ascii_dec argument (chars "u") then UpperStar
      else if list_eq_dec ascii_dec argument (chars "U") then UpperStar
      else if list_eq_dec ascii_dec argument (chars "l") then LowerStar
      else if list_eq_dec ascii_dec argument (chars "L") then LowerStar
      else NoStar
  end.

Section Tool.
  Variable show : coordinate -> str.
  Variables inf lowest highest : Z.
  (** vietoris_rips_eccentricity.cc 220-272 *)
  Definition star_filtration (mode : star) (values : list Z) (K : complex) : outcome complex :=
    match mode with
    | NoStar => Ok K
    | UpperStar => sort_upper_star highest values (recalculateWeights lowest highest false false K)
    | LowerStar => sort_lower_star lowest values (recalculateWeights lowest highest true false K)
    end.
  (** vietoris_rips_eccentricity.cc 207-306 *)
  Definition eccentricity_run (order horder : list nat -> list nat) (a : algorithm) (mode : star) (input : str)
    (n : nat) (dist : nat -> nat -> Z) (epsilon : Z) (dimension : nat) (values : list Z) : outcome str :=
    let* K := buildVietorisRipsComplex_values order n dist epsilon dimension lowest values in
    let* K := star_filtration mode values K in
    let* ds := calculatePersistenceDiagrams inf horder a K true false in
    Ok (rips_output show inf false false false input 0%Z ds).
End Tool.
