(** * Model of [examples/witness_complex.cc].

    As in Witness.v, a point cloud with [N] points of dimension [dim] is represented by the function [dist] with its distances
    after the conversion [traits.from], here the square root; [std::nth_element] and random numbers are parameters.  The
    remaining arguments of the command line (after the options) are texts.  The fraction of the landmarks is a rational
    number. *)
From Coq Require Import String Ascii.
From Coq Require Import List Arith NArith Bool ZArith QArith Qround.
From Verif Require Import Base Simplex Complex Witness Matrix Diagram LoadMatrix StringUtilities ReadMatrices DiagramIO RipsTool.
Import ListNotations.
Local Open Scope list_scope.
Local Open Scope nat_scope.

Section Tool.
  Variable show : coordinate -> str.
  Variables inf lowest max : Z.
  Variables order horder : list nat -> list nat.
  Variable nth_element : list Z -> nat -> list Z.
  Variable a : algorithm.
  (** the first landmark of the max-min strategy, and the shuffled positions of the random strategy *)
  Variable first : nat.
  Variable shuffled : list nat.

  (** witness_complex.cc 122: the conversion of a number that is -1 or less is undefined *)
  Definition numLandmarks (N : nat) (fraction : Q) : outcome nat :=
    let z := (inject_Z (Z.of_nat N) * fraction)%Q in
    if Qle_bool z (-1) then UB else Ok (Z.to_nat (Qfloor z)).
  (** witness_complex.cc 127-149: the max-min strategy uses the functor without the conversion of its traits *)
  Definition select_landmarks (random : bool) (N : nat) (dist : nat -> nat -> Z) (n : nat) : outcome (list nat) :=
    if random then generateRandomLandmarks shuffled n
    else generateMaxMinLandmarks (fun i j => dist i j * dist i j)%Z N lowest max first n.
  (** witness_complex.cc 122-209 for the values of the arguments; calculatePersistenceDiagrams is called with its default
      arguments, and the output is the one of vietoris_rips.cc without its options *)
  Definition witness_run (random : bool) (input : str) (N dim : nat) (dist : nat -> nat -> Z) (fraction : Q) (nu : nat) (R : Z)
    (dimension : nat) : outcome str :=
    let* n := numLandmarks N fraction in
    let* landmarks := select_landmarks random N dist n in
    let* K := buildWitnessComplex dist N order nth_element max dim landmarks dimension nu R in
    let* ds := calculatePersistenceDiagrams inf horder a K true false in
    Ok (rips_output show inf false false false input 0 ds).
  (** witness_complex.cc 109-125: the arguments; the input has been taken from them when they are counted again *)
  Definition witness_main (random : bool) (fraction : Q) (nu : nat) (R : Z) (load : str -> nat * nat * (nat -> nat -> Z))
    (arguments : list str) : outcome (Z * str) :=
    match arguments with
    | [] => Ok ((-1)%Z, [])
    | input :: r =>
        if length arguments <=? 1 then Ok ((-1)%Z, [])
        else
          let '(N, d, dist) := load input in
          let* dimension := match r with
                            | s :: _ :: _ => let* v := stoul s in Ok (N.to_nat (v mod 2 ^ 32))
                            | _ => Ok (d + 1)
                            end in
          let* text := witness_run random input N d dist fraction nu R dimension in
          Ok (0%Z, text)
    end.
End Tool.
