(** * Model of [examples/vietoris_rips.cc], without FLANN.

    As in VietorisRips.v, a point cloud with [n] points is represented by the function [dist] with its distances after the
    conversion [traits.from], here the square root.  Distances and [epsilon] are integers; after the division by the maximum
    distance, values are rational numbers.  The remaining arguments of the command line (after the options) are texts; the
    conversion of [epsilon] is a parameter. *)
From Coq Require Import String Ascii.
From Coq Require Import List Arith NArith Bool ZArith QArith.
From Verif Require Import Base Simplex Complex VietorisRips Matrix Diagram LoadMatrix StringUtilities ReadMatrices DiagramIO.
Import ListNotations.
Local Open Scope list_scope.
Local Open Scope nat_scope.

(** a printed coordinate: [None] is infinity *)
Definition coordinate : Type := option Q.
(** vietoris_rips.cc 201-217.  The functor returns the square of the distance (Euclidean.hh 76-127), and it is called without the
    conversion of its traits. *)
Definition maxDistance (n : nat) (dist : nat -> nat -> Z) : Z :=
  fold_left (fun m i => fold_left (fun m j => Z.max m (dist i j * dist i j)) (seq (i + 1) (n - (i + 1))) m) (seq 0 n) 0%Z.
(** a point without and with normalisation: vietoris_rips.cc 232-244 *)
Definition plain_point (inf : Z) (p : Diagram.point) : coordinate * coordinate :=
  (Some (inject_Z (fst p)), if (snd p =? inf)%Z then None else Some (inject_Z (snd p))).
Definition normalised_point (inf m : Z) (p : Diagram.point) : coordinate * coordinate :=
  (Some (inject_Z (fst p) / inject_Z m)%Q,
   if (snd p =? inf)%Z then Some 1%Q else Some (inject_Z (snd p) / inject_Z m)%Q).

Section Tool.
  Variable show : coordinate -> str.
  Variable inf : Z.
  (** vietoris_rips.cc 255-259 and PersistenceDiagram.hh 248-254 *)
  Definition rips_block (input : str) (dimension : nat) (points : list (coordinate * coordinate)) : str :=
    chars "# Persistence diagram <" ++ input ++ chars ">" ++ [newline] ++
    chars "#" ++ [newline] ++
    chars "# Dimension: " ++ print_nat dimension ++ [newline] ++
    chars "# Entries  : " ++ print_nat (length points) ++ [newline] ++
    print_points show (Dgm dimension points) ++ [newline; newline].
  (** vietoris_rips.cc 221-261: the loop over the diagrams *)
  Definition rips_output (keep normalize tail : bool) (input : str) (m : Z) (ds : list Diagram.diagram) : str :=
    flat_map (fun x : nat * Diagram.diagram =>
      let (i, D) := x in
      let D := if keep then D else removeDiagonal D in
      let points := map (if normalize then normalised_point inf m else plain_point inf) (points D) in
      if (i + 1 =? length ds) || negb tail then rips_block input (dgm_dim D) points else [])
      (combine (seq 0 (length ds)) ds).
  (** vietoris_rips.cc 179-262 for the values of the arguments; calculatePersistenceDiagrams is called with its default
      arguments *)
  Definition rips_run (order horder : list nat -> list nat) (a : algorithm) (keep normalize tail : bool) (input : str)
    (n : nat) (dist : nat -> nat -> Z) (epsilon : Z) (dimension : nat) : outcome str :=
    let* K := buildVietorisRipsComplex order n dist epsilon dimension in
    let* ds := calculatePersistenceDiagrams inf horder a K true false in
    let m := if normalize then maxDistance n dist else 0%Z in
    Ok (rips_output keep normalize tail input m ds).
  (** vietoris_rips.cc 97-141: the arguments.  The result is the exit status and the text on the standard output.  Without a second
      argument, a string is constructed from the null pointer at the end of [argv]. *)
  Definition rips_main (order horder : list nat -> list nat) (a : algorithm) (keep normalize tail : bool)
    (load : str -> nat * nat * (nat -> nat -> Z)) (convert : str -> Z) (arguments : list str) : outcome (Z * str) :=
    match arguments with
    | [] => Ok ((-1)%Z, [])
    | [_] => UB
    | input :: e :: r =>
        let '(n, d, dist) := load input in
        let* dimension := match r with
                          | [] => Ok (d + 1)
                          | s :: _ => let* v := stoul s in Ok (N.to_nat (v mod 2 ^ 32))
                          end in
        let* text := rips_run order horder a keep normalize tail input n dist (convert e) dimension in
        Ok (0%Z, text)
    end.
End Tool.
