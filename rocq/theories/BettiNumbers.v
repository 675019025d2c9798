(** * Model of [src/tools/betti_numbers.cc].

    The graphs are those that the reader returns (Gml.v).  Numbers of diagrams and of unpaired points are below 2^32.
    Names of files are lists of characters; the output is given by its pairs of numbers. *)
From Coq Require Import String Ascii List Arith NArith Bool ZArith.
From Verif Require Import Base LoadMatrix StringUtilities Pajek Filesystem Simplex Complex Matrix Diagram.
Import ListNotations.
Local Open Scope list_scope.

(** betti_numbers.cc 80-83 with [std::regex_match]: no digits, a number, and anything but ends of lines *)
Definition reDataSetSuffix (name : str) : option str :=
  let (_, rest) := span (fun c => negb (isdigit c)) name in
  let (digits, tail) := span isdigit rest in
  match digits with
  | [] => None
  | _ => if forallb anychar tail then Some digits else None
  end.

(** [std::map<unsigned, unsigned>]: assignment *)
Fixpoint assign_id (m : list (N * nat)) (id : N) (b : nat) : list (N * nat) :=
  match m with
  | [] => [(id, b)]
  | (k, c) :: t => if (k =? id)%N then (id, b) :: t
                   else if (id <? k)%N then (id, b) :: m
                   else (k, c) :: assign_id t id b
  end.

(** betti_numbers.cc 56-94: one file *)
Definition betti_step (inf : Z) (order : list nat -> list nat) (a : algorithm) (m : list (N * nat)) (file : str * complex)
  : outcome (list (N * nat)) :=
  let K := k_sort_default (snd file) in
  let* ds := calculatePersistenceDiagrams inf order a K true true in
  match reDataSetSuffix (basename (fst file)) with
  | Some digits =>
      let* v := stoul digits in
      let id := (v mod 2 ^ 32)%N in
      if (2 <=? length ds)%nat then
        let* D := get_ ds 1 in Ok (assign_id m id (d_betti inf D))
      else Ok (assign_id m id 0)
  | None => Throw RuntimeError
  end.

(** betti_numbers.cc 50-103 *)
Definition betti_numbers (inf : Z) (order : list nat -> list nat) (a : algorithm) (files : list (str * complex))
  : outcome (list (N * nat)) :=
  foldM (betti_step inf order a) files [].
