(** * Model of [topology/RandomGraph.hh].

    [draw k] says whether the [k]-th random number is less than the probability [p]. *)
From Coq Require Import List Arith Bool ZArith.
From Verif Require Import Base Simplex Complex.
Import ListNotations.

(** RandomGraph.hh 25-46.  The state has the number of draws and the simplices. *)
Definition generateErdosRenyiGraph (n : nat) (draw : nat -> bool) : outcome complex :=
  let simplices := map (fun i => simplex_vertex i 0) (seq 0 n) in
  let '(_, simplices) :=
    fold_left (fun st u =>
      fold_left (fun st v =>
        let '(k, simplices) := st in
        (S k, if draw k then simplices ++ [simplex_of [u; v] 0] else simplices)) (seq (u + 1) (n - (u + 1))) st) (seq 0 n) (0, simplices) in
  k_of_range simplices.

(** RandomGraph.hh 71-76: the weight and the number of draws *)
Fixpoint trials (fuel : nat) (draw : nat -> bool) (k w : nat) : outcome (nat * nat) :=
  match fuel with
  | 0 => OutOfFuel
  | S fuel => if draw k then trials fuel draw (S k) (S w) else Ok (S k, w)
  end.

(** RandomGraph.hh 55-88; [fuel] bounds the draws for one edge *)
Definition generateWeightedRandomGraph (fuel n : nat) (draw : nat -> bool) : outcome complex :=
  let simplices := map (fun i => simplex_vertex i 0) (seq 0 n) in
  let* st :=
    foldM (fun st u =>
      foldM (fun st v =>
        let '(k, simplices) := st in
        let* r := trials fuel draw k 0 in
        let '(k, w) := r in
        Ok (k, if negb (w =? 0) then simplices ++ [simplex_of [u; v] (Z.of_nat w)] else simplices)) (seq (u + 1) (n - (u + 1))) st) (seq 0 n) (0, simplices) in
  k_of_range (cpp_sort data_cmp (snd st)).
