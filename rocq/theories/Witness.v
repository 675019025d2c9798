(** * Model of [geometry/WitnessComplex.hh].

    A container with [N] points of dimension [dim] is represented by the function
    [dist] with the value [dist a b] of the distance functor for the points [a] and
    [b], for [buildWitnessComplex] after the conversion [traits.from].  Points that
    do not exist are read outside of the container.  [std::nth_element] and the
    results of the random number generator are parameters. *)

From Coq Require Import List Arith Bool ZArith.
From Verif Require Import Base Simplex Complex Quotient Subcomplex Rips.
Import ListNotations.

Section Witness.
Variables (dist : nat -> nat -> Z) (N : nat).

(** WitnessComplex.hh 129-150: the distances of point [j] to the landmarks *)
Definition landmark_row (landmarks : list nat) (j : nat) : outcome (list Z) :=
  foldM (fun row i => if i <? N then Ok (row ++ [dist i j]) else UB) landmarks [].
Definition landmark_matrix (landmarks : list nat) : outcome (list (list Z)) :=
  foldM (fun D j => let* row := landmark_row landmarks j in Ok (D ++ [row])) (seq 0 N) [].

(** WitnessComplex.hh 156-167: [begin() + nu - 1] may be the end, in which case
    [nth_element] has no effect and [at] throws; it is undefined beyond the end. *)
Definition column_smallest (nth_element : list Z -> nat -> list Z) (nu : nat) (column : list Z) : outcome Z :=
  if length column <? nu - 1 then UB
  else at_ (if nu - 1 <? length column then nth_element column (nu - 1) else column) (nu - 1).
Definition smallest_of (nth_element : list Z -> nat -> list Z) (nu : nat) (D : list (list Z)) : outcome (list Z) :=
  if nu =? 0 then Ok (repeat 0%Z N)
  else foldM (fun acc col => let* column := get_ D col in
                             let* x := column_smallest nth_element nu column in Ok (acc ++ [x])) (seq 0 N) [].

(** WitnessComplex.hh 184-190: the smallest value over all witnesses; [max] is the
    largest number of the data type. *)
Definition edge_time (max : Z) (R : Z) (D : list (list Z)) (smallest : list Z) (i j : nat) : outcome Z :=
  foldM (fun m k =>
    let* row := get_ D k in
    let* a := get_ row i in
    let* b := get_ row j in
    let* s := at_ smallest k in
    Ok (if (Z.max a b <=? R + s)%Z then Z.min m (Z.max a b) else m)) (seq 0 N) max.

(** WitnessComplex.hh 174-200 (the matrix [M] is not used) *)
Definition witness_simplices (max R : Z) (D : list (list Z)) (smallest : list Z) (n : nat) : outcome (list simplex) :=
  foldM (fun acc i =>
    foldM (fun acc j =>
      let* m := edge_time max R D smallest i j in
      Ok (if (m =? max)%Z then acc else acc ++ [simplex_of [i; j] m]))
    (seq (S i) (n - S i)) (acc ++ [simplex_vertex i 0])) (seq 0 n) [].

(** WitnessComplex.hh 92-210 *)
Definition buildWitnessComplex (order : list nat -> list nat) (nth_element : list Z -> nat -> list Z) (max : Z)
  (dim : nat) (landmarks : list nat) (dimension nu : nat) (R : Z) : outcome complex :=
  let n := length landmarks in
  if (n =? 0) || (N =? 0) then Ok k_empty
  else
    let* D := landmark_matrix landmarks in
    let* smallest := smallest_of nth_element nu D in
    let* simplices := witness_simplices max R D smallest n in
    let* K := insert_into k_empty simplices in
    let* L := ripsExpander order K (if dimension =? 0 then dim + 1 else dimension) in
    Ok (k_sort data_cmp (assignMaximumWeight L 1)).

(** WitnessComplex.hh 223-235; [shuffled] is the result of [std::shuffle]. *)
Definition generateRandomLandmarks (shuffled : list nat) (k : nat) : outcome (list nat) :=
  if length shuffled <? k then UB else Ok (firstn k shuffled).

(** WitnessComplex.hh 278-296: the search for the next landmark; [lowest] and
    [max] are the limits of the data type. *)
Definition nearest_landmark (max : Z) (indices : list nat) (i : nat) : Z :=
  fold_left (fun m l => Z.min m (dist i l)) indices max.
Definition next_landmark (lowest max : Z) (indices : list nat) : nat :=
  snd (fold_left (fun r i => let m := nearest_landmark max indices i in
                             if (fst r <? m)%Z then (m, i) else r) (seq 0 N) (lowest, 0)).
(** the loop [while( indices.size() < n )] adds one landmark per iteration *)
Fixpoint add_landmarks (lowest max : Z) (count : nat) (indices : list nat) : list nat :=
  match count with
  | 0 => indices
  | S count => add_landmarks lowest max count (indices ++ [next_landmark lowest max indices])
  end.
(** WitnessComplex.hh 251-302; [first] is the result of the distribution on the
    numbers from 0 to [container.size() - 1], that is, all numbers of the type if
    the container is empty. *)
Definition generateMaxMinLandmarks (lowest max : Z) (first n : nat) : outcome (list nat) :=
  if N <? n then Throw OutOfRange
  else Ok (add_landmarks lowest max (n - 1) [first]).
End Witness.
