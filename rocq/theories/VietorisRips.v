(** * Model of [geometry/BruteForce.hh], [geometry/RipsSkeleton.hh] and
      [geometry/VietorisRipsComplex.hh].

    A container with [n] points is represented by the function [dist] with the
    value [dist i j] of the distance functor for the points [i] and [j], after
    the conversion [_traits.from] (see [Distances.v] for the functors). *)

From Coq Require Import List Arith Bool ZArith.
From Verif Require Import Base Simplex Complex Quotient Subcomplex Rips.
Import ListNotations.

(** BruteForce.hh 38-70: [indices] and [distances] after [radiusSearch] *)
Definition radius_row (n : nat) (dist : nat -> nat -> Z) (radius : Z) (i : nat) : list nat * list Z :=
  fold_left (fun r j =>
    if (dist i j <? radius)%Z then (fst r ++ [j], snd r ++ [dist i j]) else r) (seq 0 n) ([], []).
Definition radiusSearch (n : nat) (dist : nat -> nat -> Z) (radius : Z) : list (list nat) * list (list Z) :=
  (map (fun i => fst (radius_row n dist radius i)) (seq 0 n), map (fun i => snd (radius_row n dist radius i)) (seq 0 n)).

(** BruteForce.hh 72-115.  The comparison reads [distances[i][k]], which exists
    for all indices; [begin() + k] is undefined beyond the end. *)
Definition neighbour_row (n : nat) (dist : nat -> nat -> Z) (k i : nat) : outcome (list nat * list Z) :=
  let indices := seq 0 n in
  let distances := map (dist i) (seq 0 n) in
  let indices := cpp_sort (fun a b => (nth a distances 0 <? nth b distances 0)%Z) indices in
  let distances := cpp_sort Z.ltb distances in
  if n <? k then UB else Ok (firstn k indices, firstn k distances).
Definition neighbourSearch (n : nat) (dist : nat -> nat -> Z) (k : nat) : outcome (list (list nat) * list (list Z)) :=
  foldM (fun acc i => let* r := neighbour_row n dist k i in Ok (fst acc ++ [fst r], snd acc ++ [snd r])) (seq 0 n) ([], []).

(** RipsSkeleton.hh 24-56 for [numVertices] points and the result of [radiusSearch];
    [distances[i][j]] is unchecked. *)
Definition skeleton_row (distances : list (list Z)) (i : nat) (row : list nat) (acc : list simplex) : outcome (list simplex) :=
  foldM (fun acc j =>
    let* v := get_ row j in
    let* ds := get_ distances i in
    let* d := get_ ds j in
    Ok (if i <? v then acc ++ [simplex_of [i; v] d] else acc)) (seq 0 (length row)) acc.
Definition ripsSkeleton (numVertices : nat) (indices : list (list nat)) (distances : list (list Z)) : outcome complex :=
  let vertices := map (fun i => simplex_vertex i 0) (seq 0 numVertices) in
  let* simplices := foldM (fun acc i => let* row := get_ indices i in skeleton_row distances i row acc)
                          (seq 0 (length indices)) vertices in
  insert_into k_empty simplices.

Section Orders.
Variable order : list nat -> list nat.

(** VietorisRipsComplex.hh 34-57, with [BruteForce] *)
Definition buildVietorisRipsComplex (n : nat) (dist : nat -> nat -> Z) (epsilon : Z) (dimension : nat) : outcome complex :=
  let r := radiusSearch n dist epsilon in
  let* skeleton := ripsSkeleton n (fst r) (snd r) in
  let* K := ripsExpander order skeleton dimension in
  Ok (k_sort data_cmp (assignMaximumWeight K 1)).

(** VietorisRipsComplex.hh 68-96 *)
Definition buildVietorisRipsComplex_values (n : nat) (dist : nat -> nat -> Z) (epsilon : Z) (dimension : nat) (lowest : Z) (values : list Z) : outcome complex :=
  let r := radiusSearch n dist epsilon in
  let* skeleton := ripsSkeleton n (fst r) (snd r) in
  let* K := ripsExpander order skeleton dimension in
  let* K := assignMaximumData lowest K values in
  Ok (k_sort data_cmp K).
End Orders.
