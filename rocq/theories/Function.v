(** * Model of [topology/io/Function.hh].

    Reading numbers from a stream is not modelled: a file is the sequence of
    the values read from it. *)

From Coq Require Import List Arith Bool ZArith.
From Verif Require Import Base Simplex Matrix Complex UnionFind.
Import ListNotations.

(** Function.hh 55-66: the weight of vertex [i] or edge [i - n] *)
Definition fun_weight (values : list Z) (i : nat) : outcome Z :=
  if i <? length values then at_ values i
  else let* l := at_ values (i - length values) in
       let* r := at_ values (i - length values + 1) in
       Ok (Z.max l r).

(** the same as a function, for use in the comparison below *)
Definition weight_value (values : list Z) (i : nat) : Z :=
  match fun_weight values i with Ok z => z | _ => 0%Z end.

(** Function.hh 81-101: one column.  [vertexIndexMap] is a map from vertices to
    positions. *)
Definition function_column (n : nat) (st : matrix * parents) (jx : nat * nat) : outcome (matrix * parents) :=
  let '(j, index) := jx in
  if index <? n then
    let* M := clearColumn (fst st) j in
    Ok (M, set_parent (snd st) index j)
  else
    let k := index - n in
    let* a := match parent_of (snd st) k with Some a => Ok a | None => Throw OutOfRange end in
    let* b := match parent_of (snd st) (k + 1) with Some b => Ok b | None => Throw OutOfRange end in
    let* M := setColumn (fst st) j [a; b] in
    Ok (M, snd st).

(** Function.hh 106-113 *)
Definition push_max (values : list Z) (i : nat) : outcome (list Z) :=
  let* w1 := at_ values i in
  let* w2 := at_ values (i + 1) in
  Ok (values ++ [Z.max w1 w2]).

(** Function.hh 26-125, from line 47 on.  The comparison of [std::stable_sort]
    evaluates weights of arbitrary indices; that none of these evaluations throws
    is checked first. *)
Definition loadFunction (M : matrix) (values : list Z) : outcome (matrix * list Z) :=
  match values with
  | [] => Throw RuntimeError
  | _ =>
      let n := length values in
      let indices := seq 0 (2 * n - 1) in
      let* _ := foldM (fun _ i => let* _ := fun_weight values i in Ok tt) indices tt in
      let sorted := cpp_sort (fun i j => (weight_value values i <? weight_value values j)%Z) indices in
      let* st := foldM (function_column n) (combine (seq 0 (length sorted)) sorted)
                       (setNumColumns M (length sorted), []) in
      let* ext := foldM push_max (seq 0 (n - 1)) values in
      let* new := foldM (fun acc i => let* w := at_ ext i in Ok (acc ++ [w])) sorted [] in
      Ok (fst st, new)
  end.

(** Function.hh 133-172: conversion to a complex; [f] is the functor.  The
    vertices are numbered from 0. *)
Fixpoint function_vertices (vertex : nat) (values : list Z) (K : complex) : complex :=
  match values with
  | [] => K
  | x :: t => function_vertices (S vertex) t (fst (k_push_back K (simplex_vertex vertex x)))
  end.
Fixpoint function_edges (f : Z -> Z -> Z) (vertex : nat) (values : list Z) (K : complex) : complex :=
  match values with
  | a :: ((b :: _) as t) =>
      function_edges f (S vertex) t (fst (k_push_back K (simplex_of [vertex; vertex + 1] (f a b))))
  | _ => K
  end.
Definition functionComplex (f : Z -> Z -> Z) (values : list Z) : complex :=
  function_edges f 0 values (function_vertices 0 values k_empty).

(** Function.hh 188-252: one complex per line *)
Definition loadFunctions (f : Z -> Z -> Z) (lines : list (list Z)) : list complex :=
  map (functionComplex f) lines.
