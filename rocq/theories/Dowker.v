(** * Model of [geometry/DowkerComplex.hh] and [geometry/CechComplex.hh].

    The data type is [Z], also for the [double] values of the distance matrix;
    the conversions [VertexType(p)] and [static_cast<T>] do not change a value
    and [dimension + 1] does not overflow.  The order in which an
    [unordered_map] is traversed is a parameter. *)

From Coq Require Import List Arith Bool ZArith.
From Verif Require Import Base Simplex Complex Quotient Combine.
Import ListNotations.

(** DowkerComplex.hh 49-54, 56-60: [Pair] and [Vertex] *)
Record dpair := DPair { dp : nat; dq : nat; dw : Z }.
Definition dvertex := (nat * Z)%type.

(** DowkerComplex.hh 115-133: the pairs within the threshold.  The matrix [D] of
    shortest path distances is the result of the boost library
    (lines 81-113), with the largest number for unreachable vertices. *)
Definition admissiblePairs (n : nat) (D : nat -> nat -> Z) (R : Z) : list dpair :=
  flat_map (fun i => flat_map (fun j => if (D i j <=? R)%Z then [DPair i j (D i j)] else []) (seq 0 n)) (seq 0 n).

(** [map[k].push_back( x )] for [std::unordered_map< VertexType, std::vector<Vertex> >] *)
Fixpoint bpm_push (m : list (nat * list dvertex)) (k : nat) (x : dvertex) : list (nat * list dvertex) :=
  match m with
  | [] => [(k, [x])]
  | (k', l) :: r => if k =? k' then (k', l ++ [x]) :: r else (k', l) :: bpm_push r k x
  end.

(** DowkerComplex.hh 176-183 *)
Definition sourceMap (pairs : list dpair) : list (nat * list dvertex) :=
  fold_left (fun m p => bpm_push m (dp p) (dq p, dw p)) pairs [].
Definition sinkMap (pairs : list dpair) : list (nat * list dvertex) :=
  fold_left (fun m p => bpm_push m (dq p) (dp p, dw p)) pairs [].

(** DowkerComplex.hh 191-200, 307-315 *)
Definition getWeight (lowest : Z) (vs : list dvertex) : Z :=
  fold_left (fun w x => Z.max w (snd x)) vs lowest.

(** [std::unordered_map<Simplex, D>] *)
Definition weight_find (m : list (simplex * Z)) (s : simplex) : option Z :=
  option_map snd (find (fun p => s_eqb (fst p) s) m).
Definition weight_set (m : list (simplex * Z)) (s : simplex) (w : Z) : list (simplex * Z) :=
  if existsb (fun p => s_eqb (fst p) s) m
  then map (fun p => if s_eqb (fst p) s then (fst p, w) else p) m
  else m ++ [(s, w)].

(** DowkerComplex.hh 221-238, 365-385: the function object *)
Definition dowker_visit (lowest : Z) (m : list (simplex * Z)) (vs : list dvertex) : outcome (bool * list (simplex * Z)) :=
  let s := simplex_of (map fst vs) 0 in
  match weight_find m s with
  | None => Ok (false, weight_set m s (getWeight lowest vs))
  | Some w => Ok (false, weight_set m s (Z.min w (getWeight lowest vs)))
  end.

(** DowkerComplex.hh 218-240, 362-387: the loop for [d], downwards to [1] *)
Fixpoint dowker_loop (lowest : Z) (d : nat) (vertices : list dvertex) (m : list (simplex * Z)) : outcome (list (simplex * Z)) :=
  match d with
  | 0 => Ok m
  | S d' =>
      let* r := for_each_combination (dowker_visit lowest) d m vertices in
      dowker_loop lowest d' (snd r) (snd (fst r))
  end.

Section Orders.
Variable order1 : list (nat * list dvertex) -> list (nat * list dvertex).
Variable order2 : list (simplex * Z) -> list (simplex * Z).

(** DowkerComplex.hh 202-252, 342-397 *)
Definition makeSimplices (lowest : Z) (dimension : nat) (m : list (nat * list dvertex)) : outcome (list simplex) :=
  let* ws := foldM (fun ws p =>
    let vertices := snd p in
    let maxDimension := if dimension =? 0 then length vertices else dimension + 1 in
    dowker_loop lowest (Nat.min (length vertices) maxDimension) vertices ws) (order1 m) [] in
  Ok (map (fun p => set_data (fst p) (snd p)) (order2 ws)).

(** DowkerComplex.hh 147-264 *)
Definition buildDowkerSinkSourceComplexes (lowest : Z) (pairs : list dpair) (dimension : nat) : outcome (complex * complex) :=
  let* sourceEdges := makeSimplices lowest dimension (sourceMap pairs) in
  let* sinkEdges := makeSimplices lowest dimension (sinkMap pairs) in
  let* K1 := insert_into k_empty sourceEdges in
  let* K2 := insert_into k_empty sinkEdges in
  Ok (k_sort data_cmp K1, k_sort data_cmp K2).

(** DowkerComplex.hh 281-403 *)
Definition buildDowkerSourceComplex (lowest : Z) (n : nat) (D : nat -> nat -> Z) (epsilon : Z) (dimension : nat) : outcome complex :=
  let* simplices := makeSimplices lowest dimension (sourceMap (admissiblePairs n D epsilon)) in
  let* K := insert_into k_empty simplices in
  Ok (k_sort data_cmp K).
End Orders.

(** ** CechComplex.hh *)

(** CechComplex.hh 61-80: the function object.  [radius2] is the squared radius
    of the smallest enclosing ball, computed by an external library, [diameter]
    the function [2 * std::sqrt]. *)
Definition cech_visit (radius2 : list nat -> Z) (diameter : Z -> Z) (R : Z) (simplices : list simplex) (vs : list nat) : outcome (bool * list simplex) :=
  if (radius2 vs <=? R)%Z then Ok (false, simplices ++ [simplex_of vs (diameter (radius2 vs))])
  else Ok (false, simplices).

(** CechComplex.hh 56-89: the loop from [d], [steps] many *)
Fixpoint cech_loop (radius2 : list nat -> Z) (diameter : Z -> Z) (R : Z) (steps d : nat) (vertices : list nat) (simplices : list simplex) : outcome (list simplex) :=
  match steps with
  | 0 => Ok simplices
  | S steps =>
      let previous_n := length simplices in
      let* r := for_each_combination (cech_visit radius2 diameter R) d simplices vertices in
      let simplices := snd (fst r) in
      if previous_n =? length simplices then Ok simplices
      else cech_loop radius2 diameter R steps (d + 1) (snd r) simplices
  end.

(** CechComplex.hh 24-95 for a container with [n] points *)
Definition buildCechComplex (radius2 : list nat -> Z) (diameter : Z -> Z) (n : nat) (r : Z) : outcome complex :=
  let vertices := seq 0 n in
  let* simplices := cech_loop radius2 diameter (r * r) (n - 1) 2 vertices (map (fun v => simplex_vertex v 0) vertices) in
  let* K := insert_into k_empty simplices in
  Ok (k_sort data_cmp K).
