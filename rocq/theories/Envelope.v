(** * Model of [persistenceDiagrams/Envelope.hh].

    The result is the list of coordinates handed to the constructor of the
    piecewise linear function. *)

From Coq Require Import List Arith Bool ZArith.
From Verif Require Import Base Diagram.
Import ListNotations.

(** Envelope.hh 43-63: rotated and sorted points *)
Definition rotated (D : diagram) : list point :=
  cpp_sort point_ltb (map (fun p => (fst p + snd p, snd p - fst p)%Z) (points D)).

(** Envelope.hh 65-71: [std::set<T>] of abscissae *)
Fixpoint zset_insert (x : Z) (l : list Z) : list Z :=
  match l with
  | [] => [x]
  | y :: t => if (y <? x)%Z then y :: zset_insert x t else if (x <? y)%Z then x :: l else l
  end.
Definition abscissae (P : list point) : list Z := fold_left (fun X p => zset_insert (fst p) X) P [].

(** Envelope.hh 83-88: [while( next->x() == x ) { ++next; ++it; }] with [next]
    one past [it]; dereferencing [end()] is undefined. *)
Fixpoint advance (fuel : nat) (P : list point) (it : nat) (x : Z) : outcome nat :=
  match nth_error P (S it) with
  | None => UB
  | Some q =>
      if (fst q =? x)%Z then
        match fuel with 0 => OutOfFuel | S f => advance f P (S it) x end
      else Ok it
  end.

(** Envelope.hh 81-93 *)
Definition envelope_step (P : list point) (st : nat * list point) (x : Z) : outcome (nat * list point) :=
  let* it := advance (length P) P (fst st) x in
  let* p := get_ P it in
  Ok (it, snd st ++ [p]).

(** Envelope.hh 37-96 *)
Definition envelope (inf : Z) (removeUnpairedPoints : bool) (D : diagram) : outcome (list point) :=
  let D' := if removeUnpairedPoints then removeUnpaired inf D else D in
  let P := rotated D' in
  let* st := foldM (envelope_step P) (abscissae P) (0, []) in
  Ok (snd st).
