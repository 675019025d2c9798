(** * Model of [geometry/distances/Manhattan.hh], [Hamming.hh] and [Euclidean.hh].

    Element type [Z] (exact).  Iterators are positions in the vectors.  For fewer
    than three entries (always in [Euclidean.hh]) the iterator [lastGroup] lies
    before the vector; it is only compared with others.  By the letter of the
    standard computing it is undefined; here it is a (negative) integer. *)

From Coq Require Import List Arith Bool ZArith.
From Verif Require Import Base.
Import ListNotations.

Section Loops.
  (** what a pair of entries contributes *)
  Variable diff : Z -> Z -> Z.
  Variables a b : list Z.

  Definition diff_at (i : nat) : outcome Z :=
    let* x := get_ a i in let* y := get_ b i in Ok (diff x y).

  (** Manhattan.hh 79-96, Hamming.hh 79-96, Euclidean.hh 102-119: groups of four.
      The result says whether the function returns early. *)
  Fixpoint group_loop (fuel : nat) (i : nat) (lastGroup : Z) (worst result : Z) : outcome (bool * nat * Z) :=
    match fuel with
    | 0 => OutOfFuel
    | S fuel' =>
        if (Z.of_nat i <? lastGroup)%Z then
          let* d0 := diff_at i in
          let* d1 := diff_at (i + 1) in
          let* d2 := diff_at (i + 2) in
          let* d3 := diff_at (i + 3) in
          let result := (result + (d0 + d1 + d2 + d3))%Z in
          if (0 <? worst)%Z && (worst <? result)%Z then Ok (true, i + 4, result)
          else group_loop fuel' (i + 4) lastGroup worst result
        else Ok (false, i, result)
    end.

  (** Manhattan.hh 98-102, Hamming.hh 98-102, Euclidean.hh 121-125: the rest *)
  Fixpoint rest_loop (fuel : nat) (i last : nat) (result : Z) : outcome Z :=
    match fuel with
    | 0 => OutOfFuel
    | S fuel' => if i <? last then let* d := diff_at i in rest_loop fuel' (i + 1) last (result + d)%Z else Ok result
    end.

  Definition distance_loop (size : nat) (lastGroup worst : Z) : outcome Z :=
    let* r := group_loop (S size) 0 lastGroup worst 0 in
    let '(early, i, result) := r in
    if early then Ok result else rest_loop (S size) i size result.
End Loops.

(** Manhattan.hh 56-105 *)
Definition manhattan (a b : list Z) (size : nat) (worst : Z) : outcome Z :=
  distance_loop (fun x y => Z.abs (x - y)) a b size (Z.of_nat size - 3) worst.

(** Hamming.hh 56-105; [a[0] != b[0]] converted to the element type *)
Definition hamming (a b : list Z) (size : nat) (worst : Z) : outcome Z :=
  distance_loop (fun x y => if (x =? y)%Z then 0%Z else 1%Z) a b size (Z.of_nat size - 3) worst.

(** Euclidean.hh 77-128.  Lines 94-100: [lastGroup] is a copy of [last] made before
    [last] is advanced, so it is three before the beginning. *)
Definition euclidean (a b : list Z) (size : nat) (worst : Z) : outcome Z :=
  distance_loop (fun x y => (x - y) * (x - y))%Z a b size (-3) worst.

(** Manhattan.hh 118-124, Hamming.hh 118-124, Euclidean.hh 141-147: [accum_dist] *)
Definition manhattan_accum (x y : Z) : Z := Z.abs (x - y).
Definition hamming_accum (x y : Z) : Z := Z.abs (x - y).
Definition euclidean_accum (x y : Z) : Z := ((x - y) * (x - y))%Z.

(** Euclidean.hh 47-62: two points *)
Definition euclidean_points (p q : Z * Z) : Z :=
  let dx := (if fst q <? fst p then fst p - fst q else fst q - fst p)%Z in
  let dy := (if snd q <? snd p then snd p - snd q else snd q - snd p)%Z in
  (dx * dx + dy * dy)%Z.

(** Infinity.hh 24-32 *)
Definition infinity_points (p q : Z * Z) : Z :=
  let dx := (if fst q <=? fst p then fst p - fst q else fst q - fst p)%Z in
  let dy := (if snd q <=? snd p then snd p - snd q else snd q - snd p)%Z in
  Z.max dx dy.
