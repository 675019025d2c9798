(** * Model of [for_each_combination] and [count_each_combination] in
      [math/Combinations.hh].

    Iterators are positions in one vector [v].  The function object of
    [combine_discontinuous] is a function of its state and of the vector; it
    returns the result of the call, its new state and the new contents of the
    vector, because the function objects of the permutation algorithms
    rearrange the vector themselves.  The function object of a user is a
    function of its state and of the range it is called for. *)

From Coq Require Import List Arith Bool ZArith.
From Verif Require Import Base TopDown.
Import ListNotations.

Section Combine.
Context {S A : Type}.

(** [swap( *i, *j )] *)
Definition swap_at (i j : nat) (v : list A) : outcome (list A) :=
  let* x := get_ v i in
  let* y := get_ v j in
  Ok (upd (upd v i y) j x).

(** Combinations.hh 68-83; [last1 = first1 + d1] and [last2 = first2 + d2] *)
Definition rotate_discontinuous (first1 d1 first2 d2 : nat) (v : list A) : outcome (list A) :=
  if d1 <=? d2 then
    let* v := foldM (fun v i => swap_at (first1 + i) (first2 + i) v) (seq 0 d1) v in
    Ok (rotate first2 (first2 + d1) (first2 + d2) v)
  else
    let* v := foldM (fun v i => swap_at (first1 + (d1 - 1 - i)) (first2 + (d2 - 1 - i)) v) (seq 0 d2) v in
    Ok (rotate first1 (first1 + (d1 - d2)) (first1 + d1) v).

(** Combinations.hh 114-152.  The result is the returned value, the state of
    the function object and the new contents of the vector. *)
Fixpoint combine_discontinuous (f : S -> list A -> outcome (bool * S * list A))
    (d1 first1 first2 d2 d : nat) (st : S) (v : list A) : outcome (bool * S * list A) :=
  match d1 with
  | 0 => f st v
  | Datatypes.S d1' =>
      if d2 =? 0 then f st v
      else
        let* r := (fix loop (d22 i2 : nat) (st : S) (v : list A) {struct d22} : outcome (bool * S * list A) :=
          match d22 with
          | 0 => Ok (false, st, v)
          | Datatypes.S n =>
              let* r := if d1' =? 0 then f st v
                        else combine_discontinuous f d1' (first1 + 1) i2 d22 (d + 1) st v in
              if fst (fst r) then Ok r
              else
                let* v := swap_at first1 i2 (snd r) in
                loop n (i2 + 1) (snd (fst r)) v
          end) d2 first2 st v in
        if fst (fst r) then Ok r
        else
          let* r := f (snd (fst r)) (snd r) in
          if fst (fst r) then Ok r
          else
            let* v := if d =? 0 then rotate_discontinuous first1 d1 first2 d2 (snd r)
                      else rotate_discontinuous first1 d1 (first2 + 1) (d2 - 1) (snd r) in
            Ok (false, snd (fst r), v)
  end.

(** Combinations.hh 393-416: a call of [f] for the range of the [d] elements
    from [first] on *)
Definition bound_range (f : S -> list A -> outcome (bool * S)) (first d : nat) (st : S) (v : list A)
  : outcome (bool * S * list A) :=
  let* r := f st (firstn d (skipn first v)) in Ok (r, v).

(** Combinations.hh 440-451 for [first = begin()], [mid = begin() + k]
    and [last = end()]; forming [begin() + k] is undefined for a larger [k]. *)
Definition for_each_combination (f : S -> list A -> outcome (bool * S)) (k : nat) (st : S) (v : list A)
  : outcome (bool * S * list A) :=
  if length v <? k then UB
  else combine_discontinuous (bound_range f 0 k) k 0 k (length v - k) 0 st v.
End Combine.

(** Combinations.hh 453-464; the second argument decreases *)
Fixpoint gcd_loop (fuel x y : nat) : outcome nat :=
  if y =? 0 then Ok x
  else match fuel with 0 => OutOfFuel | S fuel => gcd_loop fuel y (x mod y) end.
Definition math_gcd (x y : nat) : outcome nat := gcd_loop y x y.

(** Combinations.hh 486-512 for an unsigned type with largest value [max].
    [std::overflow_error] is a [std::runtime_error].  [n] and [k] stay below
    [max], so [++k] and [--n] do not wrap. *)
Fixpoint count_loop (max steps : nat) (k n r : nat) : outcome nat :=
  match steps with
  | 0 => Ok r
  | S steps =>
      let* g := math_gcd r k in
      let r := r / g in
      let t := n / (k / g) in
      if max / t <? r then Throw RuntimeError
      else count_loop max steps (k + 1) (n - 1) (r * t)
  end.
Definition count_each_combination (max d1 d2 : nat) : outcome nat :=
  let '(d1, d2) := if d2 <? d1 then (d2, d1) else (d1, d2) in
  if d1 =? 0 then Ok 1
  else if max - d2 <? d1 then Throw RuntimeError
  else count_loop max (d1 - 1) 2 (d1 + d2 - 1) (d1 + d2).
