(** * Model of [math/Quantiles.hh].

    Values are [Z].  [nth_element] is a parameter; the properties assume what the
    C++ standard says about it.  [mean] is [( a + b ) / T(2)]. *)

From Coq Require Import List Arith Bool ZArith.
From Verif Require Import Base.
Import ListNotations.

(** Quantiles.hh 14-36 *)
Definition median (nth_element : list Z -> nat -> list Z) (mean : Z -> Z -> Z) (range : list Z) : outcome Z :=
  let n := length range in
  let m := n / 2 in
  let values := nth_element range m in
  let* middle := get_ values m in
  if n mod 2 =? 1 then Ok middle
  else
    let values' := nth_element values (m - 1) in
    let* x := get_ values' (m - 1) in
    Ok (mean middle x).
