(** * Model of [geometry/Point.hh], [geometry/distances/Wrapper.hh], [utilities/Values.hh] and [utilities/Format.hh].

    Coordinates and numbers are integers.  [std::log10] is taken to be exact, so that the width of
    [format] is the number of digits of the maximum. *)
From Coq Require Import String Ascii List Arith Bool NArith ZArith.
From Verif Require Import Base LoadMatrix StringUtilities PropertiesString DiagramIO.
Import ListNotations.
Local Open Scope list_scope.
Local Open Scope Z_scope.

(** Point.hh 79-82: [std::equal] with three iterators reads the second point without its end *)
Fixpoint point_eqb (a b : list Z) : outcome bool :=
  match a, b with
  | [], _ => Ok true
  | x :: a, y :: b => if x =? y then point_eqb a b else Ok false
  | _ :: _, [] => UB
  end.
(** Point.hh 85-88 *)
Definition point_neqb (a b : list Z) : outcome bool := let* r := point_eqb a b in Ok (negb r).
(** Point.hh 95-101 *)
Fixpoint point_ltb (a b : list Z) : bool :=
  match a, b with
  | _, [] => false
  | [], _ :: _ => true
  | x :: a, y :: b => if x <? y then true else if y <? x then false else point_ltb a b
  end.
(** Point.hh 109-120 *)
Definition point_text (show : Z -> str) (p : list Z) : str :=
  fst (fold_left (fun st x => let '(o, first) := st in (o ++ (if first : bool then [] else chars " ") ++ show x, false)) p ([] : str, true)).

(** Wrapper.hh 33-36, Traits.hh 26-34: a metric reads as many elements of both containers as the first one has *)
Fixpoint take_both (n : nat) (a b : list Z) : outcome (list (Z * Z)) :=
  match n, a, b with
  | O, _, _ => Ok []
  | S n, x :: a, y :: b => let* r := take_both n a b in Ok ((x, y) :: r)
  | S _, _, _ => UB
  end.
Definition wrapper (metric : list (Z * Z) -> Z) (from : Z -> Z) (a b : list Z) : outcome Z :=
  let* l := take_both (length a) a b in Ok (from (metric l)).

(** Values.hh 20-25 *)
Definition ensureRange (x lower upper : Z) : outcome unit := if (lower <=? x) && (x <=? upper) then Ok tt else Throw OutOfRange.
(** Values.hh 35-40 *)
Definition ensureLarger (x lower : Z) : outcome unit := if lower <? x then Ok tt else Throw OutOfRange.

(** Format.hh 26: the width; the logarithm of other numbers is not finite, and its conversion undefined *)
Fixpoint log10_up (fuel : nat) (n : N) : nat :=
  match fuel with
  | O => O
  | S fuel => if (n <? 10)%N then 1%nat else S (log10_up fuel (n / 10))
  end.
Definition width_of (N : Z) : outcome nat := if N <=? 0 then UB else Ok (log10_up (S (N.to_nat (N.log2 (Z.to_N N)))) (Z.to_N N)).
(** Format.hh 24-32: the number is aligned to the right *)
Definition format (n N : Z) (fill : ascii) : outcome str :=
  let* width := width_of N in
  let s := print_Z n in
  Ok (repeat fill (width - length s) ++ s).
