(** * Model of [math/Statistics.hh].

    Values are rational numbers with exact arithmetic; [None] is the quiet NaN.
    [std::sqrt] and [std::pow( x, 3/2 )] are parameters. *)

From Coq Require Import List Arith Bool ZArith QArith.
From Verif Require Import Base.
Import ListNotations.
Local Open Scope Q_scope.

(** [static_cast<double>( std::distance( begin, end ) )] *)
Definition distance_of (l : list Q) : Q := inject_Z (Z.of_nat (length l)).

(** division of [double]s of which the dividend is 0 if the divisor is: 0/0 is NaN *)
Definition divide (x y : Q) : option Q := if Qeq_bool y 0 then None else Some (x / y).

(** Statistics.hh 26-33 *)
Definition sampleMean (l : list Q) : option Q :=
  match l with
  | [] => None
  | _ => Some (fold_left Qplus l 0 / distance_of l)
  end.

(** Statistics.hh 68-73 *)
Fixpoint covariance_sum (mean1 mean2 : Q) (l1 l2 : list Q) (sum : Q) : Q :=
  match l1, l2 with
  | x1 :: t1, x2 :: t2 =>
      let d1 := x1 - mean1 in
      let d2 := x2 - mean2 in
      covariance_sum mean1 mean2 t1 t2 (sum + d1 * d2)
  | _, _ => sum
  end.

(** Statistics.hh 45-76 *)
Definition sampleCovariance (l1 l2 : list Q) : outcome (option Q) :=
  if (length l1 =? 0)%nat || (length l2 =? 0)%nat || (length l1 =? 1)%nat || (length l2 =? 1)%nat then Ok None
  else if negb (length l1 =? length l2)%nat then Throw RuntimeError
  else match sampleMean l1, sampleMean l2 with
       | Some mean1, Some mean2 =>
           Ok (Some (covariance_sum mean1 mean2 l1 l2 0 / inject_Z (Z.of_nat (length l1) - 1)))
       | _, _ => Ok None
       end.

(** Statistics.hh 87-107 *)
Definition sampleVariance (l : list Q) : option Q :=
  if (length l =? 0)%nat || (length l =? 1)%nat then None
  else match sampleMean l with
       | Some mean =>
           let sum := fold_left (fun sum d => sum + (d - mean) * (d - mean)) l 0 in
           Some (1 / inject_Z (Z.of_nat (length l) - 1) * sum)
       | None => None
       end.

(** Statistics.hh 119-123 *)
Definition sampleStandardDeviation (sqrt : Q -> Q) (l : list Q) : option Q :=
  match sampleVariance l with Some v => Some (sqrt v) | None => None end.

(** Statistics.hh 134-157.  The [return] of line 138 is missing; with an empty
    range the result is 0/0 *)
Definition sampleSkewness (pow32 : Q -> Q) (l : list Q) : option Q :=
  match sampleMean l with
  | None => None
  | Some mean =>
      let nd := fold_left (fun (nd : Q * Q) x => (fst nd + (x - mean) ^ 3, snd nd + (x - mean) * (x - mean))) l (0, 0) in
      let numerator := fst nd / distance_of l in
      let denominator := pow32 (snd nd / distance_of l) in
      divide numerator denominator
  end.

(** Statistics.hh 169-192 *)
Definition sampleKurtosis (l : list Q) : option Q :=
  match sampleMean l with
  | None => None
  | Some mean =>
      let n := distance_of l in
      let m := fold_left (fun (m : Q * Q) x => (fst m + (x - mean) ^ 4, snd m + (x - mean) ^ 2)) l (0, 0) in
      let m4 := fst m / n in
      let m2 := snd m / n in
      match divide m4 (m2 * m2) with
      | Some q => Some (q - 3)
      | None => None
      end
  end.
