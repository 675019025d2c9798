(** * Model of [persistenceDiagrams/distances/PointSet.hh].

    [DataType] is [Z] with exact arithmetic; [highest] and [top] are
    [std::numeric_limits<DataType>::max()] and the infinity ([max()] if there is
    none), [half x] is [DataType(0.5) * x]. *)

From Coq Require Import List Arith Bool ZArith.
From Verif Require Import Base Diagram Hausdorff.
Import ListNotations.

Section PointSet.
  Variables (highest top : Z) (d : point -> point -> Z) (half : Z -> Z).

  (** PointSet.hh 77-88 *)
  Definition distances1 (D1 D2 : diagram) : list Z :=
    fold_left (fun acc x => acc ++ [fold_left (fun distance y => Z.min distance (d x y)) (points D2) highest]) (points D1) [].
  (** PointSet.hh 92-103: the arguments of [d] are not exchanged *)
  Definition distances2 (D1 D2 : diagram) : list Z :=
    fold_left (fun acc y => acc ++ [fold_left (fun distance x => Z.min distance (d x y)) (points D1) highest]) (points D2) [].

  (** PointSet.hh 57-109 *)
  Definition sumOfMinimumDistances (D1 D2 : diagram) : Z :=
    if d_isempty D1 && d_isempty D2 then 0%Z
    else if d_isempty D1 || d_isempty D2 then top
    else half (accumulate_kahan_sorted (distances1 D1 D2) 0 + accumulate_kahan_sorted (distances2 D1 D2) 0)%Z.
End PointSet.
