(** * Model of [geometry/distances/Infinity.hh],
    [persistenceDiagrams/distances/Hausdorff.hh],
    [persistenceDiagrams/distances/NearestNeighbour.hh] and
    [math/KahanSummation.hh].

    [DataType] is [Z] with exact arithmetic; [lowest], [highest] and [top] are
    [std::numeric_limits<DataType>::lowest()], [max()] and the infinity ([max()]
    if there is none). *)

From Coq Require Import List Arith Bool ZArith.
From Verif Require Import Base Diagram.
Import ListNotations.

(** Infinity.hh 21-33 *)
Definition infinityDistance (p q : point) : Z :=
  let dx := if (fst q <=? fst p)%Z then (fst p - fst q)%Z else (fst q - fst p)%Z in
  let dy := if (snd q <=? snd p)%Z then (snd p - snd q)%Z else (snd q - snd p)%Z in
  Z.max dx dy.

Section Distances.
  Variables (lowest highest top : Z) (d : point -> point -> Z).

  (** Hausdorff.hh 52-62 *)
  Definition infimumDistance (p : point) (D : diagram) : Z :=
    fold_left (fun infimum q => Z.min infimum (d p q)) (points D) highest.
  Definition supremumDistance (D1 D2 : diagram) : Z :=
    fold_left (fun supremum p => Z.max supremum (infimumDistance p D2)) (points D1) lowest.
  Definition d_isempty (D : diagram) : bool := match points D with [] => true | _ => false end.

  (** Hausdorff.hh 34-77 *)
  Definition hausdorffDistance (D1 D2 : diagram) : Z :=
    if d_isempty D1 && d_isempty D2 then 0%Z
    else if xorb (d_isempty D1) (d_isempty D2) then top
    else Z.max (supremumDistance D1 D2) (supremumDistance D2 D1).

  (** KahanSummation.hh 26-33 (the sum and the compensation), 82-96 *)
  Definition kahan_add (st : Z * Z) (v : Z) : Z * Z :=
    let y := (v - snd st)%Z in
    let t := (fst st + y)%Z in
    (t, (t - fst st) - y)%Z.
  Definition accumulate_kahan (values : list Z) (init : Z) : Z := fst (fold_left kahan_add values (init, 0%Z)).
  Definition accumulate_kahan_sorted (values : list Z) (init : Z) : Z := accumulate_kahan (cpp_sort Z.ltb values) init.

  (** NearestNeighbour.hh 41-60 *)
  Definition oneSidedDistances (D1 D2 : diagram) : list Z := map (fun p => infimumDistance p D2) (points D1).

  (** NearestNeighbour.hh 37-71; [half x] is [x / 2] *)
  Definition nearestNeighbourDistance (half : Z -> Z) (D1 D2 : diagram) : Z :=
    half (accumulate_kahan_sorted (oneSidedDistances D1 D2) 0 + accumulate_kahan_sorted (oneSidedDistances D2 D1) 0)%Z.
End Distances.
