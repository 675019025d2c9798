(** * Model of [persistenceDiagrams/distances/Wasserstein.hh] and
    [persistenceDiagrams/distances/detail/Orthogonal.hh].

    [DataType] is [Z] with exact arithmetic; [top] is
    [std::numeric_limits<DataType>::max()]. *)

From Coq Require Import List Arith Bool ZArith.
From Verif Require Import Base Diagram Munkres.
Import ListNotations.

(** Orthogonal.hh 13-24; [mid] is the division by two *)
Definition orthogonalDistance (mid : Z -> Z) (dist : point -> point -> Z) (p : point) : Z :=
  let u := mid (fst p + snd p)%Z in dist p (u, u).

(** the elements of a range with a counter *)
Definition enum {A} (l : list A) : list (nat * A) := combine (seq 0 (length l)) l.

Section Wasserstein.
  (** [dist] and [orth] are the functors to the given power, [pow( dist(p,q), power )]
      and [pow( orthogonalDistance(p), power )]; [root] is [pow( x, 1/power )] *)
  Variables (top : Z) (dist : point -> point -> Z) (orth : point -> Z) (root : Z -> Z).

  (** Wasserstein.hh 46-63 *)
  Definition regular_block (D1 D2 : list point) (m : matrix Z) : matrix Z :=
    fold_left (fun m p1 =>
      fold_left (fun m p2 =>
        mset (mset m (fst p1) (fst p2) (dist (snd p1) (snd p2)))
             (fst p2 + length D1) (fst p1 + length D2) 0%Z) (enum D2) m) (enum D1) m.

  (** Wasserstein.hh 67-89: the column belongs to [p1] *)
  Definition first_projection (D1 D2 : list point) (m : matrix Z) : matrix Z :=
    fold_left (fun m p1 =>
      fold_left (fun m p2 =>
        mset m (fst p2) (length D2 + fst p1) (if point_eqb (snd p1) (snd p2) then orth (snd p1) else top)) (enum D1) m) (enum D1) m.

  (** Wasserstein.hh 93-115: the row belongs to [p1] *)
  Definition second_projection (D1 D2 : list point) (m : matrix Z) : matrix Z :=
    fold_left (fun m p1 =>
      fold_left (fun m p2 =>
        mset m (length D1 + fst p1) (fst p2) (if point_eqb (snd p1) (snd p2) then orth (snd p1) else top)) (enum D2) m) (enum D2) m.

  Definition wasserstein_costs (D1 D2 : list point) : matrix Z :=
    second_projection D1 D2 (first_projection D1 D2 (regular_block D1 D2 (fun _ _ => 0%Z))).

  (** Wasserstein.hh 121-131 *)
  Definition total_costs (n : nat) (M costs : matrix Z) : Z :=
    fold_left (fun t row => fold_left (fun t col => if (M row col =? 0)%Z then (t + costs row col)%Z else t) (indices n) t) (indices n) 0%Z.

  (** Wasserstein.hh 22-134 *)
  Definition wassersteinDistance (fuel : nat) (D1 D2 : diagram) : outcome Z :=
    if negb (dgm_dim D1 =? dgm_dim D2) then Throw RuntimeError
    else
      let n := length (points D1) + length (points D2) in
      let costs := wasserstein_costs (points D1) (points D2) in
      let* M := munkres top n fuel costs in
      Ok (root (total_costs n M costs)).
End Wasserstein.
