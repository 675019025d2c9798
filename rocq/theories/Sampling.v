(** * Model of [geometry/SphereSampling.hh] and [geometry/TorusSampling.hh].

    [T] is modelled by the real numbers.  The random number generators are sequences of draws. *)
From Coq Require Import Reals List Arith Bool Ratan.
From Verif Require Import Base PointCloud.
Import ListNotations.
Local Open Scope R_scope.

(** SphereSampling.hh 31-54; [draw] are the results of the distribution on the interval from 0 to 1 *)
Definition sphereSampling (draw : nat -> R) (n : nat) : list (R * R) :=
  map (fun i => let u := draw (2 * i)%nat in let v := draw (2 * i + 1)%nat in (2 * PI * u, acos (1 - 2 * v))) (seq 0 n).

(** a loop that sets the points one after the other, SphereSampling.hh 79-91, TorusSampling.hh 79-94 *)
Definition set_points (f : R * R -> list R) (angles : list (R * R)) : outcome (cloud R) :=
  let* st := foldM (fun st a => let* P := pc_set (fst st) (snd st) (f a) in Ok (P, S (snd st)))
                   angles (pc_make 0 (length angles) 3, 0%nat) in
  Ok (fst st).

(** SphereSampling.hh 71-94 *)
Definition makeSphere (angles : list (R * R)) (r x0 y0 z0 : R) : outcome (cloud R) :=
  set_points (fun a => let (theta, phi) := a in
    [x0 + r * cos theta * sin phi; y0 + r * sin theta * sin phi; z0 + r * cos phi]) angles.

(** TorusSampling.hh 54: the density of an angle, for [R1] other than 0 *)
Definition torus_density (R1 r x : R) : R := (1 + r / R1 * cos x) / (2 * PI).

(** TorusSampling.hh 31-61; [xs] and [ys] are the draws of an angle and of a number between 0 and
    1 / pi, [psis] those of the second angle *)
Fixpoint rejection_loop (fuel : nat) (R1 r : R) (n : nat) (xs ys psis : nat -> R) (i : nat) (angles : list (R * R)) : outcome (list (R * R)) :=
  if (n <=? length angles)%nat then Ok angles
  else match fuel with
       | 0%nat => OutOfFuel
       | S f =>
           if Rlt_dec (ys i) (torus_density R1 r (xs i))
           then rejection_loop f R1 r n xs ys psis (S i) (angles ++ [(xs i, psis (length angles))])
           else rejection_loop f R1 r n xs ys psis (S i) angles
       end.
Definition torusRejectionSampling (fuel : nat) (R1 r : R) (n : nat) (xs ys psis : nat -> R) : outcome (list (R * R)) :=
  rejection_loop fuel R1 r n xs ys psis 0 [].

(** TorusSampling.hh 74-97 *)
Definition makeTorus (angles : list (R * R)) (R1 r : R) : outcome (cloud R) :=
  set_points (fun a => let (theta, psi) := a in
    [(R1 + r * cos theta) * cos psi; (R1 + r * cos theta) * sin psi; r * sin theta]) angles.
