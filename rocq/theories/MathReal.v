(** * Model of [math/KernelDensityEstimator.hh] and [math/AlgebraicSphere.hh].

    [double] is modelled by the real numbers of the standard library; [None] is a value that
    is not finite. *)
From Coq Require Import Reals List Arith Bool.
From Verif Require Import Base HeatKernel Kernels.
Import ListNotations.
Local Open Scope R_scope.

(** KernelDensityEstimator.hh 43-46 for [_sigma > 0] *)
Definition gaussian (sigma v : R) : R := 1 / (sqrt (2 * PI) * sigma) * exp (- (1 / 2) * (v * v) / (sigma * sigma)).

(** KernelDensityEstimator.hh 60-63 *)
Definition epanechnikov (v : R) : R := if Rle_dec (Rabs v) 1 then 3 / 4 * (1 - v * v) else 0.

(** KernelDensityEstimator.hh 176-203; [norm y x] is the norm of the difference of [y] and
    [x] *)
Definition kde {A} (bandwidth : R) (dimension : nat) (kernel : R -> R) (norm : A -> A -> R) (data : list A) (x : A) : option R :=
  match fold_left (fun value y =>
    match value, divR (norm y x) bandwidth with
    | Some value, Some q => Some (value + kernel q)
    | _, _ => None
    end) data (Some 0) with
  | Some value =>
      match divR value (bandwidth ^ dimension) with
      | Some value => divR value (INR (length data))
      | None => None
      end
  | None => None
  end.

(** AlgebraicSphere.hh 36-41 *)
Definition sphere_make (coefficients : list R) : outcome (list R) :=
  if length coefficients <? 3 then Throw RuntimeError else Ok coefficients.

(** AlgebraicSphere.hh 44-63; the result is stored, which is not modelled *)
Definition centre (coefficients : list R) : list (option R) :=
  let s := last coefficients 0 in
  map (fun x => divR x (2 * s)) (removelast (tl coefficients)).

(** [std::inner_product] of a list with itself *)
Definition square_norm (c : list (option R)) : option R :=
  fold_left (fun acc x => match acc, x with Some acc, Some x => Some (acc + x * x) | _, _ => None end) c (Some 0).

(** AlgebraicSphere.hh 66-76 *)
Definition radius (coefficients : list R) : option R :=
  match square_norm (centre coefficients), divR (hd 0 coefficients) (last coefficients 0) with
  | Some n, Some q => sqrtR (n - q)
  | _, _ => None
  end.

(** AlgebraicSphere.hh 79-90.  A radius that is not finite is infinite or not a number; in both
    cases, the result is 0. *)
Definition gaussianCurvature (coefficients : list R) : R :=
  match radius coefficients with
  | Some r => if Rlt_dec 0 r then 1 / (r * r) else 0
  | None => 0
  end.

(** AlgebraicSphere.hh 93-104 *)
Definition meanCurvature (coefficients : list R) : R :=
  match radius coefficients with
  | Some r => if Rlt_dec 0 r then 1 / r else 0
  | None => 0
  end.
