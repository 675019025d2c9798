(** * Model of [src/tools/piecewise_linear_function_smoothing.cc].

    As in PiecewiseLinear.v and Bootstrap.v, numbers are rational and random numbers are a parameter.  The square root of the number of
    functions is a parameter as well, namely a rational number [root]. *)
From Coq Require Import List Arith Bool ZArith QArith.
From Verif Require Import Base Curvature PiecewiseLinear Bootstrap.
Import ListNotations.
Local Open Scope nat_scope.

(** piecewise_linear_function_smoothing.cc 53-59; the division ends the program if there are no functions *)
Definition meanCalculation (fs : list pl) : outcome pl :=
  let sum := fold_left pl_plus fs [] in
  pl_divide sum (inject_Z (Z.of_nat (length fs))).

Section Tool.
  Variable draw : nat -> nat -> nat.
  Variable umax : Z.
  Variables lowest root : Q.
  (** 120-123 and Bootstrap.hh 52-90 *)
  Definition meanReplicates (numBootstrapSamples : nat) (functions : list pl) : outcome (list pl) :=
    match functions with
    | [] => Ok []
    | _ => foldM (fun replicates k =>
             let* sample := makeSample draw functions k in
             let* mean := meanCalculation sample in
             Ok (replicates ++ [mean])) (seq 0 numBootstrapSamples) []
    end.
  (** 137-144 *)
  Definition parameter (empiricalMean meanReplicate : pl) : Q :=
    pl_max lowest (pl_abs (pl_scale (pl_minus meanReplicate empiricalMean) root)).
  (** 102-154: the mean, the upper limit and the lower limit *)
  Definition confidence_band (numBootstrapSamples : nat) (alpha : Q) (functions : list pl) : outcome (pl * pl * pl) :=
    let* empiricalMean := meanCalculation functions in
    let* replicates := meanReplicates numBootstrapSamples functions in
    let theta := cpp_sort Qltb (map (parameter empiricalMean) replicates) in
    let* i := index umax numBootstrapSamples (1 - alpha) in
    let* quantile := at_ theta (Z.to_nat i) in
    Ok (empiricalMean, pl_plus_scalar empiricalMean (quantile / root), pl_minus_scalar empiricalMean (quantile / root)).
  (** 89-100 and 156-158: the exit status, and the functions that are printed *)
  Definition smoothing_main (load : nat -> outcome pl) (numBootstrapSamples : nat) (alpha : Q) (files : list nat) : outcome (Z * list pl) :=
    if length files <=? 1 then Ok ((-1)%Z, [])
    else
      let* functions := foldM (fun fs file => let* f := load file in Ok (fs ++ [f])) files [] in
      let* band := confidence_band numBootstrapSamples alpha functions in
      let '(mean, upper, lower) := band in
      Ok (0%Z, [mean; upper; lower]).
End Tool.
