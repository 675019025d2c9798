(** * Model of [math/Bootstrap.hh].

    Random numbers are a parameter: [draw k i] is the [i]-th number that is drawn for the
    [k]-th sample.  The values of the statistic are rational numbers; everything that is
    calculated with [double] is calculated with rational numbers.  The standard error is
    modelled by its square.  [studentConfidenceInterval] is left out because of the
    quantiles of the distribution. *)
From Coq Require Import List Arith Bool ZArith QArith Qround.
From Verif Require Import Base Curvature.
Import ListNotations.
Local Open Scope nat_scope.

Section Bootstrap.
  Context {A : Type}.
  Variable draw : nat -> nat -> nat.
  (** [UINT_MAX] *)
  Variable umax : Z.
  Variable functor : list A -> Q.

  (** Bootstrap.hh 52-90; the second loop collects a sample *)
  Definition makeSample (samples : list A) (k : nat) : outcome (list A) :=
    foldM (fun sample i => let* x := at_ samples (draw k i) in Ok (sample ++ [x])) (seq 0 (length samples)) [].
  Definition makeReplicates (numSamples : nat) (samples : list A) : outcome (list Q) :=
    match samples with
    | [] => Ok []
    | _ => foldM (fun replicates k => let* sample := makeSample samples k in Ok (replicates ++ [functor sample])) (seq 0 numSamples) []
    end.

  (** 123-162, for at least two samples; the square of the result *)
  Definition standardError_sq (numSamples : nat) (samples : list A) : outcome Q :=
    let* estimates := makeReplicates numSamples samples in
    let mean := (fst (fold_left kahanQ_add estimates (0, 0)) / inject_Z (Z.of_nat numSamples))%Q in
    let deviations := map (fun estimate => ((mean - estimate) * (mean - estimate))%Q) estimates in
    Ok (kahanQ_sorted deviations / inject_Z (Z.of_nat numSamples - 1))%Q.

  (** 243-251: the conversion of numbers that are not representable is undefined; zero minus one wraps around *)
  Definition index (samples : nat) (alpha : Q) : outcome Z :=
    let z := Qceiling (inject_Z (Z.of_nat samples) * alpha) in
    if (z <? 0)%Z || (umax <? z)%Z then UB else Ok ((z - 1) mod (umax + 1))%Z.

  (** 164-190 *)
  Definition basicConfidenceInterval (numSamples : nat) (alpha : Q) (samples : list A) : outcome (Q * Q) :=
    let theta := functor samples in
    let* estimates := makeReplicates numSamples samples in
    let estimates := cpp_sort Qltb estimates in
    let upperPercentile := (alpha / 2)%Q in
    let* i := index numSamples upperPercentile in
    let* upperEstimate := at_ estimates (Z.to_nat i) in
    let lowerPercentile := (1 - upperPercentile)%Q in
    let* j := index numSamples lowerPercentile in
    let* lowerEstimate := at_ estimates (Z.to_nat j) in
    Ok (2 * theta - lowerEstimate, 2 * theta - upperEstimate)%Q.

  (** 192-217 *)
  Definition percentileConfidenceInterval (numSamples : nat) (alpha : Q) (samples : list A) : outcome (Q * Q) :=
    let* estimates := makeReplicates numSamples samples in
    let estimates := cpp_sort Qltb estimates in
    let lowerPercentile := (alpha / 2)%Q in
    let* i := index numSamples lowerPercentile in
    let* lowerEstimate := at_ estimates (Z.to_nat i) in
    let upperPercentile := (1 - lowerPercentile)%Q in
    let* j := index numSamples upperPercentile in
    let* upperEstimate := at_ estimates (Z.to_nat j) in
    Ok (lowerEstimate, upperEstimate).
End Bootstrap.
