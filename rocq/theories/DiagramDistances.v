(** * Model of the choice and the calculation of distances between data sets in
      [src/tools/topological_distance.cc].

    [double] is modelled by the real numbers of the standard library.  The distances of the
    library are parameters; their models are in other files. *)
From Coq Require Import Reals List Arith NArith Bool.
From Verif Require Import Base StepNorm.
Import ListNotations.

(** topological_distance.cc 428-504: the options that choose a distance or a kernel; all others
    change nothing of this *)
Inductive option_letter := Opt_b | Opt_E | Opt_h | Opt_i | Opt_k | Opt_S | Opt_w | Opt_other.
Record flags := Flags { useBottleneck : bool; useEnvelope : bool; useIndicator : bool; useScaleSpace : bool; useWasserstein : bool; calculateKernel : bool }.
Definition option_step (f : flags) (o : option_letter) : flags :=
  match o with
  | Opt_b => Flags true false false false false (calculateKernel f)
  | Opt_E => Flags false true false (useScaleSpace f) false (calculateKernel f)
  | Opt_h => Flags (useBottleneck f) false false false false (calculateKernel f)
  | Opt_i => Flags (useBottleneck f) false true false false (calculateKernel f)
  | Opt_k => Flags (useBottleneck f) (useEnvelope f) (useIndicator f) (useScaleSpace f) (useWasserstein f) true
  | Opt_S => Flags (useBottleneck f) false false true false true
  | Opt_w => Flags (useBottleneck f) false false false true (calculateKernel f)
  | Opt_other => f
  end.
Definition parse_options (l : list option_letter) : flags := fold_left option_step l (Flags false false false false false false).

(** topological_distance.cc 689-716 and 754-759: what is calculated for two data sets *)
Inductive method := Bottleneck | Envelope | Hausdorff | Indicator | ScaleSpace | Wasserstein.
Definition chosen_method (f : flags) : method :=
  if useIndicator f then Indicator
  else if useEnvelope f then Envelope
  else if useScaleSpace f then ScaleSpace
  else if useWasserstein f then Wasserstein
  else if useBottleneck f then Bottleneck
  else Hausdorff.

Section Distance.
  Context {D : Type}.
  (** the diagram without points that the constructor yields, and [std::pow] for bases and
      exponents that are not positive *)
  Variables (empty : D) (other : R -> R -> R).

  (** topological_distance.cc 278-290 *)
  Definition getPersistenceDiagram (dataSet : list (N * D)) (dimension : N) : D :=
    match find (fun e => N.eqb (fst e) dimension) dataSet with
    | Some e => snd e
    | None => empty
    end.

  (** topological_distance.cc 294: the values of the counter; with the largest number of type
      [unsigned] as bound the loop has no end *)
  Definition dimensions (minDimension maxDimension : N) : outcome (list N) :=
    if N.leb (2 ^ 32 - 1) maxDimension then OutOfFuel
    else Ok (map (fun i => minDimension + N.of_nat i)%N (seq 0 (N.to_nat (maxDimension + 1 - minDimension)))).

  (** topological_distance.cc 266-303 *)
  Definition persistenceDiagramDistance (functor : D -> D -> R -> outcome R) (dataSet1 dataSet2 : list (N * D)) (minDimension maxDimension : N) (power : R) : outcome R :=
    let* ds := dimensions minDimension maxDimension in
    let* d := foldM (fun d dimension =>
      let* v := functor (getPersistenceDiagram dataSet1 dimension) (getPersistenceDiagram dataSet2 dimension) power in
      Ok (d + v)%R) ds 0%R in
    Ok (cpp_pow other d (1 / power)).

  (** the functions of the library: the first takes the power *)
  Variables (wassersteinDistance : D -> D -> R -> outcome R) (bottleneckDistance hausdorffDistance : D -> D -> outcome R) (multiScaleKernel : D -> D -> R -> outcome R).

  (** topological_distance.cc 689-716 *)
  Definition chosen_functor (m : method) (sigma : R) (D1 D2 : D) (p : R) : outcome R :=
    match m with
    | Wasserstein => wassersteinDistance D1 D2 p
    | Bottleneck => bottleneckDistance D1 D2
    | Hausdorff => let* h := hausdorffDistance D1 D2 in Ok (cpp_pow other h p)
    | ScaleSpace => multiScaleKernel D1 D2 sigma
    | Indicator | Envelope => Ok 0%R
    end.
End Distance.
