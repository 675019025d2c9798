(** * Model of [persistenceDiagrams/kernels/MultiScaleKernel.hh] and
      [persistenceDiagrams/kernels/KernelEmbedding.hh].

    A persistence diagram is the list of its points, whose coordinates are finite; [double] is
    modelled by the real numbers of the standard library.  [None] is a value that is not
    finite. *)
From Coq Require Import Reals List Arith Bool.
From Verif Require Import Base HeatKernel RealDescriptors.
Import ListNotations.
Local Open Scope R_scope.

Definition point := (R * R)%type.

(** MultiScaleKernel.hh 25-45 *)
Definition squaredEuclideanDistance (p q : point) (mirror : bool) : R :=
  let '(x0, y0) := p in
  let '(x1, y1) := if mirror then (snd q, fst q) else q in
  let dx := if Rlt_dec x1 x0 then x0 - x1 else x1 - x0 in
  let dy := if Rlt_dec y1 y0 then y0 - y1 else y1 - y0 in
  dx * dx + dy * dy.

(** KahanSummation.hh 35-38 *)
Definition kahanR_sub (st : R * R) (v : R) : R * R := kahanR_add st (- v).

(** MultiScaleKernel.hh 68-80 and 88-100: the sum over all pairs of points *)
Definition kernel_sum (c : R) (D1 D2 : list point) : R :=
  fst (fold_left (fun st p =>
    fold_left (fun st q =>
      let d1 := squaredEuclideanDistance p q false in
      let d2 := squaredEuclideanDistance p q true in
      let st := kahanR_add st (exp (- d1 / (c * PI))) in
      kahanR_sub st (exp (- d2 / (c * PI)))) D2 st) D1 (0, 0)).

(** MultiScaleKernel.hh 64-83 *)
Definition multiScaleKernel (D1 D2 : list point) (sigma : R) : option R :=
  option_map (fun f => f * kernel_sum 8 D1 D2) (divR 1 (8 * PI * sigma)).

(** MultiScaleKernel.hh 85-103 *)
Definition multiScaleFeatureMap (D : list point) (sigma : R) : option R :=
  option_map (fun f => f * kernel_sum 4 D D) (divR 1 (4 * PI * sigma)).

(** [std::sqrt] *)
Definition sqrtR (x : R) : option R := if Rle_dec 0 x then Some (sqrt x) else None.

(** MultiScaleKernel.hh 116-125 *)
Definition multiScalePseudoMetric (D1 D2 : list point) (sigma : R) : option R :=
  match multiScaleKernel D1 D1 sigma, multiScaleKernel D1 D2 sigma, multiScaleKernel D2 D2 sigma with
  | Some kxx, Some kxy, Some kyy => sqrtR (kxx + kyy - 2 * kxy)
  | _, _, _ => None
  end.

(** KernelEmbedding.hh 29-32 for points whose persistence is not negative *)
Definition defaultWeight (C p : R) (x : point) : R := atan (C * powR (snd x - fst x) p).

(** KernelEmbedding.hh 47-52; Euclidean.hh 44-60 *)
Definition defaultKernel (sigma : R) (p q : point) : option R :=
  option_map exp (divR (- squaredEuclideanDistance p q false) (2 * sigma * sigma)).

(** KernelEmbedding.hh 77-97; a kernel value that is not finite makes the sum so *)
Definition linearKernel (D E : list point) (w : point -> R) (k : point -> point -> option R) : option R :=
  option_map fst (fold_left (fun st p =>
    fold_left (fun st q =>
      match st, k p q with
      | Some st, Some v => Some (kahanR_add st (w p * w q * v))
      | _, _ => None
      end) E st) D (Some (0, 0))).

(** KernelEmbedding.hh 120-137 *)
Definition pseudoMetric (D E : list point) (w : point -> R) (k : point -> point -> option R) : option R :=
  match linearKernel D E w k, linearKernel D E w k, linearKernel D E w k with
  | Some kxx, Some kxy, Some kyy => sqrtR (kxx + kyy - 2 * kxy)
  | _, _, _ => None
  end.

(** KernelEmbedding.hh 162-177; [-1] is divided by a [double] *)
Definition gaussianKernel (D E : list point) (w : point -> R) (k : point -> point -> option R) (tau : R) : option R :=
  match pseudoMetric D E w k, divR (- (1)) (2 * tau * tau) with
  | Some d, Some f => Some (exp (f * d))
  | _, _ => None
  end.

(** KernelEmbedding.hh 192-205 *)
Definition gaussianKernelDefault (D E : list point) (sigma C p tau : R) : option R :=
  gaussianKernel D E (defaultWeight C p) (defaultKernel sigma) tau.
