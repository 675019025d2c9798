(** * Model of the parts of [containers/DataDescriptors.hh],
      [containers/FractalDimension.hh] and [containers/DimensionalityEstimators.hh] with
      powers, exponentials and logarithms.

    [double] is modelled by the real numbers of the standard library; [None] is a value that
    is not finite. *)
From Coq Require Import Reals List Arith Bool.
From Verif Require Import Base HeatKernel.
Import ListNotations.

(** [std::pow] for a base that is not negative and a positive exponent *)
Definition powR (x y : R) : R := if Req_EM_T x 0 then 0%R else Rpower x y.

(** KahanSummation.hh 75-83 *)
Definition kahanR_all (l : list R) : R := fst (fold_left kahanR_add l (0%R, 0%R)).

(** [std::max_element] *)
Definition max_elementR (l : list R) : option R :=
  match l with
  | [] => None
  | x :: t => Some (fold_left (fun m y => if Rlt_dec m y then y else m) t x)
  end.

(** DataDescriptors.hh 31-87 for [n] points with distances [dist] (after [traits.from]) *)
Definition eccentricities (n : nat) (dist : nat -> nat -> R) (order : nat) : outcome (list R) :=
  foldM (fun result i =>
    let distances := map (fun j => if 0 <? order then (powR (dist i j) (INR order) / INR n)%R else dist i j) (filter (fun j => negb (i =? j)) (seq 0 n)) in
    if 0 <? order then Ok (result ++ [powR (kahanR_all distances) (1 / INR order)])
    else match max_elementR distances with
         | Some m => Ok (result ++ [m])
         | None => UB
         end) (seq 0 n) [].

(** DataDescriptors.hh 95-126; [sq i j] is the squared distance that [Euclidean] returns *)
Definition truncatedGaussian (n : nat) (sq : nat -> nat -> R) (bandwidth : R) : list (option R) :=
  map (fun i =>
    match fold_left (fun (st : option (R * R)) j =>
      if Rle_dec (sq i j) (bandwidth * bandwidth) then
        match st, divR (- (1) * sq i j) (2 * bandwidth) with
        | Some st, Some q => Some (kahanR_add st (exp q))
        | _, _ => None
        end
      else st) (seq 0 n) (Some (0%R, 0%R)) with
    | Some st => divR (fst st) (INR n)
    | None => None
    end) (seq 0 n).

(** Statistics.hh 26-33 *)
Definition sampleMeanR (l : list R) : option R :=
  match l with [] => None | _ => Some (fold_left Rplus l 0 / INR (length l))%R end.

(** Statistics.hh 45-76 for ranges of equal length *)
Fixpoint covariance_sumR (mean1 mean2 : R) (l1 l2 : list R) (sum : R) : R :=
  match l1, l2 with
  | x1 :: t1, x2 :: t2 => covariance_sumR mean1 mean2 t1 t2 (sum + (x1 - mean1) * (x2 - mean2))%R
  | _, _ => sum
  end.
Definition sampleCovarianceR (l1 l2 : list R) : option R :=
  if length l1 <? 2 then None
  else match sampleMeanR l1, sampleMeanR l2 with
       | Some mean1, Some mean2 => Some (covariance_sumR mean1 mean2 l1 l2 0 / INR (length l1 - 1))%R
       | _, _ => None
       end.

(** Statistics.hh 87-107 *)
Definition sampleVarianceR (l : list R) : option R :=
  if length l <? 2 then None
  else match sampleMeanR l with
       | Some mean => Some (1 / INR (length l - 1) * fold_left (fun sum d => sum + (d - mean) * (d - mean)) l 0)%R
       | None => None
       end.

(** [std::log]; [None] if the result is not finite *)
Definition logR (x : R) : option R := if Rlt_dec 0 x then Some (ln x) else None.
Fixpoint logsR (l : list R) : option (list R) :=
  match l with
  | [] => Some []
  | x :: t => match logR x, logsR t with Some y, Some r => Some (y :: r) | _, _ => None end
  end.

(** FractalDimension.hh 99-129 *)
Definition correlationDimension (x y : list R) : outcome (option R) :=
  if negb (length x =? length y) then Throw RuntimeError
  else Ok (match logsR x, logsR y with
           | Some X, Some Y =>
               match sampleCovarianceR X Y, sampleVarianceR X with
               | Some cov, Some var => divR cov var
               | _, _ => None
               end
           | _, _ => None
           end).

(** DimensionalityEstimators.hh 239-267: the local estimate for [k > 0]; reading behind the end
    of the row is undefined before [at] could throw *)
Definition mle_local (row : list R) (k : nat) : outcome R :=
  let* logEstimates := foldM (fun l j =>
    let* d := get_ row j in
    if Rlt_dec 0 d then
      let* dk := at_ row k in
      Ok (l ++ [if Rlt_dec 0 dk then ln (dk / d) else 0%R])
    else Ok (l ++ [0%R])) (seq 0 k) [] in
  let mk := if 1 <? k then (1 / INR (k - 1) * kahanR_all logEstimates)%R else 0%R in
  Ok (if Rlt_dec 0 mk then (1 / mk)%R else 0%R).

(** DimensionalityEstimators.hh 201-274; [distances] is the result of [neighbourSearch( kMax )]
    for the larger number *)
Definition dimensionalityMLE (n kMin kMax : nat) (distances : list (list R)) : outcome (list R) :=
  let '(kMin, kMax) := if kMax <? kMin then (kMax, kMin) else (kMin, kMax) in
  if (kMax =? 0) || (kMin =? 0) then Throw RuntimeError
  else foldM (fun estimates i =>
    let* row := at_ distances i in
    let* localEstimates := foldM (fun l k =>
      if k =? 0 then Ok l else let* m := mle_local row k in Ok (l ++ [m])) (seq (kMin - 1) (kMax - (kMin - 1))) [] in
    Ok (estimates ++ [(kahanR_all localEstimates / INR (kMax - kMin + 1))%R])) (seq 0 n) [].
