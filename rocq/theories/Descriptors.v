(** * Model of the rational parts of [containers/DataDescriptors.hh],
      [containers/FractalDimension.hh], [containers/MeanShift.hh] and
      [containers/DimensionalityEstimators.hh].

    A container with [n] points is represented by the distances of its points (see
    [VietorisRips.v]).  [double] is modelled by rational numbers with exact arithmetic;
    [None] is a value that is not finite. *)
From Coq Require Import List Arith Bool ZArith QArith Qminmax.
From Verif Require Import Base SymmetricMatrix VietorisRips Curvature Statistics.
Import ListNotations.
Local Open Scope nat_scope.

(** KahanSummation.hh 75-83 *)
Definition kahanQ_all (values : list Q) : Q := fst (fold_left kahanQ_add values (0%Q, 0%Q)).

(** DataDescriptors.hh 138-169 with [BruteForce] *)
Definition distanceToMeasure (n : nat) (dist : nat -> nat -> Z) (k : nat) : outcome (list Q) :=
  let* r := neighbourSearch n dist k in
  foldM (fun densities i =>
    let* row := get_ (snd r) i in
    let density := kahanQ_all (map inject_Z row) in
    let density := (- density)%Q in
    Ok (densities ++ [(density / inject_Z (Z.of_nat n))%Q])) (seq 0 n) [].

(** DataDescriptors.hh 183-193: [distances(i,j)] for [i < j]; the diagonal keeps the 0 of the
    constructor *)
Definition lens_distances (n : nat) (dist : nat -> nat -> Z) : outcome (symmetric Z) :=
  foldM (fun M i =>
    foldM (fun M j => sm_set M i j (dist i j)) (seq (i + 1) (n - (i + 1))) M) (seq 0 n) (sm_make 0%Z n).

(** DataDescriptors.hh 171-221 *)
Definition lensDataDepth (n : nat) (dist : nat -> nat -> Z) : outcome (list nat) :=
  let* M := lens_distances n dist in
  foldM (fun counts i =>
    foldM (fun counts j =>
      let* criticalDistance := sm_get M i j in
      foldM (fun counts k =>
        if (k =? i) || (k =? j) then Ok counts
        else
          let* distance_i := sm_get M i k in
          let* distance_j := sm_get M j k in
          if (Z.max distance_i distance_j <=? criticalDistance)%Z then
            let* c := get_ counts k in Ok (upd counts k (S c))
          else Ok counts) (seq 0 n) counts) (seq (i + 1) (n - (i + 1))) counts) (seq 0 n) (repeat 0 n).

(** [distances[ x ] += 1] for a [std::map], which is a list in ascending order of the keys *)
Fixpoint count_key (m : list (Z * nat)) (x : Z) : list (Z * nat) :=
  match m with
  | [] => [(x, 1)]
  | (y, c) :: t => if (x <? y)%Z then (x, 1) :: m else if (y <? x)%Z then (y, c) :: count_key t x else (y, S c) :: t
  end.

(** FractalDimension.hh 38-91: the fields [x] and [y] as pairs *)
Definition correlationDimensionIntegral (n : nat) (dist : nat -> nat -> Z) : list (Z * Q) :=
  let distances := fold_left (fun m i =>
    fold_left (fun m j => count_key m (dist i j)) (seq (i + 1) (n - (i + 1))) m) (seq 0 n) [] in
  snd (fold_left (fun (st : nat * list (Z * Q)) p =>
    let seen := fst st + snd p in
    (seen, if (0 <? fst p)%Z
           then snd st ++ [(fst p, (inject_Z (Z.of_nat seen) / (inject_Z (Z.of_nat (n * (n - 1))) * (1 # 2)))%Q)]
           else snd st)) distances (0, [])).

(** MeanShift.hh 65-80: the new value at one index.  [data[ index ]] and [distances_[j]] are
    unchecked; the quotient is not finite without neighbours. *)
Definition shift_row (data : list Q) (neighbours : list nat) (distances : list Q) : outcome (option Q) :=
  let* r := foldM (fun (st : (Q * Q) * (Q * Q)) j =>
    let* index := get_ neighbours j in
    let* d := get_ distances j in
    let weight := (if Qltb 0 d then 1 / (d * d) else 1)%Q in
    let* x := get_ data index in
    Ok (kahanQ_add (fst st) (x * weight)%Q, kahanQ_add (snd st) weight))
    (seq 0 (length neighbours)) ((0%Q, 0%Q), (0%Q, 0%Q)) in
  Ok (divide (fst (fst r)) (fst (snd r))).

(** MeanShift.hh 59-87: one iteration for [N] points.  The elements of [data_] beyond [N] keep
    the value 0; a value that is not finite ends the model of the loop. *)
Definition shift_step (N : nat) (indices : list (list nat)) (distances : list (list Q)) (data : list Q) : outcome (option (list Q)) :=
  foldM (fun (data_ : option (list Q)) i =>
    let* ns := get_ indices i in
    let* ds := get_ distances i in
    let* v := shift_row data ns ds in
    match data_ with
    | None => Ok None
    | Some l => if i <? length l then Ok (match v with Some x => Some (upd l i x) | None => None end) else UB
    end) (seq 0 N) (Some (repeat 0%Q (length data))).

(** MeanShift.hh 29-91; [indices] and [distances] are the result of [neighbourSearch( k+1 )] *)
Definition meanShiftSmoothing (N : nat) (indices : list (list nat)) (distances : list (list Q)) (data : list Q) (n : nat) : outcome (option (list Q)) :=
  foldM (fun (data : option (list Q)) (_ : nat) =>
    match data with
    | None => Ok None
    | Some data => shift_step N indices distances data
    end) (seq 0 n) (Some data).

(** [nnDistances.begin() + k] is undefined beyond the end *)
Definition prefix (row : list Q) (k : nat) : outcome (list Q) := if k <=? length row then Ok (firstn k row) else UB.

(** DimensionalityEstimators.hh 37-69; [distances] is the result of [neighbourSearch( k+1 )] *)
Definition dimensionalityNN (n k : nat) (distances : list (list Q)) : outcome (list (option Q)) :=
  foldM (fun estimates i =>
    let* row := at_ distances i in
    let* p1 := prefix row k in
    let* p2 := prefix row (k + 1) in
    let r1 := divide (kahanQ_all p1) (inject_Z (Z.of_nat k)) in
    let r2 := (kahanQ_all p2 / inject_Z (Z.of_nat (k + 1)))%Q in
    Ok (estimates ++ [match r1 with
                      | Some r1 => divide r1 ((r2 - r1) * inject_Z (Z.of_nat k))%Q
                      | None => None
                      end])) (seq 0 n) [].

(** DimensionalityEstimators.hh 100-170; [distances] is the result of
    [neighbourSearch( kMax )] for the larger number *)
Definition dimensionalityRange (n kMin kMax : nat) (distances : list (list Q)) : outcome (list (option Q)) :=
  let '(kMin, kMax) := if kMax <? kMin then (kMax, kMin) else (kMin, kMax) in
  if (kMax =? 0) || (kMin =? 0) then Throw RuntimeError
  else foldM (fun estimates i =>
    let* row := at_ distances i in
    let* localEstimates := foldM (fun l k => let* p := prefix row k in Ok (l ++ [(kahanQ_all p / inject_Z (Z.of_nat k))%Q])) (seq kMin (kMax - kMin)) [] in
    let* terms := foldM (fun (t : list Q * list Q) k =>
      let index := k - kMin in
      let* r1 := at_ localEstimates index in
      let* r2 := at_ localEstimates (index + 1) in
      Ok (fst t ++ [((r2 - r1) * r1 / inject_Z (Z.of_nat k))%Q], snd t ++ [((r2 - r1) * (r2 - r1))%Q])) (seq kMin (kMax - 1 - kMin)) ([], []) in
    let s := kahanQ_all (fst terms) in
    let t := kahanQ_all (snd terms) in
    Ok (estimates ++ [divide s t])) (seq 0 n) [].

(** DimensionalityEstimators.hh 378-431: the index of the largest gap of the singular values;
    no estimate for fewer than two values *)
Fixpoint spectral_gap (prev : Q) (l : list Q) (position : nat) (gap : option Q) (index : nat) : nat :=
  match l with
  | [] => index
  | curr :: t =>
      let g := Qabs.Qabs (prev - curr) in
      match gap with
      | Some h => if Qltb h g then spectral_gap curr t (S position) (Some g) (position + 1)
                  else spectral_gap curr t (S position) gap index
      | None => spectral_gap curr t (S position) (Some g) (position + 1)
      end
  end.
Definition dimensionalityPCA (singularValues : list (list Q)) : list nat :=
  fold_left (fun estimates s =>
    match s with
    | prev :: curr :: t => estimates ++ [spectral_gap prev (curr :: t) 0 None 0]
    | _ => estimates
    end) singularValues [].
