(** * Model of [persistenceDiagrams/Entropy.hh].

    Coordinates are integers, intermediate results are rational numbers.  [None]
    stands for values that are not finite, i.e. NaN or infinity, which no later
    calculation makes finite again.  [log] is [std::log2] for positive numbers.
    [inf] is the second coordinate of unpaired points. *)

From Coq Require Import List Arith Bool ZArith QArith Qround.
From Verif Require Import Base Diagram Norms Curvature VietorisRips.
Import ListNotations.
Local Open Scope nat_scope.

Section Entropy.
  Variable log : Q -> Q.

  (** all values, if they are finite *)
  Fixpoint all_finite (l : list (option Q)) : option (list Q) :=
    match l with
    | [] => Some []
    | x :: l => match x, all_finite l with Some x, Some l => Some (x :: l) | _, _ => None end
    end.
  (** KahanSummation.hh 83-95 *)
  Definition sum_finite (l : list (option Q)) : option Q :=
    match all_finite l with Some l => Some (kahanQ_sorted l) | None => None end.
  Definition negated (x : option Q) : option Q := match x with Some x => Some (- x)%Q | None => None end.

  (** Entropy.hh 173-177: the logarithm of zero is infinite, and its product with
      zero is not a number *)
  Definition probability_term (total : option Q) (x : option Q) : option Q :=
    match total, x with
    | Some total, Some x =>
        if Qeq_bool total 0 then None
        else let p := (x / total)%Q in if Qltb 0 p then Some (p * log p)%Q else None
    | _, _ => None
    end.

  (** Entropy.hh 147-183 *)
  Definition persistentEntropy (inf : Z) (D : diagram) : option Q :=
    let persistenceValues := map (fun p => if isUnpaired inf p then None else Some (inject_Z (point_persistence p))) (points D) in
    let totalPersistence := sum_finite persistenceValues in
    negated (sum_finite (map (probability_term totalPersistence) persistenceValues)).

  (** Entropy.hh 67-73 *)
  Definition log_or_zero (x : Q) : Q := if Qeq_bool x 0 then 0%Q else log x.

  (** Entropy.hh 196-254, for the distances of the points of the diagram; [pi2] is
      [2 * M_PI].  Areas are not negative. *)
  Definition nearestNeighbourAreaEntropy (pi2 : Q) (n : nat) (dist : nat -> nat -> Z) : outcome (option Q) :=
    let* nn := neighbourSearch n dist 2 in
    let* distances := foldM (fun acc row => let* x := at_ row 1 in Ok (acc ++ [x])) (snd nn) [] in
    let areas := map (fun r => (inject_Z r * inject_Z r * pi2)%Q) distances in
    let totalArea := kahanQ_sorted areas in
    Ok (negated (sum_finite (map (fun area => if Qeq_bool totalArea 0 then None
                                              else let p := (area / totalArea)%Q in Some (p * log_or_zero p)%Q) areas))).

  (** Entropy.hh 38-57, with [transform] *)
  Definition transformed (D : diagram) : list (Q * Q) :=
    map (fun p => (inject_Z (fst p + snd p), inject_Z (snd p - fst p))) (points D).

  (** [std::minmax_element] of a non-empty sequence: the smallest and the largest value *)
  Definition minQ (x : Q) (l : list Q) : Q := fold_left (fun m y => if Qltb y m then y else m) l x.
  Definition maxQ (x : Q) (l : list Q) : Q := fold_left (fun m y => if Qltb m y then y else m) l x.

  (** Entropy.hh 104-113, one coordinate: [unsigned( (x - x0) / offset )] where
      [offset] is [(x1 - x0) / (n - 1)] for [unsigned n]; it is infinite for [n = 1],
      unless [x0 = x1].  The conversion of NaN is undefined. *)
  Definition grid_index (n : nat) (x0 x1 x : Q) : outcome nat :=
    if Qeq_bool x0 x1 then UB
    else if n =? 1 then Ok 0
    else let offset := ((x1 - x0) / inject_Z (if (n =? 0)%nat then 2 ^ 32 - 1 else Z.of_nat n - 1))%Q in
         Ok (Z.to_nat (Qfloor ((x - x0) / offset))).

  (** Entropy.hh 268-323; [c] is [0.5 * std::sqrt(2)].  Cells outside of the grid
      must not be accessed. *)
  Definition gridEntropy (c : Q) (D : diagram) (n : nat) : outcome (option Q) :=
    let pc := transformed D in
    let X := map (fun p => (c * fst p + c * snd p)%Q) pc in
    let Y := map (fun p => (- c * fst p + c * snd p)%Q) pc in
    match X, Y with
    | x :: X', y :: Y' =>
        let x0 := minQ x X' in let x1 := maxQ x X' in
        let y0 := minQ y Y' in let y1 := maxQ y Y' in
        let* cells := foldM (fun cells p =>
          let* i := grid_index n x0 x1 (fst p) in
          let* j := grid_index n y0 y1 (snd p) in
          let* v := get_ cells (j * n + i) in
          Ok (upd cells (j * n + i) (S v))) (combine X Y) (repeat 0 (n * n)) in
        Ok (negated (sum_finite (map (fun k =>
          if k =? 0 then Some 0%Q
          else let p := (inject_Z (Z.of_nat k) / inject_Z (Z.of_nat (length pc)))%Q in Some (p * log_or_zero p)%Q) cells)))
    | _, _ => Ok (Some 0%Q)
    end.
End Entropy.
