(** * Model of [persistenceDiagrams/Mean.hh].

    [DataType] is [Z] with exact arithmetic; [top] is
    [std::numeric_limits<DataType>::max()].  The running [cost] of [mean] (Mean.hh
    192, 205, 279, 288) has no effect on the result and is left out.  The parallel
    loops run in order. *)

From Coq Require Import List Arith Bool ZArith.
From Verif Require Import Base Diagram Munkres Hausdorff Wasserstein.
Import ListNotations.

(** Mean.hh 33-45: equality only compares the costs *)
Record pairing := Pairing { p_cost : Z; p_pairs : list (nat * nat) }.
Definition pairing_eqb (p q : pairing) : bool := (p_cost p =? p_cost q)%Z.

Section Mean.
  (** as for the Wasserstein distance; [half] is the division by two, [div] the
      division by the number of diagrams *)
  Variables (top : Z) (dist : point -> point -> Z) (orth : point -> Z) (half : Z -> Z) (div : Z -> Z -> Z).

  (** Mean.hh 150-169 *)
  Definition pairing_of (n : nat) (M costs : matrix Z) : pairing :=
    let r := fold_left (fun acc row => fold_left (fun (acc : list (nat * nat) * (Z * Z)) col =>
      if (M row col =? 0)%Z then (fst acc ++ [(row, col)], kahan_add (snd acc) (costs row col)) else acc) (indices n) acc) (indices n) ([], (0%Z, 0%Z)) in
    Pairing (fst (snd r)) (fst r).

  (** Mean.hh 47-171; the matrix of costs is built as in Wasserstein.hh *)
  Definition optimalPairing (fuel : nat) (D1 D2 : diagram) : outcome pairing :=
    if negb (dgm_dim D1 =? dgm_dim D2) then Throw RuntimeError
    else
      let n := length (points D1) + length (points D2) in
      let costs := wasserstein_costs top dist orth (points D1) (points D2) in
      let* M := munkres top n fuel costs in
      Ok (pairing_of n M costs).

  (** Mean.hh 194-207 and 266-281 *)
  Definition all_pairings (fuel : nat) (Y : diagram) (ds : list diagram) : outcome (list pairing) :=
    foldM (fun ps D => let* p := optimalPairing fuel Y D in Ok (ps ++ [p])) ds [].

  (** Mean.hh 217-254: the sums of the coordinates of the partners of point [i] and their number *)
  Definition partners (i : nat) (ds : list diagram) (pairings : list pairing) : outcome ((Z * Z) * (Z * Z) * nat) :=
    let* r := foldM (fun (st : (Z * Z) * (Z * Z) * nat * nat) pr =>
      let '(x0, y0, num, index) := st in
      let* D := get_ ds index in
      let* ij := at_ (p_pairs pr) i in
      if snd ij <? length (points D) then
        let* q := get_ (points D) (snd ij) in
        Ok (kahan_add x0 (fst q), kahan_add y0 (snd q), num + 1, index + 1)
      else Ok (x0, y0, num, index + 1)) pairings ((0%Z, 0%Z), (0%Z, 0%Z), 0, 0) in
    Ok (fst r).

  (** Mean.hh 215-260 *)
  Definition mean_point (Y : diagram) (ds : list diagram) (pairings : list pairing) (i : nat) : outcome point :=
    let* p := get_ (points Y) i in
    let x1 := half (fst p + snd p)%Z in
    let y1 := half (fst p + snd p)%Z in
    let* r := partners i ds pairings in
    let '(x0, y0, num) := r in
    let x := div (fst x0 + Z.of_nat (length ds - num) * x1)%Z (Z.of_nat (length pairings)) in
    let y := div (fst y0 + Z.of_nat (length ds - num) * y1)%Z (Z.of_nat (length pairings)) in
    Ok (x, y).

  (** Mean.hh 212-263; [Z] is a default-constructed diagram *)
  Definition mean_step (Y : diagram) (ds : list diagram) (pairings : list pairing) : outcome diagram :=
    let* Z := foldM (fun Z i => let* p := mean_point Y ds pairings i in Ok (d_add Z p)) (seq 0 (length (points Y))) empty_diagram in
    Ok (removeDiagonal Z).

  Fixpoint pairings_eqb (ps qs : list pairing) : bool :=
    match ps, qs with
    | [], [] => true
    | p :: ps', q :: qs' => pairing_eqb p q && pairings_eqb ps' qs'
    | _, _ => false
    end.

  (** Mean.hh 209-291 *)
  Fixpoint mean_loop (fuel rounds : nat) (Y : diagram) (ds : list diagram) (pairings : list pairing) : outcome diagram :=
    match rounds with
    | 0 => OutOfFuel
    | S rounds' =>
        let* Y' := mean_step Y ds pairings in
        let* newPairings := all_pairings fuel Y' ds in
        if pairings_eqb newPairings pairings then Ok Y' else mean_loop fuel rounds' Y' ds newPairings
    end.

  (** Mean.hh 175-294; [choice] is the random index (Mean.hh 183-188) *)
  Definition mean (fuel rounds choice : nat) (ds : list diagram) : outcome diagram :=
    let* Y0 := at_ ds choice in
    let Y := removeDiagonal Y0 in
    let* pairings := all_pairings fuel Y ds in
    mean_loop fuel rounds Y ds pairings.
End Mean.
