(** * Model of the matrix of pairwise distances in [src/tools/topological_distance.cc].

    [double] is modelled by the real numbers of the standard library, [std::size_t] by the
    numbers modulo [2^64].  The pairs of data sets are enumerated by a loop that runs in
    parallel; the order in which the iterations take place is a parameter. *)
From Coq Require Import Reals List Arith Bool ZArith.
From Verif Require Import Base.
Import ListNotations.
Local Open Scope Z_scope.

(** arithmetic of [std::size_t] *)
Definition size_limit : Z := 18446744073709551616.
Definition wrap (x : Z) : Z := x mod size_limit.

(** topological_distance.cc 749: the conversion of a negative number, or of the square root
    of one, is undefined *)
Definition unrank_row (n k : Z) : outcome Z :=
  let radicand := (- (8) * IZR k + IZR (wrap (wrap (4 * n) * wrap (n - 1))) - 7)%R in
  if Rlt_dec radicand 0 then UB
  else
    let row := wrap (n - 2) - Int_part (sqrt radicand / 2 - 1 / 2)%R in
    if row <? 0 then UB else Ok row.

(** topological_distance.cc 750 *)
Definition unrank_col (n k row : Z) : Z :=
  wrap (k + row + 1 - wrap (n * wrap (n - 1)) / 2 + wrap (wrap (n - row) * wrap (wrap (n - row) - 1)) / 2).

(** topological_distance.cc 744 *)
Definition number_of_pairs (n : Z) : Z := wrap (n * wrap (n - 1)) / 2.

(** topological_distance.cc 761-766 *)
Definition kernel_value (calculateKernel useExponentialFunction : bool) (sigma d : R) : R :=
  if calculateKernel then if useExponentialFunction then exp (sigma * - d) else (- d)%R
  else d.

(** [distances[row][col] = d] *)
Definition set_entry (M : list (list R)) (row col : nat) (d : R) : outcome (list (list R)) :=
  let* r := get_ M row in
  let* _ := get_ r col in
  Ok (upd M row (upd r col d)).

Section Matrix.
  Context {A : Type}.
  (** the distance or kernel value of two data sets, lines 752-759 *)
  Variables (measure : A -> A -> outcome R) (calculateKernel useExponentialFunction : bool) (sigma : R).

  (** topological_distance.cc 747-773: one iteration *)
  Definition matrix_step (dataSets : list A) (M : list (list R)) (k : Z) : outcome (list (list R)) :=
    let n := Z.of_nat (length dataSets) in
    let* row := unrank_row n k in
    let col := unrank_col n k row in
    let* x := at_ dataSets (Z.to_nat row) in
    let* y := at_ dataSets (Z.to_nat col) in
    let* d := measure x y in
    let d := kernel_value calculateKernel useExponentialFunction sigma d in
    let* M := set_entry M (Z.to_nat row) (Z.to_nat col) d in
    set_entry M (Z.to_nat col) (Z.to_nat row) d.

  (** topological_distance.cc 739-774 with the iterations in the given order *)
  Definition distance_matrix (dataSets : list A) (order : list Z) : outcome (list (list R)) :=
    foldM (matrix_step dataSets) order (repeat (repeat 0%R (length dataSets)) (length dataSets)).
End Matrix.

(** topological_distance.cc 141-161: the positions that are written, row by row; [M[row][col]]
    is undefined if the row is too short *)
Definition storeMatrix (M : list (list R)) : outcome (list (list R)) :=
  match M with
  | [] => Ok []
  | first :: _ =>
      foldM (fun out row =>
        let* line := foldM (fun line col => let* x := get_ row col in Ok (line ++ [x])) (seq 0 (length first)) [] in
        Ok (out ++ [line])) M []
  end.
