(** * Model of [math/PrincipalComponentAnalysis.hh].

    [double] is modelled by the real numbers of the standard library.  A matrix is the list of its rows;
    the singular value decomposition of Eigen is a parameter [svd] that is given the numbers of rows and
    columns and the matrix, and returns the singular values and the columns of the matrix V. *)
From Coq Require Import Reals List Arith Bool.
From Verif Require Import Base.
Import ListNotations.
Local Open Scope R_scope.

(** the sum of a column; rows are at least as long as the column requires *)
Definition column_sum (M : list (list R)) (c : nat) : R := fold_right Rplus 0 (map (fun row => nth c row 0) M).

(** PrincipalComponentAnalysis.hh 59-60; the map reads [m] numbers from the address of the first element *)
Definition pca_rows (m : nat) (data : list (list R)) : outcome (list (list R)) :=
  foldM (fun M row => if orb (length row <? m)%nat (length row =? 0)%nat then UB else Ok (M ++ [firstn m row])) data [].

(** PrincipalComponentAnalysis.hh 62-63 *)
Definition pca_scaled (m : nat) (M : list (list R)) : list (list R) :=
  map (fun row => map (fun c => (nth c row 0 - column_sum M c / INR (length M)) / sqrt (INR m)) (seq 0 m)) M.

(** PrincipalComponentAnalysis.hh 40-92; the result consists of the components and the singular values *)
Definition pca (svd : nat -> nat -> list (list R) -> list R * list (list R)) (data : list (list R)) : outcome (list (list R) * list R) :=
  match data with
  | [] => Ok ([], [])
  | first :: _ =>
      let n := length data in
      let m := length first in
      let* M := pca_rows m data in
      let (singularValues, V) := svd n m (pca_scaled m M) in
      let* components := foldM (fun components i => let* column := get_ V i in Ok (components ++ [column])) (seq 0 (min n m)) [] in
      Ok (components, singularValues)
  end.
