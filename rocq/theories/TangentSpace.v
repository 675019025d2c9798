(** * Model of [geometry/TangentSpace.hh].

    [double] is modelled by the real numbers of the standard library.  A point cloud is the list of its
    points, all of which have [d] coordinates, and a matrix is the list of its rows.  The neighbours and
    their distances are given (see [BruteForce], C72).  The decompositions of Eigen are parameters: [svd]
    returns the columns of the matrix V, and [eigen] returns real and imaginary parts of the generalized
    eigenvalues with the real parts of the eigenvectors.  [fitSpheres], which is never called, is not
    modelled. *)
From Coq Require Import Reals List Arith Bool.
From Verif Require Import Base HeatKernel MathReal.
Import ListNotations.
Local Open Scope R_scope.

(** TangentSpace.hh 41-44 *)
Definition phi (x : R) : R := if Rlt_dec x 1 then (1 - x * x) ^ 4 else 0.

(** the operations of Eigen for vectors *)
Definition vec2 (f : R -> R -> R) (x y : list R) : list R := map (fun p => f (fst p) (snd p)) (combine x y).
Definition dot (x y : list R) : R := fold_right Rplus 0 (vec2 Rmult x y).
Definition norm (x : list R) : R := sqrt (dot x x).
Definition normalized (x : list R) : list R := if Rlt_dec 0 (dot x x) then map (fun a => a / norm x) x else x.
Definition zeros (d : nat) : list R := repeat 0 d.

(** TangentSpace.hh 467-479 and PointCloud.hh 153-163; copies the [d] coordinates of a point *)
Definition getPosition (container : list (list R)) (i : nat) : outcome (list R) :=
  match nth_error container i with Some p => Ok p | None => Throw RuntimeError end.

Record local_space := LocalSpace { l_tangents : list (list R); l_normal : list R; l_position : list R; l_size : R; l_indices : list nat }.

Section Spaces.
Variable svd : nat -> nat -> list (list R) -> list (list R).
Variable eigen : list (list R) -> list (list R) -> list ((R * R) * list R).
Variable container : list (list R).
Variables d k : nat.

(** TangentSpace.hh 142-165; [n] is the number of points *)
Definition coordinate_matrix (n : nat) (neighbours : list nat) : outcome (list (list R)) :=
  let* s := foldM (fun '(centroid, M, j) index =>
                     let* v := getPosition container index in
                     if (j <? k)%nat then Ok (vec2 Rplus centroid v, upd M j v, S j) else UB)
                  neighbours (zeros d, repeat (zeros d) k, 0%nat) in
  let '(centroid, M, _) := s in
  let centroid := map (fun a => a / INR n) centroid in
  Ok (map (fun row => vec2 Rminus row centroid) M).

(** TangentSpace.hh 181; [k - 1] wraps around if [k] is zero *)
Definition effective : nat := if (k =? 0)%nat then d - 1 else min (d - 1) (k - 1).

(** TangentSpace.hh 193-196 *)
Definition feature_size (distances : list R) : R := match distances with [] => 0 | x :: r => fold_left Rmax r x end.

(** TangentSpace.hh 137-207 *)
Definition local_space_at (indices : list (list nat)) (distances : list (list R)) (i : nat) : outcome local_space :=
  let* neighbours := get_ indices i in
  let* M := coordinate_matrix (length indices) neighbours in
  let V := svd k d M in
  let* tangents := foldM (fun tangents j => let* v := get_ V j in Ok (upd tangents j v)) (seq 0 effective) (repeat (zeros d) (d - 1)) in
  let* v := get_ V effective in
  let* position := getPosition container i in
  let* near := get_ distances i in
  Ok (LocalSpace tangents (normalized v) position (feature_size near) neighbours).

(** the order of [std::pair] *)
Definition pair_ltb (a b : nat * nat) : bool := orb (fst a <? fst b)%nat (andb (fst a =? fst b)%nat (snd a <? snd b)%nat).
(** [std::set::insert] *)
Fixpoint edge_insert (e : nat * nat) (l : list (nat * nat)) : list (nat * nat) :=
  match l with
  | [] => [e]
  | f :: r => if pair_ltb e f then e :: l else if pair_ltb f e then f :: edge_insert e r else l
  end.
(** TangentSpace.hh 436-447 *)
Definition orientation_edges (spaces : list local_space) : outcome (list (nat * nat)) :=
  foldM (fun edges i =>
           let* s := at_ spaces i in
           Ok (fold_left (fun edges index => edge_insert (if (i <? index)%nat then (i, index) else (index, i)) edges) (l_indices s) edges))
        (seq 0 (length spaces)) [].
(** TangentSpace.hh 449-458 *)
Definition orient (spaces : list local_space) (e : nat * nat) : outcome (list local_space) :=
  let* a := at_ spaces (fst e) in
  let* b := at_ spaces (snd e) in
  if Rlt_dec (dot (l_normal a) (l_normal b)) 0
  then Ok (upd spaces (snd e) (LocalSpace (l_tangents b) (map Ropp (l_normal b)) (l_position b) (l_size b) (l_indices b)))
  else Ok spaces.
(** TangentSpace.hh 432-459 *)
Definition propagateOrientation (spaces : list local_space) : outcome (list local_space) :=
  let* edges := orientation_edges spaces in
  foldM orient edges spaces.

(** TangentSpace.hh 114-211 *)
Definition localTangentSpaces (indices : list (list nat)) (distances : list (list R)) : outcome (list local_space) :=
  let* spaces := foldM (fun spaces i => let* s := local_space_at indices distances i in Ok (spaces ++ [s])) (seq 0 (length container)) [] in
  propagateOrientation spaces.

(** TangentSpace.hh 392; the quotient is not a number or infinite if the size is zero *)
Definition weight (position neighbour : list R) (size : R) : R :=
  match divR (norm (vec2 Rminus position neighbour)) size with Some x => phi x | None => 0 end.

(** a matrix with the given entries, and products of matrices *)
Definition matrix_of (n m : nat) (f : nat -> nat -> R) : list (list R) := map (fun r => map (f r) (seq 0 m)) (seq 0 n).
Definition entry_of (M : list (list R)) (r c : nat) : R := nth c (nth r M []) 0.
Definition mat_mul (n k m : nat) (A B : list (list R)) : list (list R) := matrix_of n m (fun r c => fold_right Rplus 0 (map (fun i => entry_of A r i * entry_of B i c) (seq 0 k))).
Definition transpose (n m : nat) (A : list (list R)) : list (list R) := matrix_of m n (fun r c => entry_of A c r).

(** TangentSpace.hh 385-402; the diagonal of W and the matrix D *)
Definition sphere_rows (s : local_space) : outcome (list R * list (list R)) :=
  foldM (fun '(W, D) index =>
           let* neighbour := getPosition container index in
           Ok (W ++ [weight (l_position s) neighbour (l_size s)], D ++ [1 :: neighbour ++ [dot neighbour neighbour]]))
        (l_indices s) ([], []).
(** TangentSpace.hh 378-383 *)
Definition pratt : list (list R) :=
  matrix_of (d + 2) (d + 2) (fun r c =>
    if (r =? 0)%nat then (if (c =? d + 1)%nat then -2 else 0)
    else if (r =? d + 1)%nat then (if (c =? 0)%nat then -2 else 0)
    else if (r =? c)%nat then 1 else 0).
(** TangentSpace.hh 409-411 *)
Definition normal_matrix (W : list R) (D : list (list R)) : list (list R) :=
  let k := length W in
  mat_mul (d + 2) k (d + 2) (mat_mul (d + 2) k k (transpose k (d + 2) D) (matrix_of k k (fun r c => if (r =? c)%nat then nth r W 0 else 0))) D.
(** TangentSpace.hh 413-423 *)
Definition select (solutions : list ((R * R) * list R)) : list R :=
  match find (fun s => if Rlt_dec 0 (fst (fst s)) then if Req_EM_T (snd (fst s)) 0 then true else false else false) solutions with
  | Some s => snd s
  | None => zeros (d + 2)
  end.
(** TangentSpace.hh 365-428 *)
Definition fitSpheresWithoutNormals (spaces : list local_space) : outcome (list (list R)) :=
  foldM (fun spheres s =>
           let* rows := sphere_rows s in
           let (W, D) := rows in
           let* sphere := sphere_make (select (eigen (normal_matrix W D) pratt)) in
           Ok (spheres ++ [sphere])) spaces [].
(** TangentSpace.hh 83-99 *)
Definition tangent_space (indices : list (list nat)) (distances : list (list R)) : outcome (list R) :=
  let* spaces := localTangentSpaces indices distances in
  let* spheres := fitSpheresWithoutNormals spaces in
  Ok (map meanCurvature spheres).
End Spaces.
