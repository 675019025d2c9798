(** * Model of [src/tools/process_image_patches.cc].

    [float] is modelled by the real numbers of the standard library; sums are exact.  A point cloud
    is the list of its points, all of the same dimension; the access to a point outside of it throws
    (PointCloud.hh 153-179).  Logarithms of negative numbers, which are no numbers, are not
    modelled: the theorems are about non-negative intensities.  [None] is a value that is not finite,
    i.e. infinite or no number.  The truncation of a sum to [int] does not overflow.  Reading and
    printing a point cloud is the subject of [PointCloud.v]. *)
From Coq Require Import Reals List Arith Bool ZArith.
From Verif Require Import Base.
Import ListNotations.
Local Open Scope R_scope.

(** process_image_patches.cc 26-32 *)
Definition log_ (x : R) : R := if Req_EM_T x 0 then 0 else ln x / ln 10.

(** process_image_patches.cc 48-60: the contribution of one cell; [i-1 < n] is false for [i = 0],
    because [i-1] is then the largest unsigned number *)
Definition add_square (data : list R) (a b : nat) (d : R) : outcome R :=
  let* x := at_ data a in
  let* y := at_ data b in
  Ok (d + (x - y) * (x - y)).
Definition contrast_cell (data : list R) (n i : nat) (d : R) (j : nat) : outcome R :=
  let index := (n * i + j)%nat in
  let* d := if (j + 1 <? n)%nat then add_square data index (index + 1) d else Ok d in
  let* d := if (1 <=? j)%nat then add_square data index (index - 1) d else Ok d in
  let* d := if (i + 1 <? n)%nat then add_square data index (index + n) d else Ok d in
  if (1 <=? i)%nat then add_square data index (index - n) d else Ok d.

(** process_image_patches.cc 34-64; [n] is the integer part of the square root *)
Definition contrastNorm (data : list R) : outcome R :=
  let n := Nat.sqrt (length data) in
  foldM (fun d i => foldM (contrast_cell data n i) (seq 0 n) d) (seq 0 n) 0.

(** KahanSummation.hh: [accumulate_kahan_sorted], with exact sums *)
Definition total (p : list R) : R := fold_left Rplus p 0.

(** process_image_patches.cc 108-115 and 186-194 *)
Definition subtract_mean (dimension : nat) (p : list R) : list R :=
  let mean := total p / INR dimension in
  map (fun x => x - mean) p.

(** process_image_patches.cc 98-130: the processed patch and its norm *)
Definition process_patch (dimension : nat) (p : list R) : outcome (list R * R) :=
  let q := subtract_mean dimension (map log_ p) in
  let* norm := contrastNorm q in
  Ok (if Rlt_dec 0 norm then map (fun x => x / norm) q else q, norm).

Definition collect {A B : Type} (f : A -> outcome B) (l : list A) : outcome (list B) :=
  foldM (fun o a => let* b := f a in Ok (o ++ [b])) l [].

(** process_image_patches.cc 148: [ceil( 0.8 * n )], without the errors of floating-point numbers *)
Definition threshold_position (n : nat) : nat := ((4 * n + 4) / 5)%nat.

Definition lessR (a b : R) : bool := if Rlt_dec a b then true else false.

(** process_image_patches.cc 141-170 *)
Definition filter_patches (processed : list (list R * R)) : outcome (list (list R)) :=
  let norms := map snd processed in
  let* threshold := at_ (cpp_sort lessR norms) (threshold_position (length norms)) in
  Ok (map fst (filter (fun q => negb (lessR (snd q) threshold)) processed)).

(** process_image_patches.cc 196: the initial value of [std::inner_product] is an [int], so that the sum
    is truncated after every addition *)
Definition inner_product_int (p : list R) : Z :=
  fold_left (fun s x => Int_part (IZR s + x * x)) p 0%Z.

(** process_image_patches.cc 186-202; the division by zero has no finite value *)
Definition final_patch (dimension : nat) (p : list R) : list (option R) :=
  let q := subtract_mean dimension p in
  let norm := sqrt (IZR (inner_product_int q)) in
  map (fun x => if Req_EM_T norm 0 then None else Some (x / norm)) q.

(** process_image_patches.cc 93-206, after reading the point cloud.  The last loop runs over the indices of
    the original point cloud; every point is read before it is overwritten. *)
Definition process_image_patches (dimension : nat) (cloud : list (list R)) : outcome (list (list (option R))) :=
  let* processed := collect (process_patch dimension) cloud in
  let* filtered := filter_patches processed in
  collect (fun i => match nth_error filtered i with
                    | Some p => Ok (final_patch dimension p)
                    | None => Throw RuntimeError
                    end) (seq 0 (length cloud)).
