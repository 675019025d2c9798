(** * Model of the class of [geometry/HeatKernel.hh].

    [double] is modelled by the real numbers of the standard library; a division by zero,
    whose result is not finite, is a separate result.  The eigenvalues and eigenvectors of
    [Eigen::SelfAdjointEigenSolver] are a parameter. *)
From Coq Require Import Reals List Arith Bool ZArith.
From Verif Require Import Base Simplex Complex Laplacian.
Import ListNotations.

Record heat := Heat { h_skip : bool; h_values : list R; h_vectors : list (list R) }.

(** HeatKernel.hh 198-229: [_skip] is [false] during construction (line 396) *)
Definition h_make (solver : dense -> list R * list (list R)) (K : complex) : outcome heat :=
  let* L := weightedLaplacianMatrix K in
  let '(values, vectors) := solver L in
  let skip := false in
  Ok (Heat skip (skipn (if skip then 1 else 0) values) (skipn (if skip then 1 else 0) vectors)).

(** HeatKernel.hh 390 *)
Definition h_setSkip (h : heat) (value : bool) : heat := Heat value (h_values h) (h_vectors h).

(** KahanSummation.hh 25-33 *)
Definition kahanR_add (st : R * R) (v : R) : R * R :=
  (let y := v - snd st in
   let t := fst st + y in
   (t, (t - fst st) - y))%R.

(** HeatKernel.hh 237-257: the result has no elements, and a matrix with one row and one
    column is added to it, for which Eigen requires equal sizes *)
Definition h_all (h : heat) (t : R) : outcome (list R) :=
  match h_values h with [] => Ok [] | _ => UB end.

(** HeatKernel.hh 265-290 *)
Definition h_two (h : heat) (i j : nat) (t : R) : outcome R :=
  let* r := foldM (fun result k =>
    let* l := get_ (h_values h) k in
    let* u := get_ (h_vectors h) k in
    let* ui := get_ u i in
    let* uj := get_ u j in
    Ok (kahanR_add result (exp (- t * l) * ui * uj)%R)) (seq 0 (length (h_values h))) (0%R, 0%R) in
  Ok (fst r).

(** HeatKernel.hh 296-322 *)
Definition h_auto (h : heat) (i : nat) (t : R) : outcome R :=
  let* r := foldM (fun result k =>
    let* l := get_ (h_values h) k in
    let* u := get_ (h_vectors h) k in
    let* ui := get_ u i in
    Ok (kahanR_add result (exp (- t * l) * ui * ui)%R)) (seq 0 (length (h_values h))) (0%R, 0%R) in
  Ok (fst r).

(** HeatKernel.hh 329-337 *)
Definition h_trace (h : heat) (t : R) : R :=
  fst (fold_left (fun result l => kahanR_add result (exp (- t * l))) (h_values h) (0%R, 0%R)).

(** HeatKernel.hh 344-352 *)
Definition h_determinant (h : heat) (t : R) : R :=
  fold_left (fun result l => (result * exp (- t * l))%R) (h_values h) 0%R.

(** a quotient; [None] if it is not finite *)
Definition divR (x y : R) : option R := if Req_EM_T y 0 then None else Some (x / y)%R.

(** HeatKernel.hh 366-386.  [back()], [front()] and the second element are read without a
    check.  Logarithms of numbers that are not positive are not modelled (eigenvalues are not
    negative, C106).  The difference [n - 1] wraps around for [n = 0]; then there are no samples and it is not used further. *)
Definition h_sampling (h : heat) (n : nat) : outcome (option (list R)) :=
  let values := h_values h in
  match last_opt values with
  | None => UB
  | Some back =>
      let* second := (if h_skip h then get_ values 0 else get_ values 1) in
      Ok (match divR (4 * ln 10) back, divR (4 * ln 10) second with
          | Some t_min, Some t_max =>
              match n with
              | 0 => Some []
              | _ =>
                match divR (ln t_max - ln t_min) (INR (n - 1)) with
                | None => None
                | Some offset => Some (map (fun i => Rpower (exp 1) (ln t_min + INR i * offset)) (seq 0 n))
                end
              end
          | _, _ => match n with 0 => Some [] | _ => None end
          end)
  end.
