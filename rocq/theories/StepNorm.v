(** * Model of the parts of [math/StepFunction.hh] that need real numbers: powers,
      norms and the normalization.

    Domain and image are [R]; everything else of the class is modelled over the
    integers in [StepFunction.v].  [std::pow] is the power of positive numbers,
    yields zero for zero and a positive exponent, and is the parameter [other] for
    all other arguments.  Operations of a stored function are declared [noexcept]
    or cannot throw because its intervals are valid. *)

From Coq Require Import List Reals.
From Verif Require Import Base.
Import ListNotations.
Local Open Scope R_scope.

(** StepFunction.hh 73-90, 168-171 *)
Record rindicator := RInd { ra : R; rb : R; ry : R }.
Definition rindicator_of (a b y : R) : outcome rindicator := if Rlt_dec b a then Throw RuntimeError else Ok (RInd a b y).

(** StepFunction.hh 98-101, 104-107, 116-122 *)
Definition r_contains (x : R) (f : rindicator) : bool :=
  if Rle_dec (ra f) x then if Rle_dec x (rb f) then true else false else false.
Definition r_integral (f : rindicator) : R := ry f * (rb f - ra f).
Definition r_ind_eval (f : rindicator) (x : R) : R := if r_contains x f then ry f else 0.

(** StepFunction.hh 161-166, and [std::set<IndicatorFunction>] in ascending order *)
Definition r_ltb (f g : rindicator) : bool := if Rle_dec (rb f) (ra g) then true else false.
Definition rstep := list rindicator.
Fixpoint r_insert (x : rindicator) (f : rstep) : rstep :=
  match f with
  | [] => [x]
  | y :: t => if r_ltb x y then x :: f else if r_ltb y x then y :: r_insert x t else f
  end.

(** StepFunction.hh 175-178 *)
Definition r_add (a b y : R) (f : rstep) : outcome rstep :=
  match rindicator_of a b y with Ok i => Ok (r_insert i f) | _ => Throw Terminated end.

(** [std::find_if], [std::find_if_not] *)
Fixpoint r_drop (p : rindicator -> bool) (l : rstep) : rstep :=
  match l with [] => [] | x :: t => if p x then l else r_drop p t end.
Fixpoint r_take (p : rindicator -> bool) (l : rstep) : rstep :=
  match l with [] => [] | x :: t => if p x then x :: r_take p t else [] end.

(** StepFunction.hh 198-224 *)
Definition r_eval_step (x : R) (value : R) (f : rindicator) : R :=
  if Rlt_dec value (Rabs (r_ind_eval f x)) then r_ind_eval f x else value.
Definition r_eval (f : rstep) (x : R) : R :=
  fold_left (r_eval_step x) (r_take (r_contains x) (r_drop (r_contains x) f)) 0.

(** StepFunction.hh 348-356, 359-362 *)
Definition r_plus_scalar (lambda : R) (f : rstep) : outcome rstep :=
  foldM (fun g i => r_add (ra i) (rb i) (lambda + ry i) g) f [].
Definition r_minus_scalar (lambda : R) (f : rstep) : outcome rstep := r_plus_scalar (- lambda) f.

(** StepFunction.hh 365-376, 387-393 *)
Definition r_scale (lambda : R) (f : rstep) : rstep :=
  fold_left (fun g i => r_insert (RInd (ra i) (rb i) (ry i * lambda)) g) f [].
Definition r_divide (lambda : R) (f : rstep) : outcome rstep :=
  if Req_EM_T lambda 0 then Throw RuntimeError else Ok (r_scale (1 / lambda) f).

(** StepFunction.hh 404-415 *)
Definition r_integral_all (f : rstep) : R := fold_left (fun v i => v + r_integral i) f 0.

Section Power.
Variable other : R -> R -> R.
(** [std::pow] *)
Definition cpp_pow (x p : R) : R :=
  if Rlt_dec 0 x then Rpower x p
  else if Req_EM_T x 0 then if Rlt_dec 0 p then 0 else other x p
  else other x p.

(** StepFunction.hh 110-114, 418-429 *)
Definition r_integral_p (p : R) (i : rindicator) : R := cpp_pow (Rabs (r_integral i)) p.
Definition integral_p (p : R) (f : rstep) : R :=
  match f with
  | [] => 0
  | _ => cpp_pow (fold_left (fun v i => v + r_integral_p p i) f 0) (1 / p)
  end.

(** StepFunction.hh 124-128, 444-453 *)
Definition r_pow (p : R) (f : rstep) : rstep :=
  fold_left (fun g i => r_insert (RInd (ra i) (rb i) (cpp_pow (ry i) p)) g) f [].
End Power.

(** StepFunction.hh 432-441 *)
Definition r_abs (f : rstep) : rstep :=
  fold_left (fun g i => r_insert (RInd (ra i) (rb i) (Rabs (ry i))) g) f [].

(** [std::set<I>] *)
Fixpoint rset_insert (x : R) (s : list R) : list R :=
  match s with
  | [] => [x]
  | y :: t => if Rlt_dec x y then x :: s else if Rlt_dec y x then y :: rset_insert x t else s
  end.

(** StepFunction.hh 191-195, 553-575; the largest element of a set is its last one *)
Definition r_normalize (f : rstep) (a b : R) : outcome rstep :=
  let image := fold_left (fun s i => rset_insert (ry i) s) f [] in
  match image with
  | [] => Ok f
  | [_] => Ok f
  | _ =>
      let min := 0 in
      let max := last image 0 in
      let* g1 := r_minus_scalar min f in
      let* g2 := r_divide (max - min) g1 in
      r_plus_scalar a (r_scale (b - a) g2)
  end.
