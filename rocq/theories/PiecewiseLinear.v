(** * Model of [math/PiecewiseLinearFunction.hh].

    Domain and image are the rationals with exact arithmetic.  [std::map] and
    [std::set] are lists in ascending order; equality of rationals is [==].
    Quotients are only formed with denominators that are not zero, except in
    [apply], where a floating point quotient by zero is infinite or not a number
    and makes the tests that follow fail. *)

From Coq Require Import List Arith Bool QArith Qabs Qminmax.
From Verif Require Import Base.
Import ListNotations.
Local Open Scope Q_scope.

Definition qltb (x y : Q) : bool := negb (Qle_bool y x).

(** PiecewiseLinearFunction.hh 27-30 *)
Definition lerp (x x0 y0 x1 y1 : Q) : Q := y0 + (y1 - y0) * (x - x0) / (x1 - x0).

(** PiecewiseLinearFunction.hh 530: [std::map<Domain, Image> _data] *)
Definition pl := list (Q * Q).

(** [std::map::insert]: the second component tells whether the pair was inserted *)
Fixpoint plm_insert (x y : Q) (m : pl) : pl * bool :=
  match m with
  | [] => ([(x, y)], true)
  | p :: t => if qltb x (fst p) then ((x, y) :: m, true)
              else if qltb (fst p) x then let r := plm_insert x y t in (p :: fst r, snd r)
              else (m, false)
  end.

(** [std::set<Domain>::insert] *)
Fixpoint qset_insert (x : Q) (s : list Q) : list Q :=
  match s with
  | [] => [x]
  | y :: t => if qltb x y then x :: s else if qltb y x then y :: qset_insert x t else s
  end.
Definition qset_insert_all (l s : list Q) : list Q := fold_left (fun s x => qset_insert x s) l s.

(** [std::map::lower_bound]: the elements from the first one that is not below
    [x] on, with the element in front of it *)
Fixpoint lower_bound (x : Q) (prev : option (Q * Q)) (m : pl) : option (Q * Q) * pl :=
  match m with
  | [] => (prev, [])
  | p :: t => if qltb (fst p) x then lower_bound x (Some p) t else (prev, m)
  end.

(** PiecewiseLinearFunction.hh 101-120; [end == _data.begin()] means that the
    first element is above [x].  In the last line there is an element in front. *)
Definition pl_eval (f : pl) (x : Q) : Q :=
  match f with
  | [] => 0
  | p0 :: _ =>
      match lower_bound x None f with
      | (_, []) => 0
      | (prev, r :: _) =>
          if qltb x (fst p0) then 0
          else if Qeq_bool (fst r) x then snd r
          else match prev with
               | Some l => lerp x (fst l) (snd l) (fst r) (snd r)
               | None => 0
               end
      end
  end.

(** PiecewiseLinearFunction.hh 495-527: the points of the loop *)
Fixpoint zero_crossings (m : pl) (s : list Q) : list Q :=
  match m with
  | p0 :: ((p1 :: _) as t) =>
      let s' := if qltb (snd p0 * snd p1) 0 then
                  let mm := (snd p1 - snd p0) / (fst p1 - fst p0) in
                  let c := snd p0 - mm * fst p0 in
                  qset_insert (- c / mm) s
                else s in
      zero_crossings t s'
  | _ => s
  end.
Definition insertIntersectionPoints (m : pl) : pl :=
  fold_left (fun m x => fst (plm_insert x 0 m)) (zero_crossings m []) m.

(** PiecewiseLinearFunction.hh 66-86 *)
Fixpoint pl_insert_all (l : list (Q * Q)) (m : pl) : outcome pl :=
  match l with
  | [] => Ok m
  | p :: t => let r := plm_insert (fst p) (snd p) m in
              if snd r then pl_insert_all t (fst r) else Throw RuntimeError
  end.
Definition pl_of (l : list (Q * Q)) : outcome pl :=
  let* m := pl_insert_all l [] in
  match m with [] => Ok [] | _ => Ok (insertIntersectionPoints m) end.

(** PiecewiseLinearFunction.hh 226-237 *)
Definition pl_domain (f : pl) : list Q := map fst f.
Definition pl_image (f : pl) : list Q := map snd f.

(** PiecewiseLinearFunction.hh 415-430 *)
Definition intersection (x0 y0 x1 y1 x2 y2 x3 y3 : Q) : Q :=
  let s1x := x1 - x0 in
  let s1y := y1 - y0 in
  let s2x := x3 - x2 in
  let s2y := y3 - y2 in
  let den := - s2x * s1y + s1x * s2y in
  if Qeq_bool den 0 then x0
  else
    let s := (- s1y * (x0 - x2) + s1x * (y0 - y2)) / den in
    let t := (s2x * (y0 - y2) - s2y * (x0 - x2)) / den in
    if Qle_bool 0 s && Qle_bool s 1 && Qle_bool 0 t && Qle_bool t 1 then x0 + t * s1x else x0.

(** PiecewiseLinearFunction.hh 432-455 *)
Fixpoint intersections (f g : pl) (xs : list Q) (s : list Q) : list Q :=
  match xs with
  | x0 :: ((x1 :: _) as t) =>
      let x := intersection x0 (pl_eval f x0) x1 (pl_eval f x1) x0 (pl_eval g x0) x1 (pl_eval g x1) in
      intersections f g t (if Qeq_bool x x0 then s else qset_insert x s)
  | _ => s
  end.

(** PiecewiseLinearFunction.hh 392-473 *)
Definition merged (f g : pl) : list Q :=
  let xs := qset_insert_all (pl_domain g) (qset_insert_all (pl_domain f) []) in
  qset_insert_all (intersections f g xs []) xs.
Definition pl_apply (f g : pl) (op : Q -> Q -> Q) : pl :=
  match qset_insert_all (pl_domain g) (qset_insert_all (pl_domain f) []) with
  | [] => f
  | _ => fold_left (fun m x => fst (plm_insert x (op (pl_eval f x) (pl_eval g x)) m)) (merged f g) []
  end.

(** PiecewiseLinearFunction.hh 125-136, 152-163 *)
Definition pl_plus (f g : pl) : pl := pl_apply f g Qplus.
Definition pl_minus (f g : pl) : pl := pl_apply f g Qminus.

(** PiecewiseLinearFunction.hh 370-377, 139-143, 177-181 *)
Definition pl_scalar (f : pl) (lambda : Q) (op : Q -> Q -> Q) : pl := map (fun p => (fst p, op (snd p) lambda)) f.
Definition pl_plus_scalar (f : pl) (lambda : Q) : pl := pl_scalar f lambda Qplus.
Definition pl_minus_scalar (f : pl) (lambda : Q) : pl := pl_scalar f lambda Qminus.

(** PiecewiseLinearFunction.hh 166-174 *)
Definition pl_negate (f : pl) : pl := fold_left (fun g p => fst (plm_insert (fst p) (- snd p) g)) f [].

(** PiecewiseLinearFunction.hh 190-204, 207-213, 216-221 ([operator/] is noexcept) *)
Definition pl_scale (f : pl) (lambda : Q) : pl := map (fun p => (fst p, snd p * lambda)) f.
Definition pl_divide_assign (f : pl) (lambda : Q) : outcome pl :=
  if Qeq_bool lambda 0 then Throw RuntimeError else Ok (pl_scale f (1 / lambda)).
Definition pl_divide (f : pl) (lambda : Q) : outcome pl :=
  match pl_divide_assign f lambda with Throw _ => Throw Terminated | r => r end.

(** PiecewiseLinearFunction.hh 251-270 *)
Definition pl_eqb (f g : pl) : bool :=
  forallb (fun x => Qeq_bool (pl_eval f x) (pl_eval g x))
          (qset_insert_all (pl_domain g) (qset_insert_all (pl_domain f) [])).

(** PiecewiseLinearFunction.hh 281-287 *)
Definition pl_abs (f : pl) : pl := map (fun p => (fst p, Qabs (snd p))) f.

(** PiecewiseLinearFunction.hh 290-301; the maximum of [std::max], starting with [lowest] *)
Definition pl_max (lowest : Q) (f : pl) : Q :=
  match f with
  | [] => 0
  | _ => fold_left (fun m p => if qltb m (snd p) then snd p else m) f lowest
  end.

(** PiecewiseLinearFunction.hh 314-358 for the default power [p = 1]; Kahan
    summation is exact here *)
Fixpoint pl_integral_from (f : pl) (norm : Q) : Q :=
  match f with
  | p1 :: ((p2 :: _) as t) =>
      let m := (snd p2 - snd p1) / (fst p2 - fst p1) in
      let c := snd p1 - m * fst p1 in
      let evaluator := fun x => if Qeq_bool m 0 then c * x else (m * x + c) * (m * x + c) / (m * (1 + 1)) in
      pl_integral_from t (norm + Qabs (evaluator (fst p2) - evaluator (fst p1)))
  | _ => norm
  end.
Definition pl_integral (f : pl) : Q := pl_integral_from f 0.
