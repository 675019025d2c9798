(** * Model of [math/StepFunction.hh] and
      [persistenceDiagrams/PersistenceIndicatorFunction.hh].

    Domain and image are [Z]: integers are exact, and finite floating point
    numbers are ordered like a range of integers in which [std::nextafter] is the
    successor, so that everything below that only compares arguments carries
    over.  [pow], [integral_p] and [normalize] are modelled in [StepNorm.v], the
    text form in [StepText.v]. *)

From Coq Require Import List Arith Bool ZArith.
From Verif Require Import Base Diagram Envelope.
Import ListNotations.
Local Open Scope Z_scope.

(** StepFunction.hh 25-41 *)
Definition next_value (x : Z) : Z := x + 1.
Definition previous_value (x : Z) : Z := x - 1.

(** StepFunction.hh 73-172 *)
Record indicator := Ind { ia : Z; ib : Z; iy : Z }.

(** StepFunction.hh 83-90 *)
Definition indicator_of (a b y : Z) : outcome indicator := if b <? a then Throw RuntimeError else Ok (Ind a b y).

(** StepFunction.hh 98-101, 104-107, 116-122 *)
Definition ind_contains (x : Z) (f : indicator) : bool := (ia f <=? x) && (x <=? ib f).
Definition ind_integral (f : indicator) : Z := iy f * (ib f - ia f).
Definition ind_eval (f : indicator) (x : Z) : Z := if ind_contains x f then iy f else 0.

(** StepFunction.hh 132-143: [IndicatorFunction::operator*] *)
Definition ind_scale (lambda : Z) (f : indicator) : indicator := Ind (ia f) (ib f) (iy f * lambda).

(** StepFunction.hh 145-150: [IndicatorFunction::operator/=] calls itself with [1/lambda] and nothing else *)
Fixpoint ind_divide (fuel : nat) (f : indicator) (lambda : Z) : outcome indicator :=
  match fuel with
  | O => OutOfFuel
  | S fuel' => if lambda =? 0 then UB else ind_divide fuel' f (1 / lambda)
  end.

(** StepFunction.hh 161-166 *)
Definition ind_ltb (f g : indicator) : bool := ib f <=? ia g.

(** [std::set<IndicatorFunction>], in ascending order; [insert] ignores equivalent elements *)
Definition step_function := list indicator.
Fixpoint sf_insert (x : indicator) (f : step_function) : step_function :=
  match f with
  | [] => [x]
  | y :: t => if ind_ltb x y then x :: f else if ind_ltb y x then y :: sf_insert x t else f
  end.

(** StepFunction.hh 175-178: [add] is noexcept, so an invalid interval ends the program *)
Definition sf_add (a b y : Z) (f : step_function) : outcome step_function :=
  match indicator_of a b y with
  | Ok i => Ok (sf_insert i f)
  | _ => Throw Terminated
  end.

(** StepFunction.hh 181-195 *)
Definition sf_domain (f : step_function) : list Z := flat_map (fun i => [ia i; ib i]) f.
Definition sf_image (f : step_function) : list Z := map iy f.

(** [std::find_if], [std::find_if_not] *)
Fixpoint drop_until {A} (p : A -> bool) (l : list A) : list A :=
  match l with [] => [] | x :: t => if p x then l else drop_until p t end.
Fixpoint take_while {A} (p : A -> bool) (l : list A) : list A :=
  match l with [] => [] | x :: t => if p x then x :: take_while p t else [] end.

(** StepFunction.hh 198-224 *)
Definition eval_step (x : Z) (value : Z) (f : indicator) : Z :=
  if value <? Z.abs (ind_eval f x) then ind_eval f x else value.
Definition sf_eval (f : step_function) (x : Z) : Z :=
  fold_left (eval_step x) (take_while (ind_contains x) (drop_until (ind_contains x) f)) 0.

(** StepFunction.hh 227-238 *)
Definition sf_max (lowest : Z) (f : step_function) : Z :=
  match f with [] => 0 | _ => fold_left (fun m i => Z.max m (iy i)) f lowest end.

(** StepFunction.hh 337-345, 348-356, 359-362 *)
Definition sf_negate (f : step_function) : outcome step_function :=
  foldM (fun g i => sf_add (ia i) (ib i) (- iy i) g) f [].
Definition sf_plus_scalar (lambda : Z) (f : step_function) : outcome step_function :=
  foldM (fun g i => sf_add (ia i) (ib i) (lambda + iy i) g) f [].
Definition sf_minus_scalar (lambda : Z) (f : step_function) : outcome step_function := sf_plus_scalar (- lambda) f.

(** StepFunction.hh 365-376 *)
Definition sf_scale (lambda : Z) (f : step_function) : step_function :=
  fold_left (fun g i => sf_insert (ind_scale lambda i) g) f [].

(** StepFunction.hh 387-393; [1/lambda] is the division of [I], here that of the integers *)
Definition sf_divide (lambda : Z) (f : step_function) : outcome step_function :=
  if lambda =? 0 then Throw RuntimeError else Ok (sf_scale (Z.quot 1 lambda) f).

(** StepFunction.hh 404-415 *)
Definition sf_integral (f : step_function) : Z := fold_left (fun v i => v + ind_integral i) f 0.

(** StepFunction.hh 432-441; the constructor cannot throw here *)
Definition sf_abs (f : step_function) : step_function :=
  fold_left (fun g i => sf_insert (Ind (ia i) (ib i) (Z.abs (iy i))) g) f [].

(** StepFunction.hh 469-498: [while( curr->y() == prev->y() && curr != end )]
    reads [curr->y()] before it asks whether [curr] is the end. *)
Fixpoint clean_run (y : Z) (last : indicator) (l : list indicator) : outcome (indicator * list indicator) :=
  match l with
  | [] => UB
  | c :: t => if iy c =? y then clean_run y c t else Ok (last, l)
  end.
Fixpoint clean_loop (fuel : nat) (l : list indicator) (g : step_function) : outcome step_function :=
  match fuel with
  | O => OutOfFuel
  | S fuel' =>
      match l with
      | [] => Ok g
      | p :: _ =>
          let* r := clean_run (iy p) p l in
          let* i := indicator_of (ia p) (ib (fst r)) (iy p) in
          clean_loop fuel' (snd r) (sf_insert i g)
      end
  end.
Definition sf_clean (f : step_function) : outcome step_function :=
  let f' := filter (fun i => negb (ia i =? ib i)) f in
  match f' with [] => Ok [] | _ => clean_loop (S (length f')) f' [] end.

(** StepFunction.hh 264-305: the loop of [operator+=] *)
Fixpoint plus_loop (f g : step_function) (prev : Z) (domain : list Z) (h : step_function) : outcome step_function :=
  match domain with
  | [] => Ok h
  | curr :: domain' =>
      let y1 := sf_eval f prev in
      let y2 := sf_eval g prev in
      let y3 := sf_eval f curr in
      let y4 := sf_eval g curr in
      let y5 := sf_eval f (next_value prev) in
      let y6 := sf_eval g (next_value prev) in
      if (y1 =? y3) && (y2 =? y4) then
        let* h' := sf_add prev curr (y1 + y2) h in
        plus_loop f g curr domain' h'
      else
        let prev' := if negb (y1 =? y5) || negb (y2 =? y6) then next_value prev else prev in
        let* h' := (if negb (y5 + y6 =? y3 + y4) then
                      let* h1 := sf_add prev' (previous_value curr) (y5 + y6) h in
                      sf_add curr (next_value curr) (y3 + y4) h1
                    else sf_add prev' (next_value curr) (y3 + y4) h) in
        plus_loop f g (next_value curr) domain' h'
  end.

(** StepFunction.hh 247-312 *)
Definition sf_plus (f g : step_function) : outcome step_function :=
  let domain := fold_left (fun s x => zset_insert x s) (sf_domain f ++ sf_domain g) [] in
  match domain with
  | [] => Ok f
  | d :: rest => let* h := plus_loop f g d rest [] in sf_clean h
  end.

(** StepFunction.hh 323-326 *)
Definition sf_minus (f g : step_function) : outcome step_function := let* n := sf_negate g in sf_plus f n.

(** ** PersistenceIndicatorFunction.hh *)

(** PersistenceIndicatorFunction.hh 21-41: value and [destroyer] *)
Definition event : Set := Z * bool.
Definition event_ltb (e e' : event) : bool :=
  (fst e <? fst e') || ((fst e =? fst e') && snd e && negb (snd e')).

(** PersistenceIndicatorFunction.hh 51-65 *)
Definition isInverted (inf : Z) (D : diagram) : bool :=
  existsb (fun p => negb (isUnpaired inf p) && (snd p <? fst p)) (points D).

(** PersistenceIndicatorFunction.hh 85-104 *)
Definition eventPoints (inf : Z) (D : diagram) : list event :=
  let inverted := isInverted inf D in
  cpp_sort event_ltb
    (flat_map (fun p => if inverted then [(fst p, true); (snd p, false)] else [(fst p, false); (snd p, true)]) (points D)).

(** PersistenceIndicatorFunction.hh 111-126, from the event [i] on; the numbers
    of occurrences and of destroyers do not wrap around *)
Fixpoint numDuplicateValues (v : Z) (l : list event) : nat * nat :=
  match l with
  | [] => (O, O)
  | e :: t => if fst e =? v then
                let r := numDuplicateValues v t in
                (S (fst r), if snd e then S (snd r) else snd r)
              else (O, O)
  end.

(** range of [unsigned] *)
Definition uint_range : Z := 2 ^ 32.

(** PersistenceIndicatorFunction.hh 134-168 *)
Fixpoint pif_loop (fuel : nat) (events : list event) (i : nat) (active previous : Z) (f : step_function)
  : outcome step_function :=
  match fuel with
  | O => OutOfFuel
  | S fuel' =>
      match skipn i events with
      | [] => Ok f
      | e :: _ =>
          let pair := numDuplicateValues (fst e) (skipn i events) in
          let occurrences := fst pair in
          let destroyers := snd pair in
          let creators := (occurrences - destroyers)%nat in
          let single := (occurrences =? 1)%nat || (creators =? occurrences)%nat || (creators =? 0)%nat in
          let* f' := (if single then if (i =? 0)%nat then Ok f else sf_add previous (fst e) active f
                      else sf_add previous (fst e) active f) in
          let active' := ((active + Z.of_nat creators) mod uint_range - Z.of_nat destroyers) mod uint_range in
          let previous' := if single then fst e else next_value (fst e) in
          pif_loop fuel' events (i + occurrences)%nat active' previous' f'
      end
  end.

(** PersistenceIndicatorFunction.hh 78-171 *)
Definition persistenceIndicatorFunction (inf : Z) (D : diagram) : outcome step_function :=
  let events := eventPoints inf D in
  pif_loop (S (length events)) events 0 0 0 [].
