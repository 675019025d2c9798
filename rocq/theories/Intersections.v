(** * Model of [topology/Intersections.hh], part 2: intersections with a complex
      (for part 1, intersections of two simplices, see [Spine.v]).

    All functions are [noexcept]: an exception terminates the program. *)

From Coq Require Import List Arith Bool ZArith.
From Verif Require Import Base Simplex Complex Spine Combine.
Import ListNotations.

(** [std::set<Simplex>::insert] *)
Fixpoint sset_insert (s : simplex) (l : list simplex) : list simplex :=
  match l with
  | [] => [s]
  | t :: r => if s_ltb t s then t :: sset_insert s r else if s_ltb s t then s :: l else l
  end.

(** Intersections.hh 88-97, 124-133: the loop over the range *)
Definition collect_intersections (s : simplex) (range : list simplex) : list simplex :=
  fold_left (fun acc t => let u := s_intersect s t in if s_empty u then acc else sset_insert u acc) range [].

(** Intersections.hh 72-101.  The predicate for the upper bound calls
    [dimension()] only if there is a simplex in [K]. *)
Definition k_intersect (K : complex) (s : simplex) : outcome (list simplex) :=
  match k_lookup K s with
  | Some t => Ok [t]
  | None =>
      match by_dim K, s_dimension s with
      | [], _ => Ok []
      | _, Ok d => Ok (collect_intersections s (k_range_pred K (fun _ => true) (fun x => x <=? d)))
      | _, _ => Throw Terminated
      end
  end.

(** Intersections.hh 116-136 *)
Definition intersectWithConstrainedDimension (K : complex) (s : simplex) : outcome (list simplex) :=
  match s_dimension s with
  | Ok d => Ok (collect_intersections s (k_range K d))
  | _ => Throw Terminated
  end.

(** Intersections.hh 172-182: the function object; its state is [result] *)
Definition llx_test (K : complex) (result : simplex) (vs : list nat) : outcome (bool * simplex) :=
  match k_lookup K (simplex_of vs 0) with
  | Some t => Ok (true, t)
  | None => Ok (false, result)
  end.

(** Intersections.hh 169-191; the loop for [d], downwards to [1] *)
Fixpoint llx_loop (K : complex) (d : nat) (vertices : list nat) (result : simplex) : outcome simplex :=
  match d with
  | 0 => Ok result
  | S d' =>
      let* r := for_each_combination (llx_test K) d result vertices in
      let '(_, result, vertices) := r in
      if negb (s_empty result) then Ok result else llx_loop K d' vertices result
  end.

(** Intersections.hh 150-192 *)
Definition lastLexicographicalIntersection (K : complex) (s : simplex) : outcome simplex :=
  llx_loop K (s_size s) (verts s) simplex_empty.
