(** * Model of [topology/BarycentricSubdivision.hh].

    The vertex type does not overflow.  The map from simplices to their
    subdivision (an [unordered_map]) is a list of pairs; the order in which the
    final loop traverses it is a parameter. *)

From Coq Require Import List Arith Bool ZArith.
From Verif Require Import Base Simplex Complex Quotient Intersections.
Import ListNotations.

(** [std::set<Simplex>::insert] for a range *)
Definition sset_insert_all (l acc : list simplex) : list simplex := fold_left (fun a s => sset_insert s a) l acc.

(** BarycentricSubdivision.hh 236-254: the [do]-[while] loop *)
Fixpoint collect_loop (fuel : nat) (simplices : list simplex) : outcome (list simplex) :=
  match fuel with
  | 0 => OutOfFuel
  | S fuel' =>
      let boundaries := fold_left (fun acc s => sset_insert_all (boundary s) acc) simplices [] in
      let new := sset_insert_all boundaries simplices in
      if length new =? length simplices then Ok new else collect_loop fuel' new
  end.

(** BarycentricSubdivision.hh 229-257: all proper faces of a simplex *)
Definition collectBoundaries (s : simplex) : outcome (list simplex) :=
  collect_loop (S (s_size s)) (sset_insert_all (boundary s) []).

(** BarycentricSubdivision.hh 264-279: the same for a range *)
Definition collectBoundaries_range (l : list simplex) : outcome (list simplex) :=
  foldM (fun acc s => let* b := collectBoundaries s in Ok (sset_insert_all b acc)) l [].

(** [subdivision] (line 131); [unordered_map::at] and [operator[]] followed by an
    assignment; simplices are compared by their vertices *)
Definition submap := list (simplex * list simplex).
Fixpoint sub_at (m : submap) (s : simplex) : outcome (list simplex) :=
  match m with
  | [] => Throw OutOfRange
  | (k, c) :: r => if s_eqb k s then Ok c else sub_at r s
  end.
Fixpoint sub_set (m : submap) (s : simplex) (c : list simplex) : submap :=
  match m with
  | [] => [(s, c)]
  | (k, d) :: r => if s_eqb k s then (k, c) :: r else (k, d) :: sub_set r s c
  end.

(** BarycentricSubdivision.hh 163-174: one face of the boundary *)
Definition collect_face (K : complex) (m : submap) (acc : list simplex) (f : simplex) : outcome (list simplex) :=
  match k_lookup K f with
  | None => Throw RuntimeError
  | Some t => let* c := sub_at m t in Ok (acc ++ c)
  end.

(** BarycentricSubdivision.hh 183-186, 199-200: the cone over a simplex *)
Definition cone_over (functor : nat -> Z) (s : simplex) (b : nat) (t : simplex) : simplex :=
  let vertices := verts t ++ [b] in
  simplex_of vertices (data s * functor (length vertices))%Z.

(** BarycentricSubdivision.hh 138-210: one simplex; the state is
    [barycentreVertex], [subdivision], [L] *)
Definition subdivide_step (functor : nat -> Z) (K : complex) (st : nat * submap * complex) (s : simplex)
  : outcome (nat * submap * complex) :=
  let '(b, m, L) := st in
  if sdim s =? 0 then Ok (b, sub_set m s [s], L)
  else
    let* L1 := insert_into L [simplex_vertex b (data s * functor 0%nat)%Z] in
    let* subdividedBoundary := foldM (collect_face K m) (boundary s) [] in
    let cone := map (cone_over functor s b) subdividedBoundary in
    let* boundaries := collectBoundaries_range subdividedBoundary in
    let* L2 := insert_into L1 (map (cone_over functor s b) boundaries) in
    Ok (S b, sub_set m s cone, L2).

(** BarycentricSubdivision.hh 107-216 *)
Definition subdivide (order : submap -> submap) (functor : nat -> Z) (K : complex) : outcome complex :=
  match last_opt (k_vertices K) with
  | None => Ok k_empty
  | Some v =>
      let* st := foldM (subdivide_step functor K) (by_dim K) (v + 1, [], k_empty) in
      let '(_, m, L) := st in
      foldM (fun L p => insert_into L (snd p)) (order m) L
  end.

(** EmptyFunctor.hh 23-26: the default functor returns [true], which is 1 *)
Definition empty_functor (_ : nat) : Z := 1%Z.
