(** * Model of [topology/QuotientSpaces.hh].

    Vertices are [nat]: the largest vertex plus one (or two) is assumed to be
    representable.  [f] is the functor for the weights. *)

From Coq Require Import List Arith Bool ZArith.
From Verif Require Import Base Simplex Complex Subcomplex.
Import ListNotations.

(** QuotientSpaces.hh 59-68: [Simplex( vertices.begin(), vertices.end(), f( simplex ) )] *)
Definition join_vertex (f : simplex -> Z) (c : nat) (s : simplex) : simplex :=
  simplex_of (verts s ++ [c]) (f s).

Definition insert_into (K : complex) (l : list simplex) : outcome complex :=
  match k_insert K l with
  | (L, Ok _) => Ok L
  | (_, Throw e) => Throw e
  | (_, UB) => UB
  | (_, OutOfFuel) => OutOfFuel
  end.

(** QuotientSpaces.hh 32-72 *)
Definition cone (f : simplex -> Z) (K : complex) : outcome complex :=
  if k_isempty K then Ok k_empty
  else match last_opt (k_vertices K) with
       | None => Ok k_empty
       | Some v =>
           let coneVertex := v + 1 in
           insert_into K (simplex_vertex coneVertex (f simplex_empty) :: map (join_vertex f coneVertex) (by_index K))
       end.

(** QuotientSpaces.hh 110-159 *)
Definition suspension (f : simplex -> Z) (K : complex) : outcome complex :=
  if k_isempty K then Ok k_empty
  else match last_opt (k_vertices K) with
       | None => Ok k_empty
       | Some v =>
           let upper := v + 1 in
           let lower := upper + 1 in
           insert_into K (simplex_vertex upper (f simplex_empty) :: simplex_vertex lower (f simplex_empty) ::
                          flat_map (fun s => [join_vertex f upper s; join_vertex f lower s]) (by_index K))
       end.

(** QuotientSpaces.hh 82-93, 169-180: all new simplices have the weight 0. *)
Definition cone0 (K : complex) : outcome complex := cone (fun _ => 0%Z) K.
Definition suspension0 (K : complex) : outcome complex := suspension (fun _ => 0%Z) K.
