(** * Specification of persistent intersection homology over the field with two elements

    The simplices are numbered such that exactly the first [s] of them are
    allowable, and [F] is the matrix of the boundary operator of all simplices.  A
    chain of allowable simplices is an intersection chain if its boundary consists
    of allowable simplices as well.  Nothing here refers to the algorithms. *)

From Coq Require Import List Arith Bool ZArith.
From Verif Require Import Simplex SpecMatrix SpecHomology SpecComplex.
Import ListNotations.

(** intersection chains on the first [i] allowable simplices *)
Definition intersection_chain (F : list (list nat)) (dims : list nat) (s i d : nat) (x : vec) : Prop :=
  chain dims i d x /\ (forall k, x k = true -> k < s) /\ (forall r, bd F x r = true -> r < s).

Definition intersection_cycles (F : list (list nat)) (dims : list nat) (s i d : nat) (x : vec) : Prop :=
  intersection_chain F dims s i d x /\ veq (bd F x) vzero.

Definition intersection_boundaries (F : list (list nat)) (dims : list nat) (s j d : nat) (x : vec) : Prop :=
  exists y, intersection_chain F dims s j (S d) y /\ veq x (bd F y).

(** rank of the map from the [d]-th intersection homology of the first [i] to
    that of the first [j] allowable simplices *)
Definition intersection_betti (F : list (list nat)) (dims : list nat) (s i j d n : nat) : Prop :=
  exists z b, has_dim (intersection_cycles F dims s i d) z /\
    has_dim (fun x => intersection_cycles F dims s i d x /\ intersection_boundaries F dims s j d x) b /\
    z = n + b.

(** [s] is allowable: for every codimension [k], the simplices of the stratum
    [X (d-k)] that are faces of [s] have dimension at most [dim s - k + p(k)].
    (Dimensions are one less than the numbers of vertices.) *)
Definition allowable (d start : nat) (p : nat -> Z) (X : nat -> list simplex) (s : simplex) : Prop :=
  forall k, start <= k -> k <= d -> forall t, In t (X (d - k)) -> subset (verts t) (verts s) ->
    (Z.of_nat (length (verts t)) <= Z.of_nat (length (verts s)) - Z.of_nat k + p k)%Z.
