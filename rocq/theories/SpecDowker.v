(** * Specification notions for Dowker complexes. *)

From Coq Require Import List Arith ZArith.
From Verif Require Import Simplex SpecComplex.
Import ListNotations.

(** [E p v w]: the vertex [v] is seen from [p] with weight [w].  All vertices
    of [vs] are seen from a common one, with weights up to [m] *)
Definition seen_up_to (E : nat -> nat -> Z -> Prop) (vs : list nat) (m : Z) : Prop :=
  exists p, forall v, In v vs -> exists w, E p v w /\ (w <= m)%Z.
Definition seen (E : nat -> nat -> Z -> Prop) (vs : list nat) : Prop :=
  exists p, forall v, In v vs -> exists w, E p v w.

(** [m] is the smallest such bound *)
Definition appears_at (E : nat -> nat -> Z -> Prop) (vs : list nat) (m : Z) : Prop :=
  seen_up_to E vs m /\ forall m', seen_up_to E vs m' -> (m <= m')%Z.

(** the simplices of [L] are the non-empty vertex sets (with at most
    [dimension + 1] vertices, unless [dimension = 0]) that are seen from a common
    vertex, each with the smallest bound as data *)
Definition is_dowker (E : nat -> nat -> Z -> Prop) (dimension : nat) (L : list simplex) : Prop :=
  (forall vs, NoDup vs -> vs <> [] -> (has L vs <-> (dimension = 0 \/ length vs <= dimension + 1) /\ seen E vs)) /\
  (forall s, In s L -> appears_at E (verts s) (data s)).
