(** * Specification: cliques. *)
From Coq Require Import List Arith.
From Verif Require Import Simplex SpecComplex.
Import ListNotations.

(** every two vertices of [vs] are joined by an edge stored in [L] *)
Definition clique (L : list simplex) (vs : list nat) : Prop :=
  forall u v, In u vs -> In v vs -> u <> v -> has L [u; v].

(** the largest element of [vs] *)
Definition top_of (vs : list nat) (v : nat) : Prop := In v vs /\ forall u, In u vs -> u <= v.
