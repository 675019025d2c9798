(** * Specification: maximal cliques of the graph of vertices and edges of a
    list of simplices. *)
From Coq Require Import List Arith Sorted.
From Verif Require Import Simplex SpecComplex.
Import ListNotations.

Definition graph_clique (L : list simplex) (vs : list nat) : Prop :=
  (forall u, In u vs -> has L [u]) /\ (forall u v, In u vs -> In v vs -> u <> v -> has L [u; v]).

(** no vertex can be added *)
Definition maximal_clique (L : list simplex) (vs : list nat) : Prop :=
  graph_clique L vs /\ forall w, ~ In w vs -> ~ graph_clique L (w :: vs).
