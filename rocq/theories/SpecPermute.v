(** * Specification notions for permutations. *)

From Coq Require Import List Arith Permutation Sorted.
From Verif Require Import SpecCombine.
Import ListNotations.

(** an arrangement of [k] of the positions [0], ..., [n - 1] *)
Definition arrangement (n k : nat) (p : list nat) : Prop :=
  NoDup p /\ length p = k /\ forall i, In i p -> i < n.

(** [q] is [p], read from another position of the circle *)
Definition rotation {A} (p q : list A) : Prop := exists a b, p = a ++ b /\ q = b ++ a.

(** the same, in one of the two directions *)
Definition necklace {A} (p q : list A) : Prop := rotation p q \/ rotation (rev p) q.

(** the chosen positions come first in the order, their arrangement second *)
Definition earlier (p q : list nat) : Prop :=
  exists c d, StronglySorted lt c /\ StronglySorted lt d /\ Permutation p c /\ Permutation q d /\
    (before c d \/ c = d /\ before p q).

(** [n * (n - 1) * ...] with [k] factors *)
Fixpoint falling (n k : nat) : nat :=
  match k with 0 => 1 | S k => n * falling (n - 1) k end.
