(** * Specification of union-find: equivalence classes. *)
From Coq Require Import List Arith Relations.
Import ListNotations.

(** [u] and [v] are connected by the pairs in [l] *)
Definition connected (l : list (nat * nat)) : nat -> nat -> Prop :=
  clos_refl_sym_trans nat (fun u v => In (u, v) l).
