(** * Specification of connected components. *)
From Coq Require Import List Relations.
From Verif Require Import Simplex SpecComplex Complex.
Import ListNotations.

(** [u] and [v] are joined by a path of edges of [K] *)
Definition joined (K : complex) : nat -> nat -> Prop :=
  clos_refl_sym_trans nat (fun u v => has (by_index K) [u; v]).
