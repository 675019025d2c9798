(** * Specification notions for simplicial collapses. *)

From Coq Require Import List Arith Relations.
From Verif Require Import Simplex SpecComplex.
Import ListNotations.

(** [t] is a free face of [s] in [L]: [s] is the only simplex of which it is a
    proper face *)
Definition free_face (L : list simplex) (s t : simplex) : Prop :=
  In s L /\ In t L /\ proper_face t s /\ forall u, In u L -> proper_face t u -> u = s.

(** an elementary collapse removes a simplex and a free face of it *)
Definition elementary_collapse (L L' : list simplex) : Prop :=
  exists s t A B C, free_face L s t /\ L' = A ++ B ++ C /\
    (L = A ++ s :: B ++ t :: C \/ L = A ++ t :: B ++ s :: C).
Definition collapses : list simplex -> list simplex -> Prop := clos_refl_trans_1n _ elementary_collapse.
