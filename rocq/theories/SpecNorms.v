(** * Norms of persistence diagrams *)

From Coq Require Import List Arith ZArith QArith.
Import ListNotations.

Definition zsum (l : list Z) : Z := fold_right Z.add 0%Z l.
Definition qsum (l : list Q) : Q := fold_right Qplus 0%Q l.

(** the persistence of a point is its distance to the diagonal, up to a factor *)
Definition pers (p : Z * Z) : Z := (snd p - fst p)%Z.

(** the sum of the powers of the absolute persistence values *)
Definition power_sum (k : nat) (l : list (Z * Z)) : Z := zsum (map (fun p => Z.abs (pers p) ^ Z.of_nat k)%Z l).
(** the same with every point weighted by the absolute value of its creation value *)
Definition weighted_power_sum (k : nat) (l : list (Z * Z)) : Z :=
  zsum (map (fun p => Z.abs (fst p) * Z.abs (pers p) ^ Z.of_nat k)%Z l).

(** lexicographic order of points *)
Definition lex_lt (p q : Z * Z) : Prop := (fst p < fst q \/ (fst p = fst q /\ snd p < snd q))%Z.

Definition pair_dec : forall p q : Z * Z, {p = q} + {p <> q}.
Proof. decide equality; apply Z.eq_dec. Defined.
