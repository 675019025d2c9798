(** * Distances of vectors *)

From Coq Require Import List Arith ZArith.
Import ListNotations.

Definition entry (a : list Z) (i : nat) : Z := nth i a 0%Z.
(** the sum of [f i] for [i < n] *)
Definition sum_below (n : nat) (f : nat -> Z) : Z := fold_right Z.add 0%Z (map f (seq 0 n)).

Definition l1_distance (n : nat) (a b : list Z) : Z := sum_below n (fun i => Z.abs (entry a i - entry b i)).
Definition square_distance (n : nat) (a b : list Z) : Z := sum_below n (fun i => (entry a i - entry b i) ^ 2)%Z.
(** the number of positions at which [a] and [b] differ *)
Definition differing (n : nat) (a b : list Z) : Z :=
  Z.of_nat (length (filter (fun i => negb (Z.eqb (entry a i) (entry b i))) (seq 0 n))).
