(** * Specification notions for persistence diagrams. *)
From Coq Require Import List Arith ZArith.
From Verif Require Import Simplex Complex.
Import ListNotations.

Definition dummy_simplex : simplex := Simplex [] 0%Z.

(** data and dimension of the simplex with index [i] *)
Definition data_at (K : complex) (i : nat) : Z := data (nth i (by_index K) dummy_simplex).
Definition dim_at (K : complex) (i : nat) : nat := length (verts (nth i (by_index K) dummy_simplex)) - 1.

(** the point belonging to a pair (creator, destroyer) *)
Definition pair_point (inf : Z) (K : complex) (q : nat * option nat) : Z * Z :=
  (data_at K (fst q),
   match snd q with
   | Some j => if j <? length (by_index K) then data_at K j else inf
   | None => inf
   end).
