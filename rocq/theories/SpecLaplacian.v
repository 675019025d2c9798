(** * Specification of weighted graphs as matrices. *)
From Coq Require Import List Arith ZArith.
From Verif Require Import Simplex SpecComplex.
Import ListNotations.
Local Open Scope Z_scope.

(** [x] is the weight of the edge between [u] and [v], or 0 if there is none *)
Definition edge_weight (L : list simplex) (u v : nat) (x : Z) : Prop :=
  (u <> v /\ exists s, In s L /\ set_eq (verts s) [u; v] /\ data s = x) \/
  (x = 0 /\ (u = v \/ ~ has L [u; v])).

(** an entry of a matrix that is given by its rows *)
Definition ent (M : list (list Z)) (i j : nat) : Z := nth j (nth i M []) 0.
Definition square (n : nat) (M : list (list Z)) : Prop := length M = n /\ forall row, In row M -> length row = n.

(** the sum of [f 0], ..., [f (n-1)], and the sum of [f] over a list *)
Definition sumZ (n : nat) (f : nat -> Z) : Z := fold_right Z.add 0 (map f (seq 0 n)).
Definition sum_over {A} (f : A -> Z) (l : list A) : Z := fold_right Z.add 0 (map f l).

(** the edges with their ends *)
Definition edge_term (g : nat -> nat -> Z) (s : simplex) : Z :=
  match verts s with [u; v] => data s * g u v | _ => 0 end.
