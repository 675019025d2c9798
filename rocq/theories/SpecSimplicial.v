(** * Specification of simplicial homology over the field with two elements.

    Chains are functions from vertex sets to bits; nothing here depends on the order in which
    simplices are stored, or on matrices. *)
From Coq Require Import List Arith Bool.
From Verif Require Import Simplex.
Import ListNotations.

Section Space.
  Context {I : Type}.
  Definition pvec := I -> bool.
  Definition peq (x y : pvec) : Prop := forall i, x i = y i.
  Definition padd (x y : pvec) : pvec := fun i => xorb (x i) (y i).
  Definition pzero : pvec := fun _ => false.
  Fixpoint pcomb (c : list bool) (B : list pvec) : pvec :=
    match c, B with
    | b :: c', x :: B' => if b then padd x (pcomb c' B') else pcomb c' B'
    | _, _ => pzero
    end.
  (** the space [V] has dimension [n] *)
  Definition p_dim (V : pvec -> Prop) (n : nat) : Prop :=
    exists B, length B = n /\ (forall b, In b B -> V b) /\
      (forall c, length c = length B -> peq (pcomb c B) pzero -> forall b, In b c -> b = false) /\
      forall x, V x -> exists c, length c = length B /\ peq x (pcomb c B).
End Space.

(** [f] is a face of [s] with one vertex less *)
Definition facetb (f s : list nat) : bool := (length s =? S (length f)) && forallb (fun v => existsb (Nat.eqb v) s) f.

Section Complex.
  Variable V : list (list nat).
  Definition s_chain (d : nat) (x : list nat -> bool) : Prop := forall s, x s = true -> In s V /\ length s = S d.
  Definition s_bd (x : list nat -> bool) : list nat -> bool :=
    fun f => if in_dec (list_eq_dec Nat.eq_dec) f V then fold_right (fun s acc => xorb (x s && facetb f s) acc) false V else false.
  Definition s_cycles (d : nat) (x : list nat -> bool) : Prop := s_chain d x /\ peq (s_bd x) pzero.
  Definition s_boundaries (d : nat) (x : list nat -> bool) : Prop := exists y, s_chain (S d) y /\ peq x (s_bd y).
End Complex.

(** the [d]-th Betti number of the complex with the given simplices is [n] *)
Definition simplicial_betti (L : list simplex) (d n : nat) : Prop :=
  exists z b, p_dim (s_cycles (map verts L) d) z /\ p_dim (s_boundaries (map verts L) d) b /\ z = n + b.
