(** * Specification of (persistent) homology over the field with two elements.

    Vectors are functions from indices to bits.  Nothing here refers to the
    algorithms. *)

From Coq Require Import List Arith Bool.
From Verif Require Import SpecMatrix.
Import ListNotations.

Definition vec := nat -> bool.
Definition veq (x y : vec) : Prop := forall r, x r = y r.
Definition vadd (x y : vec) : vec := fun r => xorb (x r) (y r).
Definition vzero : vec := fun _ => false.

(** linear combination of the vectors in [B] with coefficients [c] *)
Fixpoint comb (c : list bool) (B : list vec) : vec :=
  match c, B with
  | b :: c', x :: B' => if b then vadd x (comb c' B') else comb c' B'
  | _, _ => vzero
  end.

Definition in_span (B : list vec) (x : vec) : Prop :=
  exists c, length c = length B /\ veq x (comb c B).

Definition independent (B : list vec) : Prop :=
  forall c, length c = length B -> veq (comb c B) vzero -> forall b, In b c -> b = false.

(** the space [V] has dimension [n]: there is a basis of that size *)
Definition has_dim (V : vec -> Prop) (n : nat) : Prop :=
  exists B, length B = n /\ (forall b, In b B -> V b) /\ independent B /\
            forall x, V x -> in_span B x.

(** chains of dimension [d] of the subcomplex of the first [i] simplices *)
Definition chain (dims : list nat) (i d : nat) (x : vec) : Prop :=
  forall k, x k = true -> k < i /\ nth k dims 0 = d.

(** the boundary operator given by a matrix *)
Definition bd (C : list (list nat)) (x : vec) : vec :=
  fun r => fold_right (fun k acc => xorb (x k && entry C r k) acc) false (seq 0 (length C)).

(** cycles *)
Definition cycles (C : list (list nat)) (dims : list nat) (i d : nat) (x : vec) : Prop :=
  chain dims i d x /\ veq (bd C x) vzero.

(** boundaries of chains of the subcomplex of the first [j] simplices *)
Definition boundaries (C : list (list nat)) (dims : list nat) (j d : nat) (x : vec) : Prop :=
  exists y, chain dims j (S d) y /\ veq x (bd C y).

(** The [d]-th persistent Betti number: the rank of the map induced by the
    inclusion of the first [i] into the first [j] simplices, i.e. the dimension of
    Z_d(K_i) / (Z_d(K_i) intersected with B_d(K_j)). *)
Definition persistent_betti (C : list (list nat)) (dims : list nat) (i j d n : nat) : Prop :=
  exists z b, has_dim (cycles C dims i d) z /\
              has_dim (fun x => cycles C dims i d x /\ boundaries C dims j d x) b /\
              z = n + b.

(** The [d]-th Betti number of the complex of the first [i] simplices. *)
Definition betti (C : list (list nat)) (dims : list nat) (i d n : nat) : Prop :=
  exists z b, has_dim (cycles C dims i d) z /\ has_dim (boundaries C dims i d) b /\ z = n + b.
