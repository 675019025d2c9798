(** * Specification: walks in the 1-skeleton of a list of simplices. *)
From Coq Require Import List Arith ZArith.
From Verif Require Import Simplex SpecComplex.
Import ListNotations.

(** [joined L w u v x]: an edge with vertices [u] and [v] is stored; [x] is its
    data, or [w] if the data is 0 *)
Definition joined (L : list simplex) (w : Z) (u v : nat) (x : Z) : Prop :=
  exists s, In s L /\ u <> v /\ set_eq (verts s) [u; v] /\ x = if (data s =? 0)%Z then w else data s.

(** [walk L w u v d]: a walk from [u] to [v] of total weight [d] *)
Inductive walk (L : list simplex) (w : Z) : nat -> nat -> Z -> Prop :=
| walk_stay u : walk L w u u 0
| walk_step u v t x d : joined L w u v x -> walk L w v t d -> walk L w u t (x + d).

(** the stored vertices in their order *)
Definition vertex_order (L : list simplex) : list nat :=
  flat_map (fun s => match verts s with [v] => [v] | _ => [] end) L.
