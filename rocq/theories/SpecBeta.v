(** * Specification of beta-skeletons. *)
From Coq Require Import List Arith ZArith QArith.
Import ListNotations.
Local Open Scope Q_scope.

(** the [k]-th coordinate of a point *)
Definition coord (p : list Z) (k : nat) : Q := inject_Z (nth k p 0%Z).
Definition qsum (f : nat -> Q) (d : nat) : Q := fold_right Qplus 0 (map f (seq 0 d)).
(** the square of the Euclidean distance, in dimension [d] *)
Definition sqd (d : nat) (p q : list Z) : Z := fold_right Z.add 0%Z (map (fun k => (nth k p 0 - nth k q 0) * (nth k p 0 - nth k q 0))%Z (seq 0 d)).

(** [r] is in the closed ball with the given squared radius whose centre is [p + beta/2 (q - p)] *)
Definition in_ball (d : nat) (beta radius_sq : Q) (p q r : list Z) : Prop :=
  qsum (fun k => let x := coord r k - (coord p k + beta / 2 * (coord q k - coord p k)) in x * x) d <= radius_sq.
(** the lune: the radius is [beta/2] times the distance, of which [D] is the square *)
Definition in_lune (d : nat) (beta : Q) (D : Z) (p q r : list Z) : Prop :=
  let radius_sq := beta / 2 * (beta / 2) * inject_Z D in
  in_ball d beta radius_sq p q r /\ in_ball d beta radius_sq q p r.

(** the edges: no other point is in the lune *)
Definition beta_edge (d : nat) (sq : list Z -> list Z -> Z) (beta : Q) (X : list (list Z)) (i j : nat) : Prop :=
  (i < j < length X)%nat /\
  forall r, (r < length X)%nat -> r <> i -> r <> j ->
    ~ in_lune d beta (sq (nth i X []) (nth j X [])) (nth i X []) (nth j X []) (nth r X []).

(** edges in the order in which they are found *)
Definition edge_before (a b : nat * nat) : Prop := (fst a < fst b)%nat \/ (fst a = fst b /\ (snd a < snd b)%nat).
