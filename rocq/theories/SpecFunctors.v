(** * Specification of the merging of connected components along a filtration. *)
From Coq Require Import List Arith ZArith Relations Sorted.
From Verif Require Import Simplex Complex.
Import ListNotations.

(** [w] is the vertex at position [i] of the filtration *)
Definition vertex_at (K : complex) (i w : nat) : Prop := nth_error (map verts (by_index K)) i = Some [w].

(** [u] and [v] are the end points of the edge at position [j] *)
Definition edge_at (K : complex) (j u v : nat) : Prop := nth_error (map verts (by_index K)) j = Some [u; v].

(** [u] and [v] are joined by a path of edges at positions before [j] *)
Definition linked (K : complex) (j : nat) : nat -> nat -> Prop :=
  clos_refl_sym_trans nat (fun u v => exists k, k < j /\ edge_at K k u v).

(** the edge at position [j] joins two components *)
Definition joining (K : complex) (j : nat) : Prop := exists u v, edge_at K j u v /\ ~ linked K j u v.

(** [r], at position [i], is the first vertex of its component *)
Definition first_at (K : complex) (j i r : nat) : Prop :=
  vertex_at K i r /\ forall k w, vertex_at K k w -> linked K j w r -> i <= k.

(** [l] lists the vertices of the component of [u] *)
Definition members (K : complex) (j u : nat) (l : list nat) : Prop :=
  NoDup l /\ forall w, In w l <-> (exists k, vertex_at K k w) /\ linked K j w u.

(** What happens at an edge that joins two components. *)
Record event := Event {
  ev_edge : nat; ev_creator : nat; ev_younger : nat; ev_older : nat;
  ev_creation : Z; ev_destruction : Z; ev_u : nat; ev_v : nat }.

Definition data_of (K : complex) (i : nat) (d : Z) : Prop := nth_error (map data (by_index K)) i = Some d.

Record is_event (K : complex) (e : event) : Prop := {
  ie_edge : edge_at K (ev_edge e) (ev_u e) (ev_v e);
  ie_joins : ~ linked K (ev_edge e) (ev_u e) (ev_v e);
  ie_ends : (linked K (ev_edge e) (ev_u e) (ev_younger e) /\ linked K (ev_edge e) (ev_v e) (ev_older e)) \/
            (linked K (ev_edge e) (ev_v e) (ev_younger e) /\ linked K (ev_edge e) (ev_u e) (ev_older e));
  ie_younger : first_at K (ev_edge e) (ev_creator e) (ev_younger e);
  ie_older : exists i, i < ev_creator e /\ first_at K (ev_edge e) i (ev_older e);
  ie_creation : data_of K (ev_creator e) (ev_creation e);
  ie_destruction : data_of K (ev_edge e) (ev_destruction e)
}.

(** [evs] are the events of [K] in the order of the filtration *)
Definition all_events (K : complex) (evs : list event) : Prop :=
  StronglySorted lt (map ev_edge evs) /\ Forall (is_event K) evs /\
  forall j, In j (map ev_edge evs) <-> joining K j.

(** [rs] lists positions and first vertices of the components of [K] *)
Definition all_roots (K : complex) (rs : list (nat * nat)) : Prop :=
  NoDup rs /\ forall i r, In (i, r) rs <-> first_at K (k_size K) i r.
