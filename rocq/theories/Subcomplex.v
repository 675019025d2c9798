(** * Model of [topology/Skeleton.hh], [topology/Filter.hh], the partition of
    [persistentHomology/PhiPersistence.hh] and [topology/filtrations/Degree.hh]. *)

From Coq Require Import List Arith Bool ZArith.
From Verif Require Import Base Simplex Matrix Complex.
Import ListNotations.

(** Appending to a complex under construction; a stored simplex is never empty,
    so [push_back] does not throw here. *)
Definition push_all (K : complex) (l : list simplex) : complex :=
  fold_left (fun L s => fst (k_push_back L s)) l K.

(** Skeleton.hh 35-46. *)
Definition skeleton (k : nat) (K : complex) : complex :=
  push_all k_empty (filter (fun s => sdim s <=? k) (by_index K)).

(** Filter.hh 34-45. *)
Definition k_filter (K : complex) (f : simplex -> bool) : complex :=
  push_all k_empty (filter f (by_index K)).

(** PhiPersistence.hh 38-57. *)
Definition partition_phi (K : complex) (phi : simplex -> bool) : complex * nat :=
  let L := push_all k_empty (filter phi (by_index K)) in
  (push_all L (filter (fun s => negb (phi s)) (by_index K)), k_size L).

(** [std::map<VertexType, unsigned>]: [degrees[v] += 1]. *)
Fixpoint map_incr (v : nat) (m : list (nat * nat)) : list (nat * nat) :=
  match m with
  | [] => [(v, 1)]
  | (u, n) :: m' => if v <? u then (v, 1) :: m
                    else if u <? v then (u, n) :: map_incr v m'
                    else (u, S n) :: m'
  end.

(** Degree.hh 34-53; what the output iterator receives. *)
Definition degrees (K : complex) : list nat :=
  map snd (fold_left (fun m s => if sdim s =? 0 then m else fold_left (fun m v => map_incr v m) (verts s) m)
                     (by_index K) []).

(** Degree.hh 72-98; the sizes of two [std::set]s are compared. *)
Definition n_degree (K : complex) (s : simplex) : outcome nat :=
  let* n := k_dimension K in
  let sV := set_insert_range (verts s) [] in
  Ok (length (filter (fun t => length (filter (fun v => mem v (verts t)) sV) =? length sV) (k_range K n))).
