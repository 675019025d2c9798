(** * Model of [topology/CliqueGraph.hh].

    [VertexType(index)] is taken to be exact. *)

From Coq Require Import List Arith Bool ZArith.
From Verif Require Import Base Simplex Complex Quotient.
Import ListNotations.

(** [std::map<Simplex, A>] as the list of its entries in ascending order;
    [map_update d f k m] is the effect of changing [m[k]] by [f], where a missing
    entry is created with the default value [d]. *)
Fixpoint map_update {A} (d : A) (f : A -> A) (key : simplex) (m : list (simplex * A)) : list (simplex * A) :=
  match m with
  | [] => [(key, f d)]
  | (k, a) :: r =>
      if s_ltb key k then (key, f d) :: m
      else if s_ltb k key then (k, a) :: map_update d f key r
      else (k, f a) :: r
  end.

(** CliqueGraph.hh 68-73 *)
Definition cg_simplexMap (K : complex) (k : nat) : outcome (list (simplex * nat)) :=
  foldM (fun m s => let* i := k_index K s in Ok (map_update 0 (fun _ => i) s m)) (k_range K k) [].

(** CliqueGraph.hh 75-82 *)
Definition cg_cofaceMap (m : list (simplex * nat)) : list (simplex * list nat) :=
  fold_left (fun c p =>
    fold_left (fun c face => map_update [] (fun l => l ++ [snd p]) face c) (boundary (fst p)) c) m [].

(** CliqueGraph.hh 84-94 *)
Definition cg_vertices (m : list (simplex * nat)) : list simplex :=
  map (fun p => simplex_vertex (snd p) (data (fst p))) m.

(** CliqueGraph.hh 104-125 *)
Definition cg_edge (f : Z -> Z -> Z) (K : complex) (u v : nat) (edges : list simplex) : outcome (list simplex) :=
  let* s := k_at K u in
  let* t := k_at K v in
  Ok (edges ++ [simplex_of [u; v] (f (data s) (data t))]).
Definition cg_edges (f : Z -> Z -> Z) (K : complex) (c : list (simplex * list nat)) : outcome (list simplex) :=
  foldM (fun edges pair =>
    let indices := snd pair in
    let n := length indices in
    if 2 <=? n then
      foldM (fun edges i =>
        let* u := get_ indices i in
        foldM (fun edges j =>
          let* v := get_ indices j in
          cg_edge f K u v edges) (seq (i + 1) (n - (i + 1))) edges) (seq 0 n) edges
    else Ok edges) c [].

(** CliqueGraph.hh 57-133 *)
Definition cliqueGraph (f : Z -> Z -> Z) (K : complex) (k : nat) : outcome complex :=
  let* m := cg_simplexMap K k in
  let* edges := cg_edges f K (cg_cofaceMap m) in
  let* L := insert_into k_empty (cg_vertices m) in
  insert_into L edges.

(** CliqueGraph.hh 33-38 *)
Definition cliqueGraph_max (K : complex) (k : nat) : outcome complex := cliqueGraph Z.max K k.
