(** * Model of [persistenceDiagrams/distances/Bottleneck.hh].

    [DataType] is [Z] with exact arithmetic. The graph library is external: a graph is
    the list of its edges, and [edmonds_maximum_cardinality_matching] followed by
    [matching_size( ... ) == _maximumSize] is replaced by a search that decides whether a
    perfect matching exists. [std::upper_bound] is the loop of the standard library
    (halving, always with the same functor object). *)

From Coq Require Import List Arith Bool ZArith.
From Verif Require Import Base Diagram Wasserstein.
Import ListNotations.

(** Bottleneck.hh 23-41 *)
Record bedge := BEdge { b_source : nat; b_target : nat; b_weight : Z }.
Definition bedge_lt (a b : bedge) : bool := (b_weight a <? b_weight b)%Z.

(** [boost::adjacency_list<vecS, vecS, undirectedS>]: parallel edges are allowed *)
Definition graph := list (nat * nat).
Definition add_edge (u v : nat) (g : graph) : graph := g ++ [(u, v)].
Definition same_ends (u v : nat) (e : nat * nat) : bool :=
  ((fst e =? u) && (snd e =? v)) || ((fst e =? v) && (snd e =? u)).
(** [boost::remove_edge( u, v, g )] removes all edges between the two vertices *)
Definition remove_edge (u v : nat) (g : graph) : graph := filter (fun e => negb (same_ends u v e)) g.
Definition adjacent (g : graph) (u v : nat) : bool := existsb (same_ends u v) g.

(** Bottleneck.hh 83-89: a matching that covers the [size] vertices on the left, and
    hence, all of the edges running from left to right, all vertices *)
Fixpoint match_rows (g : graph) (size : nat) (rows used : list nat) : bool :=
  match rows with
  | [] => true
  | r :: rows => existsb (fun t => adjacent g r t && negb (existsb (Nat.eqb t) used) && match_rows g size rows (t :: used)) (seq size size)
  end.
Definition perfect (size : nat) (g : graph) : bool := match_rows g size (seq 0 size) [].

Section Bottleneck.
  Variables (size : nat) (edges : list bedge).

  Definition ends (i : nat) : nat * nat := match nth_error edges i with Some e => (b_source e, b_target e) | None => (0, 0) end.

  (** Bottleneck.hh 57-90, without the first parameter, which is unused. The state is
      [_last] and [_graph]. If the new position is the last one, [_last] is decreased
      past the beginning. *)
  Definition check (it2 : nat) (s : nat * graph) : outcome (bool * (nat * graph)) :=
    let (last, g) := s in
    if it2 =? last then UB
    else
      let g := if last <? it2
               then fold_left (fun g i => add_edge (fst (ends i)) (snd (ends i)) g) (seq (S last) (it2 - last)) g
               else fold_left (fun g i => remove_edge (fst (ends i)) (snd (ends i)) g) (rev (seq (S it2) (last - it2))) g in
      Ok (perfect size g, (it2, g)).

  (** [std::upper_bound] *)
  Fixpoint upper_bound (fuel first len : nat) (s : nat * graph) : outcome nat :=
    match len with
    | 0 => Ok first
    | _ =>
        match fuel with
        | 0 => OutOfFuel
        | S fuel =>
            let half := len / 2 in
            let* r := check (first + half) s in
            if fst r then upper_bound fuel first half (snd r)
            else upper_bound fuel (first + half + 1) (len - half - 1) (snd r)
        end
    end.
End Bottleneck.

Section Distance.
  (** [dist] is [Distance], [orth] is [orthogonalDistance<Distance>] *)
  Variables (dist : point -> point -> Z) (orth : point -> Z).

  (** Bottleneck.hh 140-142 *)
  Definition diagonal_edges (n m : nat) : list bedge :=
    flat_map (fun i => map (fun j => BEdge i j 0%Z) (seq (n + m + i) (2 * (n + m) - (n + m + i)))) (seq n m).
  (** Bottleneck.hh 144-166 *)
  Definition regular_edges (D1 D2 : list point) : list bedge :=
    flat_map (fun p1 => map (fun p2 => BEdge (fst p1) (length D1 + length D2 + fst p2) (dist (snd p1) (snd p2))) (enum D2)) (enum D1).
  (** Bottleneck.hh 170-178 *)
  Definition first_edges (D1 D2 : list point) : list bedge :=
    map (fun p1 => BEdge (fst p1) (length D1 + length D2 + length D2 + fst p1) (orth (snd p1))) (enum D1).
  (** Bottleneck.hh 180-186: [i] is not increased *)
  Definition second_edges (D1 D2 : list point) : list bedge :=
    map (fun p2 => BEdge (length D1) (length D1 + length D2) (orth p2)) D2.

  Definition bottleneck_edges (D1 D2 : list point) : list bedge :=
    diagonal_edges (length D1) (length D2) ++ regular_edges D1 D2 ++ first_edges D1 D2 ++ second_edges D1 D2.

  (** Bottleneck.hh 125-206; the constructor of the functor (47-55) accesses the first edge *)
  Definition bottleneckDistance (D1 D2 : diagram) : outcome Z :=
    let size := length (points D1) + length (points D2) in
    let edges := cpp_sort bedge_lt (bottleneck_edges (points D1) (points D2)) in
    match edges with
    | [] => UB
    | e :: _ =>
        let* i := upper_bound size edges (length edges) 0 (length edges) (0, add_edge (b_source e) (b_target e) []) in
        match nth_error edges i with Some e => Ok (b_weight e) | None => UB end
    end.
End Distance.
