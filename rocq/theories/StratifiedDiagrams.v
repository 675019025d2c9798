(** * Model of the changes of a persistence diagram in the main program of
      [src/tools/stratified_graph_analysis.cc].

    [DataType] ([double]) is modelled by the real numbers of the standard library.  A point is
    a pair whose second coordinate is [None] if it is infinite; simplicial complexes are as in
    [StratifiedNormalization].  [big] and [lowest] are the limits of the type. *)
From Coq Require Import Reals List Arith Bool.
From Verif Require Import Base StratifiedNormalization.
Import ListNotations.
Local Open Scope R_scope.

Section Diagram.
  Variables big lowest : R.

  (** stratified_graph_analysis.cc 268-281 *)
  Definition minAbsoluteWeightR (K : list (list nat * R)) : R :=
    fold_left (fun r w => Rmin r (Rabs w)) (edge_weights K) big.

  (** PersistenceDiagram.hh [removeDiagonal]: stratified_graph_analysis.cc 659 *)
  Definition off_diagonal (p : R * option R) : bool :=
    match snd p with
    | Some y => if Req_EM_T (fst p) y then false else true
    | None => true
    end.

  (** stratified_graph_analysis.cc 663-671 *)
  Definition close_point (m : R) (p : R * option R) : R * R :=
    match snd p with Some y => (fst p, y) | None => (fst p, m) end.

  (** stratified_graph_analysis.cc 673-684 *)
  Definition absolute_point (p : R * R) : R * R := (Rabs (fst p), Rabs (snd p)).

  (** stratified_graph_analysis.cc 688-695 *)
  Definition data_range (K : list (list nat * R)) : R * R :=
    fold_left (fun st s => (Rmin (fst st) (snd s), Rmax (snd st) (snd s))) K (big, lowest).

  (** stratified_graph_analysis.cc 700-713 *)
  Definition scale_point (minData maxData : R) (p : R * R) : R * R :=
    if Req_EM_T minData maxData then p
    else ((fst p - minData) / (maxData - minData), (snd p - minData) / (maxData - minData)).

  (** stratified_graph_analysis.cc 659-715: [absolute] tells whether the filtration is the one by
      absolute weights, [scale] whether normalization without a name has been requested *)
  Definition analysis_diagram (absolute scale : bool) (K : list (list nat * R)) (D : list (R * option R)) : list (R * R) :=
    let D1 := map (close_point (minAbsoluteWeightR K)) (filter off_diagonal D) in
    let D2 := if absolute then map absolute_point D1 else D1 in
    if scale then map (scale_point (fst (data_range K)) (snd (data_range K))) D2 else D2.
End Diagram.
