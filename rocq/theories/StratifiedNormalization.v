(** * Model of [normalizeSimplicialComplex] in [src/tools/stratified_graph_analysis.cc].

    [DataType] ([double]) is modelled by the real numbers of the standard library;
    [None] is a value that is not finite.  A simplicial complex is the list of its
    simplices in their order, each with its vertices and its data; replacing the data of a
    simplex keeps its position, and succeeds, because the vertices stay the same. *)
From Coq Require Import Reals String List Arith Bool.
From Verif Require Import Base HeatKernel RealDescriptors.
Import ListNotations.
Local Open Scope R_scope.

(** [std::minmax_element] *)
Definition min_elementR (l : list R) : option R :=
  match l with [] => None | x :: t => Some (fold_left (fun m y => if Rlt_dec y m then y else m) t x) end.
Definition minmax_maximumR (l : list R) : option R :=
  match l with [] => None | x :: t => Some (fold_left (fun m y => if Rlt_dec y m then m else y) t x) end.

(** [std::max] of two values *)
Definition std_maxR (a b : R) : R := if Rlt_dec a b then b else a.

(** Statistics.hh 119-123 *)
Definition sampleStandardDeviationR (l : list R) : option R := option_map sqrt (sampleVarianceR l).

(** stratified_graph_analysis.cc 397-402: [dimension] is the number of vertices minus one *)
Definition edge_weights (K : list (list nat * R)) : list R :=
  map snd (filter (fun s => (length (fst s) =? 2)%nat) K).

(** stratified_graph_analysis.cc 413-430 *)
Definition normalized_weight (normalization : string) (min max : R) (mu sigma : option R) (w : R) : outcome (option R) :=
  if String.eqb normalization "abs" then Ok (divR w (std_maxR (Rabs min) (Rabs max)))
  else if String.eqb normalization "minmax" then
    Ok (match divR (w - min) (max - min) with
        | Some w => Some (2 * w - 1)
        | None => None
        end)
  else if String.eqb normalization "standardize" then
    Ok (match mu, sigma with
        | Some mu, Some sigma => divR (w - mu) sigma
        | _, _ => None
        end)
  else Throw RuntimeError.

(** stratified_graph_analysis.cc 389-436 *)
Definition normalizeSimplicialComplex (K : list (list nat * R)) (normalization : string) : outcome (list (list nat * option R)) :=
  let unchanged := map (fun s => (fst s, Some (snd s))) K in
  if String.eqb normalization "" then Ok unchanged
  else
    let weights := edge_weights K in
    match min_elementR weights, minmax_maximumR weights with
    | Some min, Some max =>
        let mu := sampleMeanR weights in
        let sigma := sampleStandardDeviationR weights in
        if Req_EM_T min max then Throw Terminated
        else foldM (fun L s =>
               let* w := normalized_weight normalization min max mu sigma (snd s) in
               Ok (L ++ [(fst s, w)])) K []
    | _, _ => Ok unchanged
    end.
