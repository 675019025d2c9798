(** * Model of [src/tools/persistent_intersection_homology.cc].

    The complex is the Vietoris-Rips complex of the points (VietorisRips.v).  Singularity values are integers, and the flag
    for their standardisation is left out.  The factor 0.5 of the subdivision is 1 in the model: the weights of the
    subdivided complex are doubled. *)
From Coq Require Import List Arith Bool ZArith.
From Verif Require Import Base Simplex Matrix Complex Subcomplex Intersections Diagram Perversity IntersectionHomology Barycentric UnionFind.
Import ListNotations.

(** persistent_intersection_homology.cc 58-72, 139-143: the sum of every row of the file *)
Definition singularity_values (rows : list (list Z)) : list Z := map (fun row => fold_left Z.add row 0%Z) rows.

(** 218-221, 242-245, 255-258 *)
Definition beyond (threshold : Z) (invert : bool) (x : Z) : bool := if invert then (threshold <? x)%Z else (x <? threshold)%Z.
(** 210-226 *)
Definition vertex_test (values : list Z) (threshold : Z) (invert : bool) (s : simplex) : outcome bool :=
  if sdim s =? 0 then
    let* v := get_ (verts s) 0 in
    let* x := at_ values v in
    Ok (beyond threshold invert x)
  else Ok false.
(** 233-264 *)
Definition edge_test (values : list Z) (threshold : Z) (invert : bool) (s : simplex) : outcome bool :=
  if sdim s =? 0 then vertex_test values threshold invert s
  else if sdim s =? 1 then
    let* u := get_ (verts s) 0 in
    let* v := get_ (verts s) 1 in
    let* x := at_ values u in
    let* y := at_ values v in
    Ok (beyond threshold invert (Z.max x y))
  else Ok false.
(** Filter.hh 34-45, which is [noexcept], for a functor that may throw *)
Definition filter_throwing (K : complex) (f : simplex -> outcome bool) : outcome complex :=
  no_except (foldM (fun L s => let* b := f s in Ok (if b then fst (k_push_back L s) else L)) (by_index K) k_empty).

(** 171-281: the strata, depending on the dimension of the complex, and the complex of which intersection homology is
    calculated *)
Definition skeleton_strata (lowest highest : Z) (sorder : submap -> submap) (K : complex) : outcome ((nat -> list complex) * complex) :=
  let K0 := skeleton 0 K in
  let* L := subdivide sorder (fun d => if d =? 0 then 0%Z else 1%Z) K in
  let L := k_sort data_cmp (recalculateWeights lowest highest true true L) in
  Ok (fun d => if d =? 2 then [K0; K0; K] else [K0; K0; K; k_empty], L).
Definition value_strata (values : list Z) (threshold : Z) (invert : bool) (K : complex) : outcome ((nat -> list complex) * complex) :=
  let* K0 := filter_throwing K (vertex_test values threshold invert) in
  let* K1 := filter_throwing K (edge_test values threshold invert) in
  let* d := k_dimension K in
  Ok (fun _ => if d =? 2 then [K0; K0; K] else [K0; K1; K1; K], K).
Definition strata (lowest highest : Z) (sorder : submap -> submap) (values : list Z) (threshold : Z) (invert : bool) (K : complex) : outcome ((nat -> list complex) * complex) :=
  match values with
  | [] => skeleton_strata lowest highest sorder K
  | _ => value_strata values threshold invert K
  end.

Definition gm_at (values : list nat) (k : nat) : outcome Z := let* q := perversityGM_at (perversityGM values) k in Ok (Z.of_nat q).
(** 283-297 *)
Definition tool_diagrams (inf lowest highest : Z) (sorder : submap -> submap) (order : list nat -> list nat) (a : algorithm) (values : list Z) (threshold : Z) (invert : bool) (K : complex)
  : outcome (list diagram * list diagram) :=
  let* (X, L) := strata lowest highest sorder values threshold invert K in
  let* D1 := calculatePersistenceDiagrams inf order a K true false in
  let* d := k_dimension K in
  let* D2 := calculateIntersectionHomology inf order a true (gm_at (if d =? 2 then [0] else [0; 1])) L (X d) true in
  Ok (D1, D2).
(** 299-333: the files of every dimension *)
Definition tool_file (D1 D2 : list diagram) (k : nat) : outcome (nat * (diagram * diagram)) :=
  let* x := get_ D1 k in
  let* y := get_ D2 k in
  Ok (k, (removeDiagonal x, removeDiagonal y)).
Definition tool_files (D1 D2 : list diagram) : outcome (list (nat * (diagram * diagram))) :=
  let* f0 := tool_file D1 D2 0 in
  foldM (fun l k => if (k <? length D1) && (k <? length D2) then let* f := tool_file D1 D2 k in Ok (l ++ [f]) else Ok l) [1; 2] [f0].
Definition intersection_tool (inf lowest highest : Z) (sorder : submap -> submap) (order : list nat -> list nat) (a : algorithm) (values : list Z) (threshold : Z) (invert : bool) (K : complex)
  : outcome (list (nat * (diagram * diagram))) :=
  let* (D1, D2) := tool_diagrams inf lowest highest sorder order a values threshold invert K in
  tool_files D1 D2.
