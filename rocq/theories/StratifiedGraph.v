(** * Model of [src/tools/random_stratified_graphs.cc] and
    [src/tools/stratified_graph_analysis.cc].

    Weights are integers instead of floating-point numbers; the calls of the random
    engine yield the values [draw 0], [draw 1], ....  The name of a filtration or a
    strategy is one of those that are compared with, or any other one. *)

From Coq Require Import List Arith Bool ZArith.
From Verif Require Import Base Simplex Complex Diagram.
Import ListNotations.

(** ** random graphs *)

(** the type [unsigned short] of vertices: stratified_graph_analysis.cc 90 *)
Definition vertex_of (z : Z) : nat := Z.to_nat (z mod 65536).

(** random_stratified_graphs.cc 143-148, stratified_graph_analysis.cc 134-139 *)
Definition stratified_vertices (strata : list nat) : list simplex :=
  map (fun i => simplex_vertex (vertex_of (Z.of_nat i)) 0) (seq 0 (list_sum strata)).

(** random_stratified_graphs.cc 163-177, stratified_graph_analysis.cc 154-168: the pairs
    of vertices of one stratum of size [s] and the next one; [offset] is the variable
    after its increment *)
Definition stratum_edges (offset s t : nat) : list (nat * nat) :=
  flat_map (fun j => map (fun k => (vertex_of (Z.of_nat offset - Z.of_nat s + Z.of_nat j), vertex_of (Z.of_nat offset + Z.of_nat k)))
                         (seq 0 t)) (seq 0 s).

(** random_stratified_graphs.cc 155-178, stratified_graph_analysis.cc 146-169 *)
Fixpoint all_edges (offset : nat) (strata : list nat) : list (nat * nat) :=
  match strata with
  | s :: ((t :: _) as rest) =>
      let offset' := vertex_of (Z.of_nat offset + Z.of_nat s) in
      stratum_edges offset' s t ++ all_edges offset' rest
  | _ => []
  end.

(** random_stratified_graphs.cc 120-181, stratified_graph_analysis.cc 111-172 *)
Definition makeRandomStratifiedGraph (draw : nat -> Z) (strata : list nat) : outcome complex :=
  if length strata <=? 1 then Throw RuntimeError
  else
    let edges := all_edges 0 strata in
    k_of_range (stratified_vertices strata ++
                map (fun '(n, (u, v)) => simplex_of [u; v] (draw n)) (combine (seq 0 (length edges)) edges)).

(** ** upper and lower filtrations *)

(** random_stratified_graphs.cc 34-48 *)
Definition keep_sign (upper : bool) (s : simplex) : simplex :=
  if (upper && (0 <? data s)%Z) || (negb upper && (data s <? 0)%Z) then s else simplex_of (verts s) 0.
(** random_stratified_graphs.cc 56-64; simplices of a complex are not empty *)
Definition reset_vertex (s : simplex) : simplex :=
  if sdim s =? 0 then simplex_vertex (hd 0 (verts s)) 0 else s.
(** random_stratified_graphs.cc 68-75 *)
Definition no_part (s : simplex) : bool := negb (sdim s =? 0) && (data s =? 0)%Z.
(** random_stratified_graphs.cc 26-78 *)
Definition makeFiltration (K : complex) (upper : bool) : outcome complex :=
  k_of_range (filter (fun s => negb (no_part s)) (map reset_vertex (map (keep_sign upper) (by_index K)))).

(** random_stratified_graphs.cc 81-89 *)
Definition makeLowerFiltration (K : complex) : outcome complex :=
  let* L := makeFiltration K false in Ok (k_sort data_cmp_greater L).
(** random_stratified_graphs.cc 92-100: the sorted complex is not the one that is returned *)
Definition makeUpperFiltration (K : complex) : outcome complex :=
  let* L := makeFiltration K true in
  let L' := k_sort data_cmp L in
  makeFiltration K true.

(** random_stratified_graphs.cc 106-118, stratified_graph_analysis.cc 97-109: the dimension
    of the new diagram is zero *)
Definition merge_diagrams (D E : diagram) : outcome diagram :=
  let F := empty_diagram in
  if negb (dgm_dim D =? dgm_dim F) then Throw RuntimeError
  else Ok (fold_left d_add (points D ++ points E) F).

(** ** filtrations by weights and absolute weights *)
Inductive filtration_name := Standard | Absolute | OtherFiltration.
Inductive strategy_name := Global | Local | OtherStrategy.

(** stratified_graph_analysis.cc 232-259 *)
Definition absolute_cmp (s t : simplex) : bool :=
  let w1 := data s in
  let w2 := data t in
  if (Z.abs w1 <? Z.abs w2)%Z then true
  else if (Z.abs w1 =? Z.abs w2)%Z then
    if (w1 <? w2)%Z then true
    else if sdim s <? sdim t then true else s_ltb s t
  else false.
(** stratified_graph_analysis.cc 199-226 *)
Definition absolute_cmp_reverse (s t : simplex) : bool :=
  let w1 := data s in
  let w2 := data t in
  if (Z.abs w2 <? Z.abs w1)%Z then true
  else if (Z.abs w1 =? Z.abs w2)%Z then
    if (w2 <? w1)%Z then true
    else if sdim s <? sdim t then true else s_ltb s t
  else false.

(** stratified_graph_analysis.cc 174-266 *)
Definition applyFiltration (K : complex) (name : filtration_name) (reverse : bool) : complex :=
  match name with
  | Standard => if reverse then k_sort data_cmp_greater K else k_sort data_cmp K
  | Absolute => if reverse then k_sort absolute_cmp_reverse K else k_sort absolute_cmp K
  | OtherFiltration => K
  end.

(** stratified_graph_analysis.cc 268-281; [big] is the largest number *)
Definition getMinimumAbsoluteWeight (big : Z) (K : complex) : Z :=
  fold_left (fun r s => if sdim s =? 1 then Z.min r (Z.abs (data s)) else r) (by_index K) big.

(** stratified_graph_analysis.cc 283-297 *)
Definition min_abs (a b : Z) : Z := if (Z.abs a <? Z.abs b)%Z then a else b.
Definition max_abs (a b : Z) : Z := if (Z.abs b <? Z.abs a)%Z then a else b.

(** stratified_graph_analysis.cc 304-328; [lowest] and [big] are the limits of the type *)
Definition extreme_step (lowest big : Z) (name : filtration_name) (st : Z * Z) (s : simplex) : Z * Z :=
  let w := data s in
  if negb (sdim s =? 1) then st
  else match name with
       | Standard => (Z.min (fst st) w, Z.max (snd st) w)
       | Absolute =>
           let mn := if (fst st =? big)%Z then w else fst st in
           let mx := if (snd st =? lowest)%Z then w else snd st in
           (min_abs mn w, max_abs mx w)
       | OtherFiltration => st
       end.
Definition extremes (lowest big : Z) (name : filtration_name) (K : complex) : Z * Z :=
  fold_left (extreme_step lowest big name) (by_index K) (big, lowest).

(** a map with [insert], which keeps a value that is present, and a look-up *)
Definition weight_map := list (nat * Z).
Definition w_find (v : nat) (m : weight_map) : option Z :=
  match find (fun e => fst e =? v) m with Some e => Some (snd e) | None => None end.
Definition w_insert (m : weight_map) (v : nat) (w : Z) : weight_map :=
  match w_find v m with Some _ => m | None => (v, w) :: m end.

(** stratified_graph_analysis.cc 340-362 *)
Definition weight_step (strategy : strategy_name) (value : Z) (m : weight_map) (s : simplex) : outcome weight_map :=
  if negb (sdim s =? 1) then Ok m
  else
    let* u := get_ (verts s) 0 in
    let* v := get_ (verts s) 1 in
    let* w := match strategy with
              | Global => Ok value
              | Local => Ok (data s)
              | OtherStrategy => Throw RuntimeError
              end in
    Ok (w_insert (w_insert m u w) v w).

(** stratified_graph_analysis.cc 371-384 *)
Definition set_step (m : weight_map) (L : complex) (i : nat) : outcome complex :=
  let* s := get_ (by_index L) i in
  if sdim s =? 0 then
    let* v := get_ (verts s) 0 in
    match w_find v m with
    | None => Throw OutOfRange
    | Some w =>
        let '(L', r) := k_replace L i (set_data s w) in
        let* success := r in
        if success : bool then Ok L' else Throw RuntimeError
    end
  else Ok L.

(** stratified_graph_analysis.cc 299-387 *)
Definition assignVertexWeights (lowest big : Z) (K : complex) (name : filtration_name) (strategy : strategy_name) (reverse : bool) : outcome complex :=
  let e := extremes lowest big name K in
  let value := if reverse then snd e else fst e in
  let* m := foldM (weight_step strategy value) (by_index K) [] in
  foldM (set_step m) (seq 0 (length (by_index K))) K.
