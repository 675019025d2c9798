(** * Model of [persistentHomology/ExtendedPersistenceHierarchy.hh].

    [Simplex::dimension] throws for the empty simplex only, which is in no complex, so
    that [sdim] is used.  Maps from vertices are total functions; [operator[]] yields
    [Vertex()] for unknown keys.  Indices are assumed to be representable as vertices. *)

From Coq Require Import List Arith Bool ZArith.
From Verif Require Import Base Matrix Simplex Complex UnionFind.
Import ListNotations.

(** 289-291, 128-129: every vertex is mapped to itself *)
Definition vm_init (vertices : list nat) : nat -> nat := fun w => if existsb (Nat.eqb w) vertices then w else 0.
Definition vm_set (m : nat -> nat) (k v : nat) : nat -> nat := fun w => if w =? k then v else m w.

(** [*( S.find( s ) )]: dereferencing [end()] is undefined *)
Definition find_deref (S : complex) (s : simplex) : outcome simplex :=
  match k_lookup S s with Some t => Ok t | None => UB end.

(** 137-143, 211-215, 320-328: the second result is the older one, which has the smaller index *)
Definition by_age (S : complex) (younger older : nat) : outcome (nat * nat) :=
  let* index1 := k_index S (simplex_vertex younger 0) in
  let* index2 := k_index S (simplex_vertex older 0) in
  Ok (if index1 <? index2 then (older, younger) else (younger, older)).

(** ** 120-155: [tagEdges].  [std::map] from simplices: the first entry counts. *)
Definition tag_map := list (simplex * nat).
Definition tag_step (S : complex) (st : (nat -> nat) * tag_map) (s : simplex) : outcome ((nat -> nat) * tag_map) :=
  let '(crit, tags) := st in
  if negb (sdim s =? 1) then Ok st
  else
    let* u := get_ (verts s) 0 in
    let* v := get_ (verts s) 1 in
    if u =? v then Ok (crit, (s, crit v) :: tags)
    else
      let* (younger, older) := by_age S u v in
      let* creator := find_deref S (simplex_vertex younger 0) in
      let crit := if (data creator =? data s)%Z then vm_set crit younger (crit older) else crit in
      Ok (crit, (s, crit older) :: tags).
Definition tagEdges (S : complex) : outcome tag_map :=
  let* st := foldM (tag_step S) (by_index S) (vm_init (k_vertices S), []) in Ok (snd st).
Definition tag_at (tags : tag_map) (s : simplex) : outcome nat :=
  match find (fun q => s_eqb (fst q) s) tags with Some q => Ok (snd q) | None => Throw OutOfRange end.

(** ** 171-234: [makeInterlevelSet] *)
Definition interlevel_step (S : complex) (uf : parents) (s : simplex) : outcome parents :=
  if sdim s =? 1 then
    let* u := get_ (verts s) 0 in
    let* v := get_ (verts s) 1 in
    if negb (uf_contains uf u) || negb (uf_contains uf v) then Ok uf
    else
      let* (uf, younger) := uf_find uf u in
      let* (uf, older) := uf_find uf v in
      if younger =? older then Ok uf
      else
        let* (younger, older) := by_age S younger older in
        uf_merge uf younger older
  else Ok uf.
Definition makeInterlevelSet (lower upper : Z) (S : complex) : outcome (complex * parents) :=
  let '(lower, upper) := if (upper <? lower)%Z then (upper, lower) else (lower, upper) in
  let simplices := filter (fun s => (lower <=? data s)%Z && (data s <=? upper)%Z && (sdim s <=? 1)) (by_index S) in
  let* K := k_of_range simplices in
  let vertices := set_insert_range (flat_map (fun s => if sdim s =? 0 then firstn 1 (verts s) else []) simplices) [] in
  let* uf := foldM (interlevel_step S) (by_index K) (uf_init vertices) in
  Ok (K, uf).

(** ** 37-82: [extractZeroDimensionalAdjacencyGraph]

    The [i]-th vertex of the graph is the [i]-th entry of the first list; the second list
    contains its neighbours in the order of [add_edge]. *)
Definition graph_step (S : complex) (G : list nat * list (list nat)) (s : simplex) : outcome (list nat * list (list nat)) :=
  let '(indices, adj) := G in
  if sdim s =? 0 then
    let* v := get_ (verts s) 0 in
    Ok (indices ++ [v], adj ++ [[]])
  else if sdim s =? 1 then
    let* u := get_ (verts s) 0 in
    let* v := get_ (verts s) 1 in
    if k_contains S (simplex_vertex u 0) && k_contains S (simplex_vertex v 0) then
      match position (Nat.eqb u) indices, position (Nat.eqb v) indices with
      | Some a, Some b =>
          let* la := get_ adj a in
          let adj := upd adj a (la ++ [b]) in
          let* lb := get_ adj b in
          Ok (indices, upd adj b (lb ++ [a]))
      | _, _ => Throw OutOfRange
      end
    else Ok G
  else Ok G.
Definition adjacencyGraph (S : complex) : outcome (list nat * list (list nat)) := foldM (graph_step S) (by_dim S) ([], []).

(** 377-381: [boost::breadth_first_search] with [record_predecessors] *)
Definition bfs_visit (x : nat) (st : list nat * list nat * list nat) (y : nat) : list nat * list nat * list nat :=
  let '(queue, seen, p) := st in
  if existsb (Nat.eqb y) seen then st else (queue ++ [y], y :: seen, upd p y x).
Fixpoint bfs (fuel : nat) (adj : list (list nat)) (queue seen p : list nat) : outcome (list nat) :=
  match queue with
  | [] => Ok p
  | x :: queue =>
      match fuel with
      | 0 => OutOfFuel
      | S fuel =>
          let* l := get_ adj x in
          let '(queue, seen, p) := fold_left (bfs_visit x) l (queue, seen, p) in
          bfs fuel adj queue seen p
      end
  end.

(** 383-398: the tags of the edges on the way back *)
Fixpoint path_tags (fuel : nat) (S : complex) (tags : tag_map) (indices p : list nat) (v : nat) (criticalPoints : list nat) : outcome (list nat) :=
  match fuel with
  | 0 => OutOfFuel
  | S fuel =>
      let* parent := at_ p v in
      let* a := at_ indices v in
      let* b := at_ indices parent in
      let* s := find_deref S (simplex_of [a; b] 0) in
      if parent =? v then Ok criticalPoints
      else
        let* t := tag_at tags s in
        path_tags fuel S tags indices p parent (set_insert t criticalPoints)
  end.

(** 351-398: [None] if the critical points are in different components *)
Definition criticalPoints_between (S : complex) (tags : tag_map) (older younger s : simplex) : outcome (option (list nat)) :=
  let* (K, uf) := makeInterlevelSet (data older) (data s) S in
  let* o := get_ (verts older) 0 in
  let* y := get_ (verts younger) 0 in
  let* same :=
    if uf_contains uf o && uf_contains uf y then
      let* (uf, ro) := uf_find uf o in
      let* (uf, ry) := uf_find uf y in
      Ok (ro =? ry)
    else Ok false in
  if same then
    let* (indices, adj) := adjacencyGraph K in
    match position (Nat.eqb o) indices, position (Nat.eqb y) indices with
    | Some u, Some v =>
        let n := length indices in
        let p := upd (repeat 0 n) u u in
        let* p := bfs n adj [u] [u] p in
        let* c := path_tags (Datatypes.S n) S tags indices p v [] in
        Ok (Some c)
    | _, _ => Throw OutOfRange
    end
  else Ok None.

(** ** 245-453 *)
Record hstate := HState { h_uf : parents; h_pairing : list (nat * option nat); h_edges : list (nat * nat); h_crit : nat -> nat }.
Definition hierarchy_step (S : complex) (tags : tag_map) (st : hstate) (s : simplex) : outcome hstate :=
  if negb (sdim s =? 1) then Ok st
  else
    let* u := get_ (verts s) 0 in
    let* v := get_ (verts s) 1 in
    let* (uf, younger) := uf_find (h_uf st) u in
    let* (uf, older) := uf_find uf v in
    if younger =? older then Ok (HState uf (h_pairing st) (h_edges st) (h_crit st))
    else
      let* (younger, older) := by_age S younger older in
      let* youngerCreator := find_deref S (simplex_vertex younger 0) in
      let* olderCreator := find_deref S (simplex_vertex older 0) in
      let* youngerCritical := find_deref S (simplex_vertex (h_crit st younger) 0) in
      let* olderCritical := find_deref S (simplex_vertex (h_crit st older) 0) in
      let* (edges, crit) :=
        if (data youngerCreator =? data s)%Z then Ok (h_edges st, vm_set (h_crit st) younger older)
        else
          let* iy := k_index S youngerCritical in
          let* io := k_index S olderCritical in
          let '(youngerCritical, olderCritical) := if iy <? io then (olderCritical, youngerCritical) else (youngerCritical, olderCritical) in
          let* c := criticalPoints_between S tags olderCritical youngerCritical s in
          let parent := match c with
                        | Some points => if length points =? 2 then h_crit st older else older
                        | None => older
                        end in
          Ok (h_edges st ++ [(parent, younger)], vm_set (h_crit st) older younger) in
      let* i := k_index S youngerCreator in
      let* j := k_index S s in
      let* uf := uf_merge uf younger older in
      Ok (HState uf (h_pairing st ++ [(i, Some j)]) edges crit).

Definition hierarchy_root (S : complex) (pairing : list (nat * option nat)) (root : nat) : outcome (list (nat * option nat)) :=
  let* i := k_index S (simplex_vertex root 0) in Ok (pairing ++ [(i, None)]).

(** [order] is the order of the hash set of roots; the set sorts them *)
Definition extendedPersistenceHierarchy (order : list nat -> list nat) (K : complex) : outcome (list (nat * option nat) * list (nat * nat)) :=
  let* K1 := k_of_range (filter (fun s => sdim s <=? 1) (by_index K)) in
  let* tags := tagEdges K1 in
  let vertices := k_vertices K1 in
  let* st := foldM (hierarchy_step K1 tags) (by_index K1) (HState (uf_init vertices) [] [] (vm_init vertices)) in
  let* (_, roots) := uf_roots order (h_uf st) in
  let* pairing := foldM (hierarchy_root K1) (set_insert_range roots []) (h_pairing st) in
  Ok (pairing, h_edges st).
