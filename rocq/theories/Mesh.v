(** * Model of [topology/Mesh.hh].

    Pointers are positions in lists of half-edges and of faces that only grow; a null
    pointer is [None].  A vertex is identified with its ID because the hash map
    [_vertices] keeps one vertex per ID and never removes one.  The order in which the
    hash map hands out its vertices is the parameter [order].  Coordinates and data are
    integers.  Assertions are enabled: a violated one ends the program
    ([Throw Terminated]).  The state after an exception is not modelled. *)

From Coq Require Import List Arith Bool ZArith.
From Verif Require Import Base UnionFind.
Import ListNotations.

(** Mesh.hh 45-65 *)
Record halfedge := mkH { h_face : option nat; h_vertex : option nat; h_next : option nat; h_prev : option nat; h_pair : option nat }.
(** 89-98; the ID is the key of the map *)
Record vertex := mkV { v_x : Z; v_y : Z; v_z : Z; v_data : Z; v_edge : option nat }.
(** 583-589; a face (67-69) is its edge *)
Record mesh := mkM { m_half : list halfedge; m_faces : list (option nat); m_verts : list (nat * vertex); m_largest : nat }.
Definition m_empty : mesh := mkM [] [] [] 0.

(** ** Access *)
Definition ptr (o : option nat) : outcome nat := match o with Some x => Ok x | None => UB end.
Definition vfind (m : mesh) (v : nat) : option vertex := option_map snd (find (fun q => fst q =? v) (m_verts m)).
(** [_vertices.at] *)
Definition vat (m : mesh) (v : nat) : outcome vertex := match vfind m v with Some x => Ok x | None => Throw OutOfRange end.
Definition half (m : mesh) (e : nat) : outcome halfedge := get_ (m_half m) e.
Definition pair_of (m : mesh) (e : nat) : outcome nat := let* h := half m e in ptr (h_pair h).
Definition face_of (m : mesh) (e : nat) : outcome (option nat) := let* h := half m e in Ok (h_face h).
(** 53-61 *)
Definition target (m : mesh) (e : nat) : outcome (option nat) := let* h := half m e in Ok (h_vertex h).
Definition source (m : mesh) (e : nat) : outcome (option nat) := let* p := pair_of m e in target m p.

Definition set_half (m : mesh) (e : nat) (f : halfedge -> halfedge) : mesh :=
  mkM (match nth_error (m_half m) e with Some h => upd (m_half m) e (f h) | None => m_half m end) (m_faces m) (m_verts m) (m_largest m).
Definition set_face (f : option nat) (h : halfedge) : halfedge := mkH f (h_vertex h) (h_next h) (h_prev h) (h_pair h).
Definition set_vertex (v : option nat) (h : halfedge) : halfedge := mkH (h_face h) v (h_next h) (h_prev h) (h_pair h).
Definition set_next (e : option nat) (h : halfedge) : halfedge := mkH (h_face h) (h_vertex h) e (h_prev h) (h_pair h).
Definition set_prev (e : option nat) (h : halfedge) : halfedge := mkH (h_face h) (h_vertex h) (h_next h) e (h_pair h).
Definition set_vedge (m : mesh) (v : nat) (e : nat) : mesh :=
  mkM (m_half m) (m_faces m)
    (map (fun q => if fst q =? v then (fst q, mkV (v_x (snd q)) (v_y (snd q)) (v_z (snd q)) (v_data (snd q)) (Some e)) else q) (m_verts m)) (m_largest m).
Definition set_fedge (m : mesh) (f : nat) (e : nat) : mesh := mkM (m_half m) (upd (m_faces m) f (Some e)) (m_verts m) (m_largest m).

Definition opt_eqb (a b : option nat) : bool :=
  match a, b with Some x, Some y => x =? y | None, None => true | _, _ => false end.

(** ** Queries of single vertices *)

(** 499-516: [getEdges]; [edge] is [Some e] within the loop *)
Fixpoint edges_loop (fuel : nat) (m : mesh) (start e : nat) : outcome (list nat) :=
  let* p := pair_of m e in
  let* h := half m p in
  match h_next h with
  | None => Ok [e]
  | Some e' =>
      if e' =? start then Ok [e]
      else match fuel with
           | 0 => OutOfFuel
           | S fuel => let* l := edges_loop fuel m start e' in Ok (e :: l)
           end
  end.
Definition getEdges (fuel : nat) (m : mesh) (v : vertex) : outcome (list nat) :=
  match v_edge v with None => Ok [] | Some e => edges_loop fuel m e e end.

(** [std::find_if] *)
Fixpoint find_ifM {A} (f : A -> outcome bool) (l : list A) : outcome (option A) :=
  match l with
  | [] => Ok None
  | x :: l => let* b := f x in if b then Ok (Some x) else find_ifM f l
  end.

(** 543-563; [noexcept] *)
Definition getEdge (fuel : nat) (m : mesh) (u v : nat) : outcome (option nat) :=
  no_except (
    let* s := vat m u in
    let* t := vat m v in
    let* es := getEdges fuel m s in
    find_ifM (fun e => let* a := source m e in
                       if opt_eqb a (Some u) then let* b := target m e in Ok (opt_eqb b (Some v)) else Ok false) es).

(** 479-497: [getNeighbours] *)
Fixpoint neighbours_loop (fuel : nat) (m : mesh) (v : nat) (start e : nat) : outcome (list nat) :=
  let* h := half m e in
  let* t := ptr (h_vertex h) in
  let* p := ptr (h_prev h) in
  let* e' := pair_of m p in
  if e' =? start then Ok [t]
  else let* s := source m e' in
       let* s := ptr s in
       if s =? v then match fuel with 0 => OutOfFuel | S fuel => let* l := neighbours_loop fuel m v start e' in Ok (t :: l) end
       else Ok [t].
Definition getNeighbours (fuel : nat) (m : mesh) (v : nat) (x : vertex) : outcome (list nat) :=
  match v_edge x with None => Ok [] | Some e => neighbours_loop fuel m v e e end.

(** 519-536: [getFaces] *)
Fixpoint faces_loop (fuel : nat) (m : mesh) (start e : nat) : outcome (list nat) :=
  let* f := face_of m e in
  match f with
  | None => Ok []
  | Some f =>
      let* p := pair_of m e in
      let* h := half m p in
      match h_next h with
      | None => Ok [f]
      | Some e' =>
          if e' =? start then Ok [f]
          else match fuel with 0 => OutOfFuel | S fuel => let* l := faces_loop fuel m start e' in Ok (f :: l) end
      end
  end.
Definition getFaces (fuel : nat) (m : mesh) (x : vertex) : outcome (list nat) :=
  match v_edge x with None => Ok [] | Some e => faces_loop fuel m e e end.

(** 67-87: [Face::vertices] *)
Fixpoint face_loop (fuel : nat) (m : mesh) (start e : nat) : outcome (list nat) :=
  let* s := source m e in
  let* s := ptr s in
  let* h := half m e in
  let* e' := ptr (h_next h) in
  if e' =? start then Ok [s]
  else match fuel with 0 => OutOfFuel | S fuel => let* l := face_loop fuel m start e' in Ok (s :: l) end.
Definition face_vertices (fuel : nat) (m : mesh) (f : nat) : outcome (list nat) :=
  let* e := get_ (m_faces m) f in
  let* e := ptr e in
  face_loop fuel m e e.

(** ** Modification *)

(** 165-184; [id] is [None] if it is not given *)
Definition addVertex (m : mesh) (x y z data : Z) (id : option nat) : outcome mesh :=
  let i := match id with None => Nat.max (length (m_verts m)) (m_largest m) | Some i => i end in
  match vfind m i with
  | Some _ => Throw RuntimeError
  | None => Ok (mkM (m_half m) (m_faces m) (m_verts m ++ [(i, mkV x y z data None)]) (Nat.max (m_largest m) i))
  end.

(** 211-230: a new edge and its pair *)
Definition new_edge (m : mesh) (u v : nat) : outcome (mesh * nat) :=
  let e := length (m_half m) in
  let m := mkM (m_half m ++ [mkH None None None None (Some (S e)); mkH None (Some u) None None (Some e)]) (m_faces m) (m_verts m) (m_largest m) in
  let* s := vat m u in
  let m := match v_edge s with None => set_vedge m u e | Some _ => m end in
  let* t := vat m v in
  let m := match v_edge t with None => set_vedge m v (S e) | Some _ => m end in
  Ok (m, e).

(** 198-246: one pair of subsequent vertices *)
Definition face_step (fuel f : nat) (st : mesh * list nat) (uv : nat * nat) : outcome (mesh * list nat) :=
  let '(m, es) := st in
  let '(u, v) := uv in
  let* s := vat m u in
  let* t := vat m v in
  let* found := getEdge fuel m u v in
  let* (m, e) := match found with Some e => Ok (m, e) | None => new_edge m u v end in
  let* fe := get_ (m_faces m) f in
  let m := match fe with None => set_fedge m f e | Some _ => m end in
  let* h := half m e in
  match h_face h, h_pair h with
  | None, Some _ => Ok (set_half m e (fun h => set_vertex (Some v) (set_face (Some f) h)), es ++ [e])
  | _, _ => Throw Terminated
  end.

(** a sequence together with the successor of each element, cyclically *)
Definition cyclic {A} (l : list A) : list (A * A) := match l with [] => [] | a :: r => combine l (r ++ [a]) end.

(** 254-270: the loop sets [next] to the successor and [prev] to the predecessor *)
Definition link_edges (m : mesh) (es : list nat) : mesh :=
  fold_left (fun m q => let '(p, (e, n)) := q in set_half m e (fun h => set_prev (Some p) (set_next (Some n) h)))
    (combine (match es with [] => [] | _ => last es 0 :: es end) (cyclic es)) m.

(** 287-304: the loop around the boundary; an iteration that finds no edge changes nothing *)
Fixpoint boundary_loop (fuel : nat) (m : mesh) (v curr edge : nat) : outcome (mesh * nat) :=
  let* f := face_of m edge in
  match f with
  | Some _ => Throw Terminated
  | None =>
      let* x := match vfind m curr with Some x => Ok x | None => UB end in
      let* es := getEdges fuel m x in
      let* found := find_ifM (fun e => let* p := pair_of m e in let* f := face_of m p in Ok (match f with None => true | Some _ => false end)) es in
      let* (st, curr) := match found with
        | None => Ok ((m, edge), curr)
        | Some e =>
            let* p := pair_of m e in
            let m := set_half m p (set_next (Some edge)) in
            let m := set_half m edge (set_prev (Some p)) in
            let* q := pair_of m p in
            let* t := target m q in
            let* t := ptr t in
            Ok ((m, p), t)
        end in
      let '(m, edge) := st in
      if curr =? v then Ok (m, edge)
      else match fuel with 0 => OutOfFuel | S fuel => boundary_loop fuel m v curr edge end
  end.
(** 277-310: one vertex *)
Definition boundary_step (fuel : nat) (m : mesh) (v : nat) : outcome mesh :=
  let* x := vat m v in
  match v_edge x with
  | None => Ok m
  | Some e =>
      let* p := pair_of m e in
      let* f := face_of m p in
      match f with
      | Some _ => Ok m
      | None =>
          let* t := target m e in
          let* t := ptr t in
          let* (m, edge) := boundary_loop fuel m v t p in
          let m := set_half m p (set_next (Some edge)) in
          Ok (set_half m edge (set_prev (Some p)))
      end
  end.

(** 189-311 *)
Definition addFace (fuel : nat) (order : list nat -> list nat) (m : mesh) (vs : list nat) : outcome mesh :=
  let f := length (m_faces m) in
  let m := mkM (m_half m) (m_faces m ++ [None]) (m_verts m) (m_largest m) in
  let* (m, es) := foldM (face_step fuel f) (cyclic vs) (m, []) in
  foldM (boundary_step fuel) (order (map fst (m_verts m))) (link_edges m es).

(** ** Queries *)

(** 105-119 *)
Definition m_vertices (order : list nat -> list nat) (m : mesh) : list nat := order (map fst (m_verts m)).
Definition numVertices (m : mesh) : nat := length (m_verts m).

(** 125-134, 149-158: the faces of the edges of all vertices; a set *)
Definition face_set (order : list nat -> list nat) (m : mesh) : outcome (list nat) :=
  foldM (fun s v =>
    let* x := vat m v in
    let* e := ptr (v_edge x) in
    let* f := face_of m e in
    Ok (match f with Some f => if mem f s then s else s ++ [f] | None => s end)) (order (map fst (m_verts m))) [].
(** 122-142; [order2] is the order of the set *)
Definition faces (fuel : nat) (order order2 : list nat -> list nat) (m : mesh) : outcome (list (list nat)) :=
  let* s := face_set order m in
  foldM (fun r f => let* l := face_vertices fuel m f in Ok (r ++ [l])) (order2 s) [].
(** 145-161 *)
Definition numFaces (order : list nat -> list nat) (m : mesh) : outcome nat := let* s := face_set order m in Ok (length s).

(** 316-320 *)
Definition data (m : mesh) (v : nat) : outcome Z := let* x := vat m v in Ok (v_data x).

(** 327-362; [order2] is the order of the set of vertices *)
Definition star (fuel : nat) (order order2 : list nat -> list nat) (m : mesh) (v : nat) : outcome mesh :=
  let* x := vat m v in
  let* fs := getFaces fuel m x in
  let* vs := foldM (fun s f => let* l := face_vertices fuel m f in Ok (fold_left (fun s v => if mem v s then s else s ++ [v]) l s)) fs [] in
  let* m' := foldM (fun m' v => let* x := vat m v in addVertex m' (v_x x) (v_y x) (v_z x) (v_data x) (Some v)) (order2 vs) m_empty in
  foldM (fun m' f => let* l := face_vertices fuel m f in addFace fuel order m' l) fs m'.

(** 373-385 *)
Definition link (fuel : nat) (m : mesh) (v : nat) : outcome (list nat) :=
  no_except (let* x := vat m v in getNeighbours fuel m v x).

Fixpoint filterM {A} (f : A -> outcome bool) (l : list A) : outcome (list A) :=
  match l with
  | [] => Ok []
  | x :: l => let* b := f x in let* r := filterM f l in Ok (if b then x :: r else r)
  end.
(** 387-410 *)
Definition getLowerNeighbours (fuel : nat) (m : mesh) (v : nat) : outcome (list nat) :=
  no_except (let* x := vat m v in let* l := getNeighbours fuel m v x in filterM (fun u => let* d := data m u in Ok (negb (v_data x <=? d)%Z)) l).
(** 412-436 *)
Definition getHigherNeighbours (fuel : nat) (m : mesh) (v : nat) : outcome (list nat) :=
  no_except (let* x := vat m v in let* l := getNeighbours fuel m v x in filterM (fun u => let* d := data m u in Ok (negb (d <=? v_data x)%Z)) l).

(** 443-451 *)
Definition hasEdge (fuel : nat) (m : mesh) (u v : nat) : outcome bool :=
  let* x := vat m u in
  let* _ := vat m v in
  let* l := getNeighbours fuel m u x in
  Ok (mem v l).

(** 454-475 *)
Definition numConnectedComponents (order order2 : list nat -> list nat) (m : mesh) : outcome nat :=
  no_except (
    let vs := order (map fst (m_verts m)) in
    let* uf := foldM (fun uf v =>
      let* x := vat m v in
      let* e := ptr (v_edge x) in
      let* s := source m e in
      let* s := ptr s in
      let* t := target m e in
      let* t := ptr t in
      uf_merge uf t s) vs (uf_init vs) in
    let* r := uf_roots order2 uf in
    Ok (length (snd r))).
