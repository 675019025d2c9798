(** * Model of [geometry/RipsExpander.hh]. *)

From Coq Require Import List Arith Bool ZArith.
From Verif Require Import Base Simplex Complex Subcomplex.
Import ListNotations.

(** RipsExpander.hh 201-202: a map from vertices to sets of vertices.  The
    order in which an [unordered_set] is traversed is a parameter of the
    functions below. *)
Definition nmap := list (nat * list nat).
Fixpoint nm_find (m : nmap) (v : nat) : option (list nat) :=
  match m with
  | [] => None
  | (w, l) :: m' => if w =? v then Some l else nm_find m' v
  end.
Fixpoint nm_add (m : nmap) (v u : nat) : nmap :=
  match m with
  | [] => [(v, [u])]
  | (w, l) :: m' =>
      if w =? v then (w, if existsb (Nat.eqb u) l then l else l ++ [u]) :: m'
      else (w, l) :: nm_add m' v u
  end.

(** RipsExpander.hh 257-277; simplices of dimension 1 have two vertices. *)
Definition lower_step (m : nmap) (e : simplex) : nmap :=
  match verts e with
  | u :: v :: _ => if u <? v then nm_add m v u else nm_add m u v
  | _ => m
  end.
Definition getLowerNeighbours (K : complex) : nmap := fold_left lower_step (k_range K 1) [].

(** RipsExpander.hh 239-255 *)
Definition intersect (U V : list nat) : list nat :=
  if length V <? length U then filter (fun u => existsb (Nat.eqb u) U) V
  else filter (fun u => existsb (Nat.eqb u) V) U.

(** RipsExpander.hh 204-237: the simplices that are appended. *)
Section Rips.
  Variable order : list nat -> list nat.

  Fixpoint addCofaces (fuel dimension : nat) (m : nmap) (s : simplex) (neighbours : list nat)
    : outcome (list simplex) :=
    if dimension <=? sdim s then Ok []
    else match fuel with
         | 0 => OutOfFuel
         | S f =>
             foldM (fun acc v =>
               let t := simplex_of (verts s ++ [v]) 0 in
               let* r := match nm_find m v with
                         | Some l => addCofaces f dimension m t (intersect l neighbours)
                         | None => Ok []
                         end in
               Ok (acc ++ t :: r)) (order neighbours) []
         end.

  (** RipsExpander.hh 61-73 *)
  Definition rips_vertex (dimension : nat) (m : nmap) (acc : list simplex) (v : nat) : outcome (list simplex) :=
    let s := simplex_vertex v 0 in
    let* r := match nm_find m v with
              | Some l => addCofaces dimension dimension m s l
              | None => Ok []
              end in
    Ok (acc ++ s :: r).

  (** RipsExpander.hh 85-96 *)
  Definition reassign (K : complex) (s : simplex) : simplex :=
    if sdim s <=? 1 then
      match k_lookup K s with Some t => set_data s (data t) | None => s end
    else s.

  (** RipsExpander.hh 53-99 *)
  Definition ripsExpander (K : complex) (dimension : nat) : outcome complex :=
    let* l := foldM (rips_vertex dimension (getLowerNeighbours K)) (k_vertices K) [] in
    k_of_range (map (reassign K) l).
End Rips.

(** RipsExpander.hh 103-131 *)
Definition max_weight (S : complex) (s : simplex) : Z :=
  fold_left (fun w f => match k_lookup S f with Some t => Z.max w (data t) | None => w end)
            (boundary s) (data s).
Definition assign_step (minDimension : nat) (S : complex) (s : simplex) : complex :=
  fst (k_push_back S (if minDimension <? sdim s then set_data s (max_weight S s) else s)).
Definition assignMaximumWeight (K : complex) (minDimension : nat) : complex :=
  fold_left (assign_step minDimension) (by_dim K) k_empty.

(** RipsExpander.hh 152-197: [vertexToIndex[v]] of an unknown vertex is 0 (and
    stays 0); the access [dataValues[...]] is unchecked. *)
Definition vertex_index (vertices : list nat) (v : nat) : nat :=
  match position (Nat.eqb v) vertices with Some i => i | None => 0 end.
Definition assign_data_step (values : list Z) (init : Z) (functor : Z -> Z -> Z) (vertices : list nat)
  (S : complex) (s : simplex) : outcome complex :=
  let* d := foldM (fun d v => let* x := get_ values (vertex_index vertices v) in Ok (functor d x)) (verts s) init in
  Ok (fst (k_push_back S (set_data s d))).
Definition assignData (K : complex) (values : list Z) (init : Z) (functor : Z -> Z -> Z) : outcome complex :=
  foldM (assign_data_step values init functor (k_vertices K)) (by_index K) k_empty.
(** RipsExpander.hh 133-142 *)
Definition assignMaximumData (lowest : Z) (K : complex) (values : list Z) : outcome complex :=
  assignData K values lowest Z.max.
