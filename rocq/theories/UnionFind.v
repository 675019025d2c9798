(** * Model of [topology/UnionFind.hh].

    [Vertex] is [nat].  The hash map [_parent] is an association list; where the
    order of iteration over a hash container matters it is a parameter. *)

From Coq Require Import List Arith Bool.
From Verif Require Import Base.
Import ListNotations.

(** UnionFind.hh 110-111 *)
Definition parents := list (nat * nat).

(** [std::unordered_map::find] / [at] *)
Definition parent_of (m : parents) (u : nat) : option nat :=
  option_map snd (find (fun q => fst q =? u) m).

(** [_parent[u] = r] *)
Fixpoint set_parent (m : parents) (u r : nat) : parents :=
  match m with
  | [] => [(u, r)]
  | (k, p) :: m' => if k =? u then (k, r) :: m' else (k, p) :: set_parent m' u r
  end.

(** UnionFind.hh 24-29 *)
Definition uf_init (l : list nat) : parents := fold_left (fun m v => set_parent m v v) l [].

(** UnionFind.hh 43-46 *)
Definition uf_contains (m : parents) (u : nat) : bool :=
  match parent_of m u with Some _ => true | None => false end.

(** UnionFind.hh 53-63; the path collapse happens on the way back. *)
Fixpoint uf_find_fuel (fuel : nat) (m : parents) (u : nat) : outcome (parents * nat) :=
  match parent_of m u with
  | None => Throw OutOfRange
  | Some p =>
      if p =? u then Ok (m, u)
      else match fuel with
           | 0 => OutOfFuel
           | S f => let* (m', r) := uf_find_fuel f m p in Ok (set_parent m' u r, r)
           end
  end.

(** no path is longer than the number of vertices *)
Definition uf_find (m : parents) (u : nat) : outcome (parents * nat) :=
  uf_find_fuel (length m) m u.

(** [noexcept]: an exception ends the program *)
Definition no_except {A} (o : outcome A) : outcome A :=
  match o with Throw _ => Throw Terminated | x => x end.

(** UnionFind.hh 36-40; the right-hand side of the assignment is evaluated
    first (C++17; the other order gives the same classes). *)
Definition uf_merge (m : parents) (u v : nat) : outcome parents :=
  if u =? v then Ok m
  else no_except (let* (m1, rv) := uf_find m v in
                  let* (m2, ru) := uf_find m1 u in
                  Ok (set_parent m2 ru rv)).

(** UnionFind.hh 71-84: loop over all vertices; [order] is the order in which
    the hash set hands out its elements. *)
Definition roots_step (st : parents * list nat) (u : nat) : outcome (parents * list nat) :=
  let* (m, r) := uf_find (fst st) u in
  Ok (m, if r =? u then snd st ++ [u] else snd st).
Definition uf_roots (order : list nat -> list nat) (m : parents) : outcome (parents * list nat) :=
  let* (m', l) := foldM roots_step (map fst m) (m, []) in Ok (m', order l).

(** UnionFind.hh 94-106 *)
Definition get_step (parent : nat) (st : parents * list nat) (u : nat) : outcome (parents * list nat) :=
  let* (m, r) := uf_find (fst st) u in
  Ok (m, if r =? parent then snd st ++ [u] else snd st).
Definition uf_get (order : list nat -> list nat) (m : parents) (v : nat) : outcome (parents * list nat) :=
  let* (m1, p) := uf_find m v in
  let* (m', l) := foldM (get_step p) (map fst m1) (m1, []) in Ok (m', order l).

(** ** Histories *)
Inductive uf_op := UMerge (u v : nat) | UFind (u : nat) | URoots | UGet (v : nat) | UContains (u : nat).

Definition uf_exec (m : parents) (o : uf_op) : outcome parents :=
  match o with
  | UMerge u v => uf_merge m u v
  | UFind u => let* r := uf_find m u in Ok (fst r)
  | URoots => let* r := uf_roots (fun l => l) m in Ok (fst r)
  | UGet v => let* r := uf_get (fun l => l) m v in Ok (fst r)
  | UContains _ => Ok m
  end.

Definition uf_run (l : list nat) (h : list uf_op) : outcome parents := foldM uf_exec h (uf_init l).
