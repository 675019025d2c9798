(** * Model of [topology/Simplex.hh].

    [VertexType] is modelled by [nat], [DataType] by [Z] (an exact, totally
    ordered stand-in for floating point weights; [DataType()] is [0]). *)

From Coq Require Import List Arith Bool ZArith.
From Verif Require Import Base.
Import ListNotations.

(** Simplex.hh 336-345: the members [_vertices] and [_data]. *)
Record simplex := Simplex { verts : list nat; data : Z }.

(** [std::greater]. *)
Definition greater (a b : nat) : bool := b <? a.

(** Simplex.hh 67-70: the empty simplex. *)
Definition simplex_empty : simplex := Simplex [] 0%Z.

(** Simplex.hh 79-83: a 0-simplex. *)
Definition simplex_vertex (u : nat) (d : Z) : simplex := Simplex [u] d.

(** Simplex.hh 95-99: copy of the vertices with new data. *)
Definition simplex_with_data (s : simplex) (d : Z) : simplex := Simplex (verts s) d.

(** Simplex.hh 112-127 and 138-143: from a range; sort descending, unique. *)
Definition simplex_of (l : list nat) (d : Z) : simplex :=
  Simplex (cpp_unique Nat.eqb (cpp_sort greater l)) d.

(** Simplex.hh 181-184: [std::find] over the vertices. *)
Definition s_contains (s : simplex) (v : nat) : bool := existsb (Nat.eqb v) (verts s).

(** Simplex.hh 213-216, 219-222. *)
Definition set_data (s : simplex) (d : Z) : simplex := Simplex (verts s) d.

(** Simplex.hh 227-230, 245-249. *)
Definition s_empty (s : simplex) : bool :=
  match verts s with [] => true | _ => false end.

(** Simplex.hh 267-270. *)
Definition s_size (s : simplex) : nat := length (verts s).

(** Simplex.hh 258-264: throws for the empty simplex. *)
Definition s_dimension (s : simplex) : outcome nat :=
  match verts s with
  | [] => Throw RuntimeError
  | _ :: t => Ok (length t)
  end.

(** Simplex.hh 280-283. *)
Definition s_nth (s : simplex) (i : nat) : outcome nat := at_ (verts s) i.

(** [std::vector<VertexType>::operator==]. *)
Fixpoint list_eqb (a b : list nat) : bool :=
  match a, b with
  | [], [] => true
  | x :: a', y :: b' => (x =? y) && list_eqb a' b'
  | _, _ => false
  end.

(** Simplex.hh 296-299: data is not compared. *)
Definition s_eqb (s t : simplex) : bool := list_eqb (verts s) (verts t).

(** [std::lexicographical_compare]. *)
Fixpoint lex_ltb (a b : list nat) : bool :=
  match a, b with
  | _, [] => false
  | [], _ :: _ => true
  | x :: a', y :: b' => if x <? y then true else if y <? x then false else lex_ltb a' b'
  end.

(** Simplex.hh 322-326. *)
Definition s_ltb (s t : simplex) : bool := lex_ltb (verts s) (verts t).

(** Simplex.hh 420-439: the face obtained by filtering out the vertex at the
    current position, built by the range constructor with default data. *)
Definition boundary_face (s : simplex) (v : nat) : simplex :=
  simplex_of (filter (fun u => negb (u =? v)) (verts s)) 0%Z.

(** Simplex.hh 189-202: the range [begin_boundary(), end_boundary()) with all
    positions dereferenced. *)
Definition boundary (s : simplex) : list simplex :=
  if s_size s <=? 1 then [] else map (boundary_face s) (verts s).
