(** * Model of [topology/MaximalCliques.hh], [math/SparseMatrix.hh] and
    [utilities/UnorderedSetOperations.hh].

    The hash sets are lists without repetitions.  The order in which the hash
    set [I] is traversed by a call is [order C I], where [C] are the elements of
    the clique in the order in which the calls have added them; [C] determines
    the call, so every implementation of hash sets is covered by some [order].
    (Erasing does not change the order of the remaining elements.) *)

From Coq Require Import List Arith Bool ZArith.
From Verif Require Import Base Simplex Matrix Complex.
Import ListNotations.

(** SparseMatrix.hh 30-36, 110-118 *)
Record sparse := Sparse { sp_columns : list (list nat); sp_index : list nat }.

(** SparseMatrix.hh 40-43 *)
Definition sp_make (n : nat) : sparse := Sparse (repeat [] n) [].

(** SparseMatrix.hh 51-54 *)
Definition sp_set (M : sparse) (row column : nat) : outcome sparse :=
  let* c := at_ (sp_columns M) column in
  Ok (Sparse (upd (sp_columns M) column (set_insert row c)) (sp_index M)).

(** SparseMatrix.hh 62-66 *)
Definition sp_get (M : sparse) (row column : nat) : outcome bool :=
  let* c := at_ (sp_columns M) column in Ok (mem row c).

(** SparseMatrix.hh 69-75 *)
Definition sp_column (M : sparse) (column : nat) : outcome (list nat) := at_ (sp_columns M) column.

(** SparseMatrix.hh 78-83 *)
Definition sp_setIndices (M : sparse) (l : list nat) : outcome sparse :=
  if length l =? length (sp_columns M) then Ok (Sparse (sp_columns M) l) else Throw LengthError.

(** SparseMatrix.hh 90-96 *)
Definition sp_getIndex (M : sparse) (column : nat) : outcome nat :=
  match sp_index M with [] => Ok column | _ => at_ (sp_index M) column end.

(** SparseMatrix.hh 99-102 *)
Definition sp_numEntries (M : sparse) (column : nat) : outcome nat :=
  let* c := at_ (sp_columns M) column in Ok (length c).

(** MaximalCliques.hh 32-46 *)
Definition initialVertexSet (K : complex) : list nat := seq 0 (length (k_vertices K)).

(** [vertex_to_id.at( v )]; MaximalCliques.hh 57-63: the identifier of a vertex
    is its position in the ordered set of vertices. *)
Definition vertex_id (K : complex) (v : nat) : outcome nat :=
  match position (Nat.eqb v) (k_vertices K) with
  | Some i => Ok i
  | None => Throw OutOfRange
  end.

(** MaximalCliques.hh 48-84 *)
Definition adjacencyMatrix (K : complex) : outcome sparse :=
  let* A := foldM (fun A s =>
    let* s0 := s_nth s 0 in
    let* u := vertex_id K s0 in
    let* s1 := s_nth s 1 in
    let* v := vertex_id K s1 in
    let* A := sp_set A u v in
    sp_set A v u) (k_range K 1) (sp_make (length (k_vertices K))) in
  sp_setIndices A (k_vertices K).

(** UnorderedSetOperations.hh 12-29: iterates over the smaller set *)
Definition set_intersection (A B : list nat) : list nat :=
  if length B <? length A then filter (fun b => mem b A) B else filter (fun a => mem a B) A.

(** [I.erase( it )] *)
Definition set_erase (x : nat) (l : list nat) : list nat := filter (fun y => negb (y =? x)) l.

(** MaximalCliques.hh 93-100, 168-175 *)
Definition newClique (A : sparse) (C : list nat) : outcome (list nat) :=
  foldM (fun acc c => let* i := sp_getIndex A c in Ok (set_insert i acc)) C [].

(** MaximalCliques.hh 107-118; [it] is not empty *)
Definition koch_pivot (A : sparse) (it : list nat) : outcome nat :=
  let* r := foldM (fun acc v =>
    let* degree := sp_numEntries A v in
    Ok (if snd acc <? degree then (v, degree) else acc)) it (hd 0 it, 0) in
  Ok (fst r).

Section Enumeration.
  Variable order : list nat -> list nat -> list nat.
  Variable A : sparse.

  (** MaximalCliques.hh 86-159 *)
  Fixpoint enumerateKoch (fuel : nat) (C I0 X : list nat) (cliques : list (list nat)) : outcome (list (list nat)) :=
    match fuel with
    | 0 => OutOfFuel
    | S fuel =>
        match I0, X with
        | [], [] => let* c := newClique A C in Ok (cliques ++ [c])
        | [], _ => Ok cliques
        | _, _ =>
            let it := order C I0 in
            let* pivot := koch_pivot A it in
            let* r := foldM (fun st element =>
              let '(I0, X, cliques) := st in
              let* adjacent := sp_get A element pivot in
              if adjacent then Ok (I0, X, cliques)
              else
                let I0 := set_erase element I0 in
                let* neighbours := sp_column A element in
                let* cliques := enumerateKoch fuel (C ++ [element]) (set_intersection I0 neighbours)
                                              (set_intersection X neighbours) cliques in
                Ok (I0, uset_insert element X, cliques)) it (I0, X, cliques) in
            Ok (snd r)
        end
    end.

  (** MaximalCliques.hh 161-205 *)
  Fixpoint enumerateBronKerbosch (fuel : nat) (C I0 X : list nat) (cliques : list (list nat)) : outcome (list (list nat)) :=
    match fuel with
    | 0 => OutOfFuel
    | S fuel =>
        match I0, X with
        | [], [] => let* c := newClique A C in Ok (cliques ++ [c])
        | _, _ =>
            let* r := foldM (fun st element =>
              let '(I0, X, cliques) := st in
              let I0 := set_erase element I0 in
              let* neighbours := sp_column A element in
              let* cliques := enumerateBronKerbosch fuel (C ++ [element]) (set_intersection I0 neighbours)
                                                    (set_intersection X neighbours) cliques in
              Ok (I0, uset_insert element X, cliques)) (order C I0) (I0, X, cliques) in
            Ok (snd r)
        end
    end.
End Enumeration.

(** MaximalCliques.hh 218-230: the recursion is at most as deep as there are vertices. *)
Definition maximalCliquesKoch (order : list nat -> list nat -> list nat) (K : complex) : outcome (list (list nat)) :=
  let* A := adjacencyMatrix K in
  enumerateKoch order A (S (length (k_vertices K))) [] (initialVertexSet K) [] [].

(** MaximalCliques.hh 232-244 *)
Definition maximalCliquesBronKerbosch (order : list nat -> list nat -> list nat) (K : complex) : outcome (list (list nat)) :=
  let* A := adjacencyMatrix K in
  enumerateBronKerbosch order A (S (length (k_vertices K))) [] (initialVertexSet K) [] [].
