(** * Model of [topology/FloydWarshall.hh].

    The data type has an infinity; finite numbers are exact.  Vertex types can
    represent the number of vertices. *)

From Coq Require Import List Arith Bool ZArith.
From Verif Require Import Base Simplex Complex SymmetricMatrix.
Import ListNotations.

Inductive ext : Set := Fin (z : Z) | Inf.
Definition ext_add (a b : ext) : ext :=
  match a, b with Fin x, Fin y => Fin (x + y) | _, _ => Inf end.
(** [a > b] *)
Definition ext_gtb (a b : ext) : bool :=
  match a, b with
  | Fin x, Fin y => (y <? x)%Z
  | Inf, Fin _ => true
  | _, Inf => false
  end.

(** FloydWarshall.hh 43-53: the vertices in the order in which they are
    encountered; the index of a vertex is its position.  Simplices of a complex
    are different, so no entry of the table is overwritten. *)
Definition fw_vertices (K : complex) : list simplex := filter (fun s => sdim s =? 0) (by_index K).
(** [vertex_to_index.at(u)] *)
Definition fw_index (K : complex) (u : nat) : outcome nat :=
  match position (s_eqb (simplex_vertex u 0)) (fw_vertices K) with
  | Some i => Ok i
  | None => Throw OutOfRange
  end.

(** FloydWarshall.hh 65-70 *)
Definition fw_init (n : nat) (M : symmetric ext) (i : nat) : outcome (symmetric ext) :=
  let* M := sm_set M i i (Fin 0) in
  foldM (fun M j => sm_set M i j Inf) (seq (i + 1) (n - (i + 1))) M.

(** FloydWarshall.hh 72-83 *)
Definition fw_edge (K : complex) (w : Z) (M : symmetric ext) (s : simplex) : outcome (symmetric ext) :=
  let* d := s_dimension s in
  if d =? 1 then
    let* u := s_nth s 0 in
    let* v := s_nth s 1 in
    let* iu := fw_index K u in
    let* iv := fw_index K v in
    sm_set M iu iv (Fin (if (data s =? 0)%Z then w else data s))
  else Ok M.

(** FloydWarshall.hh 85-95 *)
Definition fw_relax (k i : nat) (M : symmetric ext) (j : nat) : outcome (symmetric ext) :=
  let* a := sm_get M i j in
  let* b := sm_get M i k in
  let* c := sm_get M k j in
  if ext_gtb a (ext_add b c) then sm_set M i j (ext_add b c) else Ok M.
Definition fw_row (n k : nat) (M : symmetric ext) (i : nat) : outcome (symmetric ext) :=
  foldM (fw_relax k i) (seq (i + 1) (n - (i + 1))) M.
Definition fw_stage (n : nat) (M : symmetric ext) (k : nat) : outcome (symmetric ext) :=
  foldM (fw_row n k) (seq 0 n) M.

(** FloydWarshall.hh 30-98 *)
Definition floydWarshall (K : complex) (w : Z) : outcome (symmetric ext) :=
  let n := length (fw_vertices K) in
  let* M := foldM (fw_init n) (seq 0 n) (sm_make (Fin 0) n) in
  let* M := foldM (fw_edge K w) (by_index K) M in
  foldM (fw_stage n) (seq 0 n) M.
