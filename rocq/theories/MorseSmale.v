(** * Model of [topology/MorseSmaleComplex.hh].

    The text that is printed is modelled by its contents: for every vertex the classification
    and the numbers of segments of the lower and the upper link. *)
From Coq Require Import List Arith ZArith Bool.
From Verif Require Import Base UnionFind Mesh.
Import ListNotations.

(** MorseSmaleComplex.hh 92-105: one step of the loop for the neighbours [v] and [w] *)
Definition segment_step (fuel : nat) (m : mesh) (u : nat) (uf : parents) (vw : nat * nat) : outcome parents :=
  let (v, w) := vw in
  let* e := hasEdge fuel m u v in
  if e then
    let* e' := hasEdge fuel m v w in
    if e' then uf_merge uf v w else Ok uf
  else Throw RuntimeError.

(** MorseSmaleComplex.hh 82-111; [std::next] of the end of an empty vector is undefined.  The
    iterator [next] is one step ahead of [curr] and continues at the beginning. *)
Definition segments (fuel : nat) (order : list nat -> list nat) (m : mesh) (u : nat) (link : list nat) : outcome nat :=
  match link with
  | [] => UB
  | _ =>
      let* uf := foldM (segment_step fuel m u) (cyclic link) (uf_init link) in
      let* (_, roots) := uf_roots order uf in
      Ok (length roots)
  end.

(** MorseSmaleComplex.hh 69-114; the lower link is the first component.  The elements of a
    braced or parenthesised argument list may be evaluated in any order, which matters only
    for the kind of failure. *)
Definition contiguousSegments (fuel : nat) (order : list nat -> list nat) (m : mesh) (u : nat) : outcome (nat * nat) :=
  let* d := data m u in
  let* l := link fuel m u in
  let* upper := filterM (fun w => let* e := data m w in Ok (d <=? e)%Z) l in
  let* lower := filterM (fun w => let* e := data m w in Ok (e <=? d)%Z) l in
  let* nl := segments fuel order m u lower in
  let* nu := segments fuel order m u upper in
  Ok (nl, nu).

Inductive kind := Maximum | Minimum | Saddle.

(** MorseSmaleComplex.hh 29-58 *)
Definition classify (fuel : nat) (order : list nat -> list nat) (m : mesh) (u : nat) : outcome (kind * (nat * nat)) :=
  let* higher := getHigherNeighbours fuel m u in
  let* lower := getLowerNeighbours fuel m u in
  let* n := contiguousSegments fuel order m u in
  Ok (match higher, lower with [], _ => Maximum | _, [] => Minimum | _, _ => Saddle end, n).

(** MorseSmaleComplex.hh 21-60 *)
Definition morseSmale (fuel : nat) (order : list nat -> list nat) (m : mesh) : outcome (list (nat * (kind * (nat * nat)))) :=
  foldM (fun acc u => let* c := classify fuel order m u in Ok (acc ++ [(u, c)])) (m_vertices order m) [].
