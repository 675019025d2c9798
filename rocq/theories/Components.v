(** * Model of [topology/ConnectedComponents.hh] and
      [persistentHomology/ConnectedComponents.hh]. *)

From Coq Require Import List Arith Bool ZArith.
From Verif Require Import Base Simplex Complex UnionFind Diagram.
Import ListNotations.

(** topology/ConnectedComponents.hh 33-45: one edge of [K.range(1)]; [s[0]] and
    [s[1]] are checked. *)
Definition component_step (m : parents) (s : simplex) : outcome parents :=
  let* u := s_nth s 0 in
  let* v := s_nth s 1 in
  if u <? v then uf_merge m v u else uf_merge m u v.

(** topology/ConnectedComponents.hh 26-48 *)
Definition calculateConnectedComponents (K : complex) : outcome parents :=
  foldM component_step (k_range K 1) (uf_init (k_vertices K)).

(** ** Zero-dimensional persistent homology

    The functor is the default one, which does nothing.  [keep] selects
    [DiagonalElementCalculation] (all pairs) rather than
    [NoDiagonalElementCalculation]; the pairing is the one of
    [PersistencePairingCalculation].  [static_cast<VertexType>] of indices is the
    identity: indices are assumed to be representable as vertices. *)
Record zstate := ZState { z_uf : parents; z_pd : list point; z_pp : list (nat * option nat) }.

(** ConnectedComponents.hh 131-182: the body of the loop. *)
Definition zero_step (keep : bool) (K : complex) (st : zstate) (s : simplex) : outcome zstate :=
  let* d := s_dimension s in
  if negb (d =? 1) then Ok st
  else
    let* u := get_ (verts s) 0 in
    let* v := get_ (verts s) 1 in
    let* (m1, a) := uf_find (z_uf st) u in
    let* (m2, b) := uf_find m1 v in
    if a =? b then Ok (ZState m2 (z_pd st) (z_pp st))
    else
      let* ia := k_index K (simplex_vertex a 0) in
      let* ib := k_index K (simplex_vertex b 0) in
      let '(younger, older, yi) := if ia <? ib then (b, a, ib) else (a, b, ia) in
      let* c := k_get K yi in
      let* m3 := uf_merge m2 younger older in
      if keep || negb (data c =? data s)%Z then
        let* j := k_index K s in
        Ok (ZState m3 (z_pd st ++ [(data c, data s)]) (z_pp st ++ [(yi, Some j)]))
      else Ok (ZState m3 (z_pd st) (z_pp st)).

(** ConnectedComponents.hh 189-201; dereferencing [end()] is undefined. *)
Definition zero_root (inf : Z) (K : complex) (st : zstate) (root : nat) : outcome zstate :=
  match k_lookup K (simplex_vertex root 0) with
  | None => UB
  | Some c =>
      let* i := k_index K c in
      Ok (ZState (z_uf st) (z_pd st ++ [unpaired_point inf (data c)]) (z_pp st ++ [(i, None)]))
  end.

(** ConnectedComponents.hh 101-204.  [order] is the order in which the roots
    are handed out. *)
Definition zeroDimensional (inf : Z) (keep : bool) (order : list nat -> list nat) (K : complex)
  : outcome (list point * list (nat * option nat)) :=
  let* st := foldM (zero_step keep K) (by_index K) (ZState (uf_init (k_vertices K)) [] []) in
  let* (m, roots) := uf_roots order (z_uf st) in
  let* st' := foldM (zero_root inf K) roots (ZState m (z_pd st) (z_pp st)) in
  Ok (z_pd st', z_pp st').
