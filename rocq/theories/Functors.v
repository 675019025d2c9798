(** * Functors of zero-dimensional persistent homology: model of
      [calculateZeroDimensionalPersistenceDiagram] with a functor and of the functor of
      the tool [relevant_edges]. *)

From Coq Require Import List Arith Bool ZArith QArith.
From Verif Require Import Base Simplex Complex UnionFind Diagram Components.
Import ListNotations.
Local Open Scope nat_scope.

(** The operations of a functor with states of type [F]: persistentHomology/ConnectedComponents.hh
    129-130, 166-171 and 199-200. *)
Record functor (F : Type) := Functor {
  f_initialize : F -> nat -> outcome F;
  f_merge : F -> nat -> nat -> Z -> Z -> nat -> nat -> outcome F;
  f_root : F -> nat -> Z -> outcome F
}.
Arguments Functor {F}. Arguments f_initialize {F}. Arguments f_merge {F}. Arguments f_root {F}.

Section Functor.
  Context {F : Type}.
  Variable f : functor F.

  (** ConnectedComponents.hh 131-182 *)
  Definition functor_step (keep : bool) (K : complex) (q : zstate * F) (s : simplex) : outcome (zstate * F) :=
    let st := fst q in
    let* d := s_dimension s in
    if negb (d =? 1) then Ok q
    else
      let* u := get_ (verts s) 0 in
      let* v := get_ (verts s) 1 in
      let* (m1, a) := uf_find (z_uf st) u in
      let* (m2, b) := uf_find m1 v in
      if a =? b then Ok (ZState m2 (z_pd st) (z_pp st), snd q)
      else
        let* ia := k_index K (simplex_vertex a 0) in
        let* ib := k_index K (simplex_vertex b 0) in
        let '(younger, older, yi) := if ia <? ib then (b, a, ib) else (a, b, ia) in
        let* c := k_get K yi in
        let* m3 := uf_merge m2 younger older in
        let* x := f_merge f (snd q) younger older (data c) (data s) u v in
        if keep || negb (data c =? data s)%Z then
          let* j := k_index K s in
          Ok (ZState m3 (z_pd st ++ [(data c, data s)]) (z_pp st ++ [(yi, Some j)]), x)
        else Ok (ZState m3 (z_pd st) (z_pp st), x).

  (** ConnectedComponents.hh 189-201 *)
  Definition functor_root (inf : Z) (K : complex) (q : zstate * F) (root : nat) : outcome (zstate * F) :=
    match k_lookup K (simplex_vertex root 0) with
    | None => UB
    | Some c =>
        let* i := k_index K c in
        let* x := f_root f (snd q) root (data c) in
        Ok (ZState (z_uf (fst q)) (z_pd (fst q) ++ [unpaired_point inf (data c)]) (z_pp (fst q) ++ [(i, None)]), x)
    end.

  (** ConnectedComponents.hh 101-204 *)
  Definition zeroFunctor (inf : Z) (keep : bool) (order : list nat -> list nat) (K : complex) (x : F)
    : outcome (list point * list (nat * option nat) * F) :=
    let* x0 := foldM (f_initialize f) (k_vertices K) x in
    let* q := foldM (functor_step keep K) (by_index K) (ZState (uf_init (k_vertices K)) [] [], x0) in
    let* (m, roots) := uf_roots order (z_uf (fst q)) in
    let* q' := foldM (functor_root inf K) roots (ZState m (z_pd (fst q)) (z_pp (fst q)), snd q) in
    Ok (z_pd (fst q'), z_pp (fst q'), snd q').
End Functor.

(** ** [src/tools/relevant_edges.cc] *)

(** [std::unordered_map<VertexType, unsigned>]: [m[v]] is 0 for a missing key.
    [unsigned] is taken to be unbounded. *)
Definition sizes := list (nat * nat).
Definition size_of (m : sizes) (v : nat) : nat :=
  match find (fun q => fst q =? v) m with Some q => snd q | None => 0 end.
Definition set_size (m : sizes) (v n : nat) : sizes := (v, n) :: filter (fun q => negb (fst q =? v)) m.

(** relevant_edges.cc 76-80.  Maps with edges as keys are lists in the order in which keys
    are written; the quotient of two sizes, a [double] in the code, is a rational number. *)
Record size_functor := SizeFunctor {
  componentSize : sizes;
  edgeRelevance : list ((nat * nat) * Q);
  edgeStrength : list ((nat * nat) * nat);
  sf_labels : list (list nat)
}.

Definition edge_eqb (e e' : nat * nat) : bool := (fst e =? fst e') && (snd e =? snd e').
Definition set_edge {A} (m : list ((nat * nat) * A)) (e : nat * nat) (a : A) : list ((nat * nat) * A) :=
  filter (fun q => negb (edge_eqb (fst q) e)) m ++ [(e, a)].

(** relevant_edges.cc 29-32 *)
Definition sf_initialize (x : size_functor) (v : nat) : outcome size_functor :=
  Ok (SizeFunctor (set_size (componentSize x) v 1) (edgeRelevance x) (edgeStrength x) (sf_labels x)).

(** relevant_edges.cc 34-69.  Of the message that is written to the standard error stream only
    the access to the labels is kept. *)
Definition sf_merge (x : size_functor) (younger older : nat) (creation destruction : Z) (u v : nat)
  : outcome size_functor :=
  let '(u, v) := if v <? u then (v, u) else (u, v) in
  let c_older := size_of (componentSize x) older in
  let c_younger := size_of (componentSize x) younger in
  let m := set_size (componentSize x) older (c_older + c_younger) in
  let x' := SizeFunctor m
    (set_edge (edgeRelevance x) (u, v)
      (inject_Z (Z.of_nat (Nat.min c_older c_younger)) / inject_Z (Z.of_nat (Nat.max c_older c_younger)))%Q)
    (set_edge (edgeStrength x) (u, v) (size_of m older)) (sf_labels x) in
  match sf_labels x with
  | [] => Ok x'
  | _ :: _ =>
      let* lu := at_ (sf_labels x) u in
      let* lv := at_ (sf_labels x) v in
      Ok x'
  end.

(** relevant_edges.cc 71-74 *)
Definition sf_root (x : size_functor) (root : nat) (creation : Z) : outcome size_functor := Ok x.

Definition sizeFunctor : functor size_functor := Functor sf_initialize sf_merge sf_root.

(** relevant_edges.cc 85-107, from the sorted complex on *)
Definition relevantEdges (inf : Z) (order : list nat -> list nat) (labels : list (list nat)) (K : complex)
  : outcome (list point * list (nat * option nat) * size_functor) :=
  zeroFunctor sizeFunctor inf false order K (SizeFunctor [] [] [] labels).
