(** * Model of [tools/spectral_analysis.cc].

    The lines of the spectrum are given as pairs of a position and an intensity; both are integers, and the
    normalisation of the reader is not modelled here (see FlexSpectrum.v for the reader with rational numbers
    and the normalisation).  [inf] stands for the infinity of a persistence diagram, [order] for the order in
    which the roots of a union--find structure are handed out. *)
From Coq Require Import List Arith Bool ZArith.
From Verif Require Import Base Simplex Complex UnionFind Diagram Components.
Import ListNotations.

(** FlexSpectrum.hh 69-70 and 88-95: the vertices and the edges *)
Definition spectrum_vertices (f : list Z) : list simplex := map (fun i => simplex_vertex i (nth i f 0%Z)) (seq 0 (length f)).
Definition spectrum_edges (f : list Z) : list simplex :=
  map (fun i => simplex_of [i; S i] (Z.min (nth i f 0%Z) (nth (S i) f 0%Z))) (seq 0 (length f - 1)).
(** FlexSpectrum.hh 27-114 without normalisation *)
Definition spectrum_complex (f : list Z) : outcome complex :=
  if length f <=? 1 then k_of_range (spectrum_vertices f)
  else let* K := k_of_range (spectrum_vertices f ++ spectrum_edges f) in Ok (k_sort data_cmp_greater K).

(** spectral_analysis.cc 124-134: the function applied to every point *)
Definition close_point (inf : Z) (p : point) : point := if isUnpaired inf p then (fst p, 0%Z) else p.
(** spectral_analysis.cc 114-137; the dimension of the diagram is 0 *)
Definition spectrum_diagram (inf : Z) (order : list nat -> list nat) (pts : list (Z * Z)) : outcome (list point) :=
  let* K := spectrum_complex (map snd pts) in
  let* (D, _) := zeroDimensional inf true order K in
  if d_betti inf (Diagram 0 D) =? 1 then Ok (map (close_point inf) (points (removeDiagonal (Diagram 0 D))))
  else Throw Terminated.

(** [m[x] = y] for a map that is sorted by its keys *)
Fixpoint put (x y : Z) (m : list (Z * Z)) : list (Z * Z) :=
  match m with
  | [] => [(x, y)]
  | (k, v) :: m' => if (x <? k)%Z then (x, y) :: m else if (x =? k)%Z then (x, y) :: m' else (k, v) :: put x y m'
  end.
(** spectral_analysis.cc 151-165: the body of the loop *)
Definition transform_step (K : complex) (positions : list Z) (m : list (Z * Z)) (q : nat * option nat) : outcome (list (Z * Z)) :=
  let* sigma := k_at K (fst q) in
  let* tau := match snd q with
              | Some j => if j <? k_size K then k_at K j else Ok (simplex_of [0; 1] 0%Z)
              | None => Ok (simplex_of [0; 1] 0%Z)
              end in
  let* d0 := s_dimension sigma in
  let* d1 := s_dimension tau in
  if negb (d0 =? 0) || negb (d1 =? 1) then Throw Terminated
  else
    let* v := s_nth sigma 0 in
    let* x := at_ positions v in
    Ok (put x (Z.abs (data sigma - data tau)) m).
(** spectral_analysis.cc 142-169: the lines that are written *)
Definition spectrum_transformation (inf : Z) (order : list nat -> list nat) (pts : list (Z * Z)) : outcome (list (Z * Z)) :=
  let* K := spectrum_complex (map snd pts) in
  let* (_, pairing) := zeroDimensional inf true order K in
  foldM (transform_step K (map fst pts)) pairing [].

(** spectral_analysis.cc 174-187: the lines that are written; both maps have the keys 0, 1, ... *)
Definition spectrum_identity (pts : list (Z * Z)) : outcome (list (Z * Z)) :=
  foldM (fun out q => let* y := at_ (map snd pts) (fst q) in Ok (out ++ [(snd q, y)])) (combine (seq 0 (length pts)) (map fst pts)) [].
