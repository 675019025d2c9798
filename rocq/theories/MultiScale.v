(** * Model of [tools/multi_scale_skeleton.cc].

    Weights of edges are integers: [root] gives the distance for its square, as a fixed-point number.  Heat kernels
    and quotients are real numbers (HeatKernel.v); [None] is a quotient that is not finite. *)
From Coq Require Import Reals List Arith Bool ZArith QArith.
From Verif Require Import Base Simplex Complex Subcomplex Laplacian BetaSkeleton HeatKernel.
Import ListNotations.
Local Open Scope nat_scope.

(** multi_scale_skeleton.cc 40-56: degrees and sums of weights *)
Definition scale_step (K : complex) (st : list Z * list Z) (s : simplex) : outcome (list Z * list Z) :=
  if negb (sdim s =? 1) then Ok st
  else
    let* u := s_nth s 0 in
    let* v := s_nth s 1 in
    let* i := vertex_index K u in
    let* j := vertex_index K v in
    let '(degree, sums) := st in
    let* x := get_ degree i in
    let degree := upd degree i (x + 1)%Z in
    let* x := get_ degree j in
    let degree := upd degree j (x + 1)%Z in
    let* y := get_ sums i in
    let sums := upd sums i (y + data s)%Z in
    let* y := get_ sums j in
    let sums := upd sums j (y + data s)%Z in
    Ok (degree, sums).
(** 20-64 *)
Definition estimateScales (K : complex) : outcome (list (option R)) :=
  let zeros := repeat 0%Z (length (k_vertices K)) in
  let* (degree, sums) := foldM (scale_step K) (by_index K) (zeros, zeros) in
  foldM (fun scales i =>
    let* s := get_ sums i in
    let* d := get_ degree i in
    Ok (scales ++ [divR (IZR s) (IZR d)])) (seq 0 (length (k_vertices K))) [].

(** 107-113: the seven times *)
Definition times : list R := [0; 1 / 1000; 1 / 100; 1 / 10; 1 / 2; 1; 9]%R.
(** 120: the line of a vertex *)
Definition scale_line (h : heat) (scales : list (option R)) (t : R) (i : nat) : outcome (nat * option R) :=
  let* s := at_ scales i in
  let* x := h_auto h i t in
  Ok (i, option_map (fun s => (s * x)%R) s).
(** 117-123: a block of lines for every time *)
Definition scale_blocks (h : heat) (scales : list (option R)) : outcome (list (list (nat * option R))) :=
  foldM (fun blocks t =>
    let* block := foldM (fun lines i => let* l := scale_line h scales t i in Ok (lines ++ [l])) (seq 0 (length scales)) [] in
    Ok (blocks ++ [block])) times [].
(** 127-143: a file with the first two coordinates of every point *)
Definition plot_blocks (h : heat) (scales : list (option R)) (X : list (list Z)) : outcome (list (list (Z * Z * option R))) :=
  foldM (fun blocks t =>
    let* block := foldM (fun lines i =>
      let* p := get_ X i in
      let* x := get_ p 0 in
      let* y := get_ p 1 in
      let* l := scale_line h scales t i in Ok (lines ++ [(x, y, snd l)])) (seq 0 (length scales)) [] in
    Ok (blocks ++ [block])) times [].
(** BetaSkeleton.hh 113-160, called in 84-87: the weights of the skeleton are the distances, in BetaSkeleton.v their squares *)
Definition with_distances (root : Z -> Z) (K : complex) : complex :=
  push_all k_empty (map (fun s => if sdim s =? 1 then set_data s (root (data s)) else s) (by_index K)).
(** 67-144 *)
Definition multi_scale_skeleton (root : Z -> Z) (solver : dense -> list R * list (list R)) (X : list (list Z))
  : outcome (list (list (nat * option R)) * list (list (Z * Z * option R))) :=
  let* K := buildBetaSkeletonNaive euclidean_sq X 1 in
  let K := with_distances root K in
  let* scales := estimateScales K in
  let* h := h_make solver K in
  let* out := scale_blocks h scales in
  let* plot := plot_blocks h scales X in
  Ok (out, plot).
