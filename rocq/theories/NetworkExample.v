(** * Model of [examples/network_analysis.cc].

    The complex is the one that a reader returns; its formats are modelled elsewhere.  Data are integers.  The normalisation
    divides weights by their range: the model gives weights in units of the reciprocal of the range afterwards, so that the
    weights of vertices, which the program does not change, are multiplied by it.  File names are not modelled. *)
From Coq Require Import List Arith Bool ZArith.
From Verif Require Import Base Simplex Complex Subcomplex Rips Matrix Diagram CommunitiesJSON InterlevelTool.
Import ListNotations.
Local Open Scope nat_scope.

(** network_analysis.cc 231-237 *)
Definition smallest_weight (greatest : Z) (K : complex) : Z := fold_left (fun m s => Z.min m (data s)) (by_index K) greatest.
(** 245-254; the result of [replace] is not examined.  A vertex is skipped by the program; here only its unit changes *)
Definition normalize_step (mn range : Z) (K : complex) (i : nat) : outcome complex :=
  let* s := get_ (by_index K) i in
  let '(K', r) := k_replace K i (set_data s (if sdim s =? 0 then (data s * range)%Z else (data s - mn)%Z)) in
  let* _ := r in
  Ok K'.
Definition normalizeWeights (mn range : Z) (K : complex) : outcome complex := foldM (normalize_step mn range) (seq 0 (length (by_index K))) K.

(** 214-334; [weights] are the weights of the nodes, if there are any.  Returns the largest weight, too; the inversion of
    weights (262-277) is the same loop as in [clique_communities_to_json.cc] *)
Definition network_complex (order : list nat -> list nat) (lowest highest : Z) (weights : option (list Z)) (normalize invert : bool) (k : nat) (K : complex) : outcome (Z * complex) :=
  let* K := match weights with None => Ok K | Some w => assignMaximumData lowest K w end in
  let mx := largest_weight lowest K in
  let mn := smallest_weight highest K in
  let* (mx, K) := if normalize && negb (mx =? mn)%Z then let* K := normalizeWeights mn (mx - mn) K in Ok ((mx - mn)%Z, K) else Ok (mx, K) in
  let* K := if invert then invertWeights mx K else Ok K in
  let* K := ripsExpander order K k in
  Ok (mx, k_sort data_cmp (assignMaximumWeight K 1)).

(** 351-367; [factor] is the argument of [--infinity], if there is one *)
Definition network_diagram (inf : Z) (factor : option Z) (mx : Z) (D : diagram) : diagram :=
  let D := removeDiagonal D in
  match factor with
  | None => D
  | Some f => Diagram (dgm_dim D) (map (fun p => if isUnpaired inf p then (fst p, f * mx)%Z else p) (points D))
  end.
(** 369-390: the header and the points of a diagram, and whether it is followed by empty lines *)
Record report := Report { r_dim : nat; r_entries : nat; r_betti : nat; r_points : list point; r_separator : bool }.
Definition network_report (inf : Z) (last : diagram) (D : diagram) : report :=
  Report (dgm_dim D) (length (points D)) (d_betti inf D) (points D) (negb (points_eqb (points D) (points last))).
(** 347-411: the loop modifies diagrams one after the other, so that the last one is still unmodified while others are
    compared with it *)
Fixpoint network_reports (inf : Z) (factor : option Z) (mx : Z) (ds : list diagram) : list report :=
  match ds with
  | [] => []
  | [D] => let D := network_diagram inf factor mx D in [network_report inf D D]
  | D :: r => network_report inf (List.last r D) (network_diagram inf factor mx D) :: network_reports inf factor mx r
  end.

Definition network_analysis (order horder : list nat -> list nat) (a : algorithm) (inf lowest highest : Z) (factor : option Z) (weights : option (list Z)) (normalize invert : bool) (k : nat) (K : complex)
  : outcome (list report) :=
  let* (mx, K) := network_complex order lowest highest weights normalize invert k K in
  let* ds := calculatePersistenceDiagrams inf horder a K true false in
  Ok (network_reports inf factor mx ds).
