(** * Model of the matrix functions of [geometry/HeatKernel.hh] and of
      [topology/Partitions.hh].

    Dense Eigen matrices are lists of rows; element access checks its indices with an
    assertion only, hence [UB] for indices out of range.  Sums over rows are exact, so that
    the order in which Eigen adds does not matter. *)
From Coq Require Import List Arith Bool ZArith.
From Verif Require Import Base Simplex Complex Quantiles.
Import ListNotations.

Definition dense := list (list Z).

(** [Matrix::Zero( n, n )], [Matrix::Constant( n, n, x )] *)
Definition m_constant (n : nat) (x : Z) : dense := repeat (repeat x n) n.
(** [M(i,j)] *)
Definition m_get (M : dense) (i j : nat) : outcome Z := let* row := get_ M i in get_ row j.
(** [M(i,j) = x] *)
Definition m_set (M : dense) (i j : nat) (x : Z) : outcome dense :=
  let* row := get_ M i in
  let* _ := get_ row j in
  Ok (upd M i (upd row j x)).
(** [M.rowwise().sum()] *)
Definition m_rowsums (M : dense) : list Z := map (fold_right Z.add 0%Z) M.
(** sums and differences of matrices of the same size *)
Definition m_zip (f : Z -> Z -> Z) (A B : dense) : dense :=
  map (fun rows => map (fun xy => f (fst xy) (snd xy)) (combine (fst rows) (snd rows))) (combine A B).

(** HeatKernel.hh 66-81: the index of a vertex is its position in the ordered set of vertices *)
Definition vertex_index (K : complex) (v : nat) : outcome nat :=
  match position (Nat.eqb v) (k_vertices K) with Some i => Ok i | None => Throw OutOfRange end.

(** HeatKernel.hh 87-99 *)
Definition adjacency_step (K : complex) (W : dense) (s : simplex) : outcome dense :=
  if negb (sdim s =? 1) then Ok W
  else
    let* u := s_nth s 0 in
    let* v := s_nth s 1 in
    let* i := vertex_index K u in
    let* j := vertex_index K v in
    let* W := m_set W i j (data s) in
    let* x := m_get W i j in
    m_set W j i x.

(** HeatKernel.hh 53-102 *)
Definition weightedAdjacencyMatrix (K : complex) : outcome dense :=
  foldM (adjacency_step K) (by_index K) (m_constant (length (k_vertices K)) 0).

(** HeatKernel.hh 114-131 *)
Definition weightedLaplacianMatrix (K : complex) : outcome dense :=
  let* W := weightedAdjacencyMatrix K in
  let V := m_rowsums W in
  let* L := foldM (fun L i => let* x := get_ V i in m_set L i i x) (seq 0 (length V)) (m_constant (length W) 0) in
  Ok (m_zip Z.sub L W).

(** HeatKernel.hh 143-155: the matrices [M] and [M + L], of which the inverse is taken by
    Eigen.  The quotient [1 / n] is one of integers, and undefined for [n = 0]. *)
Definition pinv_arguments (K : complex) : outcome (dense * dense) :=
  let* L := weightedLaplacianMatrix K in
  let n := length L in
  if n =? 0 then UB
  else
    let M := m_constant n (Z.of_nat (1 / n)) in
    Ok (M, m_zip Z.add M L).

(** [partition.at( v )] *)
Definition partition_at (p : list (nat * bool)) (v : nat) : outcome bool :=
  match find (fun e => fst e =? v) p with Some e => Ok (snd e) | None => Throw OutOfRange end.

(** Partitions.hh 85-97, 99-111: whether the number of vertices on the side is the number of
    vertices of the simplex *)
Definition all_on_side (p : list (nat * bool)) (side : bool) (s : simplex) : outcome bool :=
  let* n := foldM (fun n v => let* b := partition_at p v in Ok (if Bool.eqb b side then n + 1 else n)) (verts s) 0 in
  Ok (length (verts s) =? n).

(** [std::stable_partition]: the elements that satisfy the predicate, and the others *)
Fixpoint stable_partition {A} (f : A -> outcome bool) (l : list A) : outcome (list A * list A) :=
  match l with
  | [] => Ok ([], [])
  | x :: l =>
      let* b := f x in
      let* r := stable_partition f l in
      Ok (if b : bool then (x :: fst r, snd r) else (fst r, x :: snd r))
  end.

(** Partitions.hh 25-123 with Eigen.  [solver] calculates the eigenvectors of a matrix as
    lists of coefficients, ordered by their eigenvalues; their coefficients are represented
    by integers, with [mean] for the arithmetic mean in [median].  [eigenvectors.size()] is
    the number of coefficients.  For a complex without vertices, the behaviour of the solver
    is that of Eigen, which only specifies it for non-empty matrices. *)
Definition bisect (solver : dense -> list (list Z)) (ne : list Z -> nat -> list Z) (mean : Z -> Z -> Z)
    (K : complex) : outcome (list complex) :=
  let* L := weightedLaplacianMatrix K in
  if length L =? 0 then UB
  else
    let eigenvectors := solver L in
    if length (concat eigenvectors) <? 2 then Throw RuntimeError
    else
      let* fiedler := get_ eigenvectors 1 in
      let* m := median ne mean fiedler in
      let* partition := foldM (fun p i =>
        let* v := at_ (k_vertices K) i in
        let* x := get_ fiedler i in
        Ok (p ++ [(v, Z.ltb x m)])) (seq 0 (length fiedler)) [] in
      let* lefts := stable_partition (all_on_side partition true) (by_index K) in
      let* rights := stable_partition (all_on_side partition false) (snd lefts) in
      let* K1 := k_of_range (fst lefts) in
      let* K2 := k_of_range (fst rights) in
      Ok [K1; K2].
