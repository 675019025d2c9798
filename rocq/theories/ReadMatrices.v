(** * Model of [topology/io/Matrix.hh], [topology/io/AdjacencyMatrix.hh] and
      [topology/io/BipartiteAdjacencyMatrix.hh].

    [DataType] is an integral type with the range [lo], [hi]; [VertexType] is assumed
    to hold all indices.  Opening a file is not modelled; [isnan] is false for all
    integers. *)

From Coq Require Import List Arith Bool ZArith Ascii.
From Verif Require Import Base Simplex Complex LoadMatrix StringUtilities.
Import ListNotations.

(** What remains after a number that has been extracted. *)
Fixpoint skip_digits (s : str) : str :=
  match s with
  | c :: t => match digit c with Some _ => skip_digits t | None => s end
  | [] => []
  end.
Definition skip_number (s : str) : str :=
  match ltrim s with
  | c :: t => if Ascii.eqb c "-" || Ascii.eqb c "+" then skip_digits t else skip_digits (c :: t)
  | [] => []
  end.

(** Matrix.hh 150-151, AdjacencyMatrix.hh 148-149, BipartiteAdjacencyMatrix.hh 94-95:
    numbers are extracted until that fails.  [S (length s)] is enough fuel. *)
Fixpoint read_numbers (fuel : nat) (lo hi : Z) (s : str) : outcome (list Z) :=
  match fuel with
  | 0 => OutOfFuel
  | S fuel =>
      let '(z, fail) := extract lo hi s in
      if fail then Ok [] else let* l := read_numbers fuel lo hi (skip_number s) in Ok (z :: l)
  end.
Definition read_values (lo hi : Z) (s : str) : outcome (list Z) := read_numbers (S (length s)) lo hi s.

(** loops over [y] (outer) and [x] *)
Definition cells (height width : nat) : list (nat * nat) :=
  flat_map (fun y => map (fun x => (x, y)) (seq 0 width)) (seq 0 height).

(** Matrix.hh 119-134 *)
Definition matrix_size (text : str) : outcome (nat * nat) :=
  foldM (fun st line =>
    let '(height, width) := st in
    let k := length (split isspace (trim line)) in
    if width =? 0 then Ok (S height, k)
    else if negb (width =? k) then Throw RuntimeError
    else Ok (S height, width)) (getlines [] text) (0, 0).

(** Matrix.hh 168-178, 184-194, 200-210: edges from cells to other cells *)
Definition matrix_edges (f : Z -> Z -> Z) (values : list Z) (u v : nat * nat -> nat) (l : list (nat * nat)) (acc : list simplex) : outcome (list simplex) :=
  foldM (fun acc p =>
    let* a := at_ values (u p) in
    let* b := at_ values (v p) in
    Ok (acc ++ [simplex_of [u p; v p] (f a b)])) l acc.
(** Matrix.hh 233-243 *)
Definition matrix_triangles (f : Z -> Z -> Z) (values : list Z) (width : nat) (l : list (nat * nat)) (acc : list simplex) : outcome (list simplex) :=
  foldM (fun acc p =>
    let '(x, y) := p in
    let a := width * y + x in
    let b := width * y + x + 1 in
    let c := width * (y + 1) + x + 1 in
    let d := width * (y + 1) + x in
    let* va := at_ values a in
    let* vb := at_ values b in
    let* vc := at_ values c in
    let* vd := at_ values d in
    Ok (acc ++ [simplex_of [a; b; c] (f (f va vb) vc); simplex_of [a; c; d] (f (f va vc) vd)])) l acc.

(** Matrix.hh 112-250.  For an empty file [_height - 1] and [_width - 1] wrap around:
    after many iterations of a loop whose body is a loop without iterations (182-195),
    [values.at] throws (204). *)
Definition read_matrix (lo hi : Z) (addTriangles : bool) (f : Z -> Z -> Z) (text : str) : outcome complex :=
  let* size := matrix_size text in
  let '(height, width) := size in
  let* values := read_values lo hi text in
  if height =? 0 then Throw OutOfRange
  else
    let simplices := map (fun p => simplex_vertex (fst p) (snd p)) (combine (seq 0 (length values)) values) in
    let* simplices := matrix_edges f values (fun p => width * snd p + fst p) (fun p => width * snd p + fst p + 1)
                        (cells height (width - 1)) simplices in
    let* simplices := matrix_edges f values (fun p => width * snd p + fst p) (fun p => width * (snd p + 1) + fst p)
                        (cells (height - 1) width) simplices in
    let* simplices := matrix_edges f values (fun p => width * snd p + fst p) (fun p => width * (snd p + 1) + fst p + 1)
                        (cells (height - 1) (width - 1)) simplices in
    let* simplices := if addTriangles then matrix_triangles f values width (cells (height - 1) (width - 1)) simplices else Ok simplices in
    k_of_range simplices.

(** [std::min_element], [std::max_element] of a non-empty range *)
Definition list_min (d : Z) (l : list Z) : Z := fold_left Z.min l d.
Definition list_max (d : Z) (l : list Z) : Z := fold_left Z.max l d.

(** AdjacencyMatrix.hh 58-63 *)
Inductive strategy := AssignGlobalMaximum | AssignGlobalMinimum | AssignZero.

(** AdjacencyMatrix.hh 132-140 *)
Definition adjacency_dimension (text : str) : nat :=
  length (filter (fun line => negb (match line with [] => true | c :: _ => Ascii.eqb c hash end)) (getlines [] text)).

(** AdjacencyMatrix.hh 115-251; [None]: the complex is not changed.  [_ignoreNaNs] has
    no effect for integers. *)
Definition read_adjacency (lo hi : Z) (ignoreZeroWeights : bool) (strat : strategy) (f : Z -> Z -> Z -> Z) (text : str) : outcome (option complex) :=
  let n := adjacency_dimension text in
  let* values := read_values lo hi text in
  match values with
  | [] => Ok None
  | v0 :: vs =>
      if negb (length values =? n * n) then Throw RuntimeError
      else
        let minWeight := list_min v0 vs in
        let maxWeight := list_max v0 vs in
        let* edges := foldM (fun acc y => foldM (fun acc x =>
                          let* w := get_ values (n * y + x) in
                          if ignoreZeroWeights && (w =? 0)%Z then Ok acc
                          else Ok (acc ++ [simplex_of [y; x] (f maxWeight minWeight w)])) (seq (y + 1) (n - (y + 1))) acc) (seq 0 n) [] in
        let weight := match strat with
                      | AssignGlobalMaximum => f maxWeight minWeight maxWeight
                      | AssignGlobalMinimum => f maxWeight minWeight minWeight
                      | AssignZero => 0%Z
                      end in
        let* K := k_of_range (edges ++ map (fun i => simplex_vertex i weight) (seq 0 n)) in
        Ok (Some (k_sort data_cmp K))
  end.

(** BipartiteAdjacencyMatrix.hh 126-141: the map from vertices to weights *)
Definition update_weight (absolute : bool) (w : Z) (old : option Z) : option Z :=
  match old with
  | None => Some w
  | Some m => if absolute then (if (Z.abs w <? Z.abs m)%Z then Some w else Some m) else Some (Z.min m w)
  end.
Definition map_update (m : nat -> option Z) (v : nat) (f : option Z -> option Z) : nat -> option Z :=
  fun u => if u =? v then f (m u) else m u.

(** BipartiteAdjacencyMatrix.hh 69-189; a missing key of the map has the weight zero *)
Definition read_bipartite (lo hi : Z) (absolute minimum : bool) (text : str) : outcome (option complex) :=
  let height := length (getlines [] text) in
  let* values := read_values lo hi text in
  match values with
  | [] => Ok None
  | v0 :: vs =>
      let width := length values / height in
      if negb (length values mod height =? 0) then Throw RuntimeError
      else
        let minData := list_min v0 vs in
        let* st := foldM (fun st p =>
                     let '(acc, m) := st in
                     let '(x, y) := p in
                     let* w := get_ values (width * y + x) in
                     let m := map_update m y (update_weight absolute w) in
                     let m := map_update m (x + height) (update_weight absolute w) in
                     Ok (acc ++ [simplex_of [y; x + height] w], m)) (cells height width) ([], fun _ => None) in
        let '(edges, m) := st in
        let weight i := if minimum || absolute then match m i with Some w => w | None => 0%Z end else minData in
        let* K := k_of_range (edges ++ map (fun i => simplex_vertex i (weight i)) (seq 0 (height + width))) in
        Ok (Some (k_sort data_cmp K))
  end.
