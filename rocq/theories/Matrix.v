(** * Model of [topology/BoundaryMatrix.hh], [topology/representations/*.hh],
    [persistentHomology/algorithms/*.hh], [persistentHomology/PersistencePairing.hh]
    and [persistentHomology/Calculation.hh].

    [Index] is [nat]. *)

From Coq Require Import List Arith Bool.
From Verif Require Import Base.
Import ListNotations.

(** BoundaryMatrix.hh 250-259 together with the members of a representation
    (Vector.hh 107-108, List.hh 107-108, Set.hh 103-104).  A column is the
    sequence of row indices obtained by iterating over it. *)
Record matrix := Matrix {
  cols : list (list nat);
  dims : list nat;
  dualized : bool
}.

Definition empty_matrix : matrix := Matrix [] [] false.

Definition with_cols (M : matrix) (c : list (list nat)) : matrix :=
  Matrix c (dims M) (dualized M).
Definition with_dims (M : matrix) (d : list nat) : matrix :=
  Matrix (cols M) d (dualized M).

(** [std::vector::resize]. *)
Definition resize {A} (l : list A) (n : nat) (x : A) : list A :=
  firstn n l ++ repeat x (n - length l).

(** ** Operations shared by all representations *)

(** Vector.hh 22-26, List.hh 23-27, Set.hh 22-26. *)
Definition setNumColumns (M : matrix) (n : nat) : matrix :=
  Matrix (resize (cols M) n []) (resize (dims M) n 0) (dualized M).

(** Vector.hh 28-31, List.hh 29-32, Set.hh 28-31. *)
Definition getNumColumns (M : matrix) : nat := length (cols M).

(** Vector.hh 33-39, List.hh 34-40, Set.hh 33-39 ([rbegin] is the last one):
    [(0,false)] is modelled by [None]. *)
Definition getMaximumIndex (M : matrix) (j : nat) : outcome (option nat) :=
  let* c := at_ (cols M) j in Ok (last_opt c).

(** Vector.hh 73-76, List.hh 73-76, Set.hh 69-72. *)
Definition getColumn (M : matrix) (j : nat) : outcome (list nat) := at_ (cols M) j.

(** Vector.hh 78-81, List.hh 78-81, Set.hh 74-77. *)
Definition clearColumn (M : matrix) (j : nat) : outcome matrix :=
  let* _ := at_ (cols M) j in Ok (with_cols M (upd (cols M) j [])).

(** Vector.hh 83-86, List.hh 83-86, Set.hh 79-82. *)
Definition setDimension (M : matrix) (j d : nat) : outcome matrix :=
  let* _ := at_ (dims M) j in Ok (with_dims M (upd (dims M) j d)).

(** Vector.hh 88-91, List.hh 88-91, Set.hh 84-87. *)
Definition getDimension (M : matrix) (j : nat) : outcome nat := at_ (dims M) j.

(** Vector.hh 93-99, List.hh 93-99, Set.hh 89-95. *)
Definition getMaxDimension (M : matrix) : nat := fold_right Nat.max 0 (dims M).

(** ** Vector.hh *)

(** Vector.hh 41-54. *)
Definition addColumns (M : matrix) (source target : nat) : outcome matrix :=
  let* s := at_ (cols M) source in
  let* t := at_ (cols M) target in
  Ok (with_cols M (upd (cols M) target (sym_diff s t))).

(** Vector.hh 56-71; the dimension is the number of indices handed over minus
    one, 0 for an empty range. *)
Definition setColumn (M : matrix) (j : nat) (l : list nat) : outcome matrix :=
  let* _ := at_ (cols M) j in
  let* _ := at_ (dims M) j in
  Ok (Matrix (upd (cols M) j (cpp_sort Nat.ltb l)) (upd (dims M) j (length l - 1)) (dualized M)).

(** ** List.hh *)

(** List.hh 42-54 *)
Definition list_addColumns (M : matrix) (source target : nat) : outcome matrix :=
  let* s := at_ (cols M) source in
  let* t := at_ (cols M) target in
  Ok (with_cols M (upd (cols M) target (sym_diff s t))).

(** List.hh 56-71, [std::list::sort]. *)
Definition list_setColumn (M : matrix) (j : nat) (l : list nat) : outcome matrix :=
  let* _ := at_ (cols M) j in
  let* _ := at_ (dims M) j in
  Ok (Matrix (upd (cols M) j (cpp_sort Nat.ltb l)) (upd (dims M) j (length l - 1)) (dualized M)).

(** ** Set.hh *)

(** [std::set::insert] of one element; the set is its ascending iteration. *)
Fixpoint set_insert (x : nat) (l : list nat) : list nat :=
  match l with
  | [] => [x]
  | y :: t => if x <? y then x :: l else if y <? x then y :: set_insert x t else l
  end.

(** [std::set::insert] of a range. *)
Definition set_insert_range (l acc : list nat) : list nat :=
  fold_left (fun a x => set_insert x a) l acc.

(** Set.hh 41-53 *)
Definition set_addColumns (M : matrix) (source target : nat) : outcome matrix :=
  let* s := at_ (cols M) source in
  let* t := at_ (cols M) target in
  Ok (with_cols M (upd (cols M) target (set_insert_range (sym_diff s t) []))).

(** Set.hh 55-67 *)
Definition set_setColumn (M : matrix) (j : nat) (l : list nat) : outcome matrix :=
  let* _ := at_ (cols M) j in
  let* _ := at_ (dims M) j in
  Ok (Matrix (upd (cols M) j (set_insert_range l [])) (upd (dims M) j (length l - 1)) (dualized M)).

(** ** Client programs: what a template can do with a representation. *)

Inductive rep := RVector | RList | RSet.

Inductive op :=
| OSetNumColumns (n : nat)
| OAddColumns (source target : nat)
| OSetColumn (j : nat) (l : list nat)
| OClearColumn (j : nat)
| OSetDimension (j d : nat).

Inductive query :=
| QNumColumns
| QMaximumIndex (j : nat)
| QColumn (j : nat)
| QDimension (j : nat)
| QMaxDimension.

Inductive answer :=
| ANat (n : nat)
| AOpt (n : option nat)
| AList (l : list nat).

Definition omap {A B} (f : A -> B) (m : outcome A) : outcome B := let* a := m in Ok (f a).

Definition run_op (r : rep) (M : matrix) (o : op) : outcome matrix :=
  match o with
  | OSetNumColumns n => Ok (setNumColumns M n)
  | OAddColumns s t =>
      match r with
      | RVector => addColumns M s t
      | RList => list_addColumns M s t
      | RSet => set_addColumns M s t
      end
  | OSetColumn j l =>
      match r with
      | RVector => setColumn M j l
      | RList => list_setColumn M j l
      | RSet => set_setColumn M j l
      end
  | OClearColumn j => clearColumn M j
  | OSetDimension j d => setDimension M j d
  end.

Definition run_query (M : matrix) (q : query) : outcome answer :=
  match q with
  | QNumColumns => Ok (ANat (getNumColumns M))
  | QMaximumIndex j => omap AOpt (getMaximumIndex M j)
  | QColumn j => omap AList (getColumn M j)
  | QDimension j => omap ANat (getDimension M j)
  | QMaxDimension => Ok (ANat (getMaxDimension M))
  end.

(** A program that operates on a matrix, looks at answers (also at exceptions,
    which it may catch) and continues depending on them. *)
Inductive prog (A : Type) :=
| Ret (a : A)
| Do (o : op) (k : outcome unit -> prog A)
| Ask (q : query) (k : outcome answer -> prog A).
Arguments Ret {A} a.
Arguments Do {A} o k.
Arguments Ask {A} q k.

(** If an operation throws, the matrix keeps its old value: in all the
    functions above the calls to [at] precede the first modification. *)
Fixpoint run {A} (r : rep) (p : prog A) (M : matrix) : A * matrix :=
  match p with
  | Ret a => (a, M)
  | Do o k =>
      match run_op r M o with
      | Ok M' => run r (k (Ok tt)) M'
      | Throw e => run r (k (Throw e)) M
      | UB => run r (k UB) M
      | OutOfFuel => run r (k OutOfFuel) M
      end
  | Ask q k => run r (k (run_query M q)) M
  end.

(** ** Reduction algorithms (on the vector representation) *)

(** The lookup table: [(0,false)] is [None]. *)
Definition lut := list (option nat).

(** Standard.hh 33-40 (the loop for one column); [lut[i]] is unchecked.
    Returns the matrix and the final value of [(i,valid)]. *)
Fixpoint reduce_column (fuel : nat) (M : matrix) (t : lut) (j : nat)
  : outcome (matrix * option nat) :=
  match fuel with
  | 0 => OutOfFuel
  | S f =>
      let* m := getMaximumIndex M j in
      match m with
      | None => Ok (M, None)
      | Some i =>
          let* e := get_ t i in
          match e with
          | None => Ok (M, Some i)
          | Some k => let* M' := addColumns M k j in reduce_column f M' t j
          end
      end
  end.

(** Standard.hh 30-44: the body of the loop over [j].  The maximum index of a
    column decreases strictly with every addition; [S (S i)] steps suffice. *)
Definition column_fuel (M : matrix) (j : nat) : nat :=
  match nth_error (cols M) j with
  | Some c => match last_opt c with Some i => S (S i) | None => 1 end
  | None => 1
  end.

Definition standard_step (st : matrix * lut) (j : nat) : outcome (matrix * lut) :=
  let '(M, t) := st in
  let* (M', m) := reduce_column (column_fuel M j) M t j in
  match m with
  | None => Ok (M', t)
  | Some i => Ok (M', upd t i (Some j))
  end.

(** Standard.hh 21-45 *)
Definition standard (M : matrix) : outcome matrix :=
  let n := getNumColumns M in
  let* st := foldM standard_step (seq 0 n) (M, repeat None n) in
  Ok (fst st).

(** Standard.hh 59-77: as before, but columns whose maximum index is not a
    column index are skipped ([i] is 0 if the column is empty). *)
Definition rectangular_step (n : nat) (st : matrix * lut) (j : nat) : outcome (matrix * lut) :=
  let '(M, t) := st in
  let* m := getMaximumIndex M j in
  if n <=? match m with Some i => i | None => 0 end then Ok (M, t)
  else standard_step (M, t) j.

(** Standard.hh 48-80 *)
Definition standard_rectangular (M : matrix) : outcome matrix :=
  let n := getNumColumns M in
  let* st := foldM (rectangular_step n) (seq 0 n) (M, repeat None n) in
  Ok (fst st).

(** Twist.hh 35-53: the body of the loop over [j] for dimension [d]. *)
Definition twist_step (d : nat) (st : matrix * lut) (j : nat) : outcome (matrix * lut) :=
  let '(M, t) := st in
  let* dj := getDimension M j in
  if dj =? d then
    let* (M', m) := reduce_column (column_fuel M j) M t j in
    match m with
    | None => Ok (M', t)
    | Some i => let* M'' := clearColumn M' i in Ok (M'', upd t i (Some j))
    end
  else Ok (M, t).

(** Twist.hh 31-54: the loop over [d] from the maximum dimension down to 1. *)
Definition twist_dim (n : nat) (st : matrix * lut) (d : nat) : outcome (matrix * lut) :=
  foldM (twist_step d) (seq 0 n) st.

(** Twist.hh 21-55 *)
Definition twist (M : matrix) : outcome matrix :=
  let n := getNumColumns M in
  let* st := foldM (twist_dim n) (rev (seq 1 (getMaxDimension M))) (M, repeat None n) in
  Ok (fst st).

(** ** Persistence pairings *)

(** PersistencePairing.hh: [std::numeric_limits<Index>::max()] as second entry
    is modelled by [None]. *)
Definition pair_t := (nat * option nat)%type.

(** [std::pair]'s [operator<], with the marker as largest value. *)
Definition pair_ltb (p q : pair_t) : bool :=
  if fst p <? fst q then true
  else if fst q <? fst p then false
  else match snd p, snd q with
       | Some a, Some b => a <? b
       | Some _, None => true
       | None, _ => false
       end.

(** [std::unordered_set::insert] and [erase]; the order of the list is the
    iteration order, see [pairing_of] below. *)
Definition uset_insert (x : nat) (l : list nat) : list nat := if mem x l then l else x :: l.
Definition uset_erase (x : nat) (l : list nat) : list nat := filter (fun y => negb (y =? x)) l.

Record pair_state := PairState {
  p_pairs : list pair_t;
  p_creators : list nat;
  p_destroyers : list nat
}.

(** persistentHomology/Calculation.hh 80-129: body of the loop over the
    columns of the reduced matrix [B].  [mx] is the parameter [max]; [None] is
    its default value. *)
Definition allowed (mx : option nat) (n u : nat) : bool :=
  match mx with
  | None => true
  | Some m => (n <? m) || (u <? m)
  end.

Definition pairing_step (B : matrix) (all : bool) (mx : option nat) (st : pair_state) (j : nat)
  : outcome pair_state :=
  let n := getNumColumns B in
  let* m := getMaximumIndex B j in
  match m with
  | Some i =>
      let '(u, v) := if dualized B then (n - 1 - j, n - 1 - i) else (i, j) in
      Ok (PairState
            (if allowed mx n u then p_pairs st ++ [(u, Some v)] else p_pairs st)
            (uset_erase i (p_creators st))
            (uset_insert v (p_destroyers st)))
  | None =>
      let* dj := getDimension B j in
      if    (negb (dualized B) && negb (dj =? getMaxDimension B))
         || (dualized B && negb (dj =? 0))
         || all
      then Ok (PairState (p_pairs st) (uset_insert j (p_creators st)) (p_destroyers st))
      else Ok st
  end.

(** Calculation.hh 131-142: unpaired creators; [order] is the iteration order
    of the hash set (any permutation). *)
Definition unpaired_of (B : matrix) (mx : option nat) (destroyers : list nat)
  (order : list nat) : list pair_t :=
  let n := getNumColumns B in
  flat_map (fun creator =>
              let c := if dualized B then n - 1 - creator else creator in
              if mem c destroyers then []
              else if allowed mx n c then [(c, None)] else []) order.

(** Calculation.hh 71-145: pairing read off the reduced matrix. *)
Definition pairing_of_reduced (order : list nat -> list nat) (B : matrix) (all : bool) (mx : option nat)
  : outcome (list pair_t) :=
  let* st := foldM (pairing_step B all mx) (seq 0 (getNumColumns B)) (PairState [] [] []) in
  Ok (cpp_sort pair_ltb
        (p_pairs st ++ unpaired_of B mx (p_destroyers st) (order (p_creators st)))).

Inductive algorithm := AStandard | ATwist | ARectangular.

Definition reduce (a : algorithm) (M : matrix) : outcome matrix :=
  match a with
  | AStandard => standard M
  | ATwist => twist M
  | ARectangular => standard_rectangular M
  end.

(** Calculation.hh 56-146 *)
Definition calculatePersistencePairing (order : list nat -> list nat) (a : algorithm)
  (M : matrix) (all : bool) (mx : option nat) : outcome (list pair_t) :=
  let* B := reduce a M in
  pairing_of_reduced order B all mx.

(** equality of [std::pair]s *)
Definition pair_eqb (p q : pair_t) : bool :=
  (fst p =? fst q) && match snd p, snd q with
                      | Some a, Some b => a =? b
                      | None, None => true
                      | _, _ => false
                      end.

(** PersistencePairing.hh 97-101: the distance of the result from [begin()]. *)
Definition pairing_find (p : list pair_t) (c : nat) (d : option nat) : option nat :=
  position (pair_eqb (c, d)) p.
(** PersistencePairing.hh 109-117 *)
Definition pairing_find_creator (p : list pair_t) (c : nat) : option nat :=
  position (fun q => fst q =? c) p.
(** PersistencePairing.hh 119-122 *)
Definition pairing_contains (p : list pair_t) (c : nat) (d : option nat) : bool :=
  match pairing_find p c d with Some _ => true | None => false end.
(** PersistencePairing.hh 124-127 *)
Definition pairing_contains_creator (p : list pair_t) (c : nat) : bool :=
  match pairing_find_creator p c with Some _ => true | None => false end.

(** ** Dualization *)

(** BoundaryMatrix.hh 141-147: appends [n-1-j] to the dual columns of the rows
    of column [j].  The subtraction is unsigned and the access unchecked, so
    a row index that is not a column index is undefined behaviour. *)
Definition dual_add (n j : nat) (D : list (list nat)) (i : nat) : outcome (list (list nat)) :=
  if i <? n then
    let* c := get_ D (n - 1 - i) in Ok (upd D (n - 1 - i) (c ++ [n - 1 - j]))
  else UB.

Definition dual_column (M : matrix) (D : list (list nat)) (j : nat) : outcome (list (list nat)) :=
  let* c := getColumn M j in
  foldM (dual_add (getNumColumns M) j) c D.

(** BoundaryMatrix.hh 151-152 *)
Definition dual_dim (M : matrix) (D : list nat) (j : nat) : outcome (list nat) :=
  let* d := getDimension M j in
  Ok (upd D (getNumColumns M - 1 - j) (getMaxDimension M - d)).

(** BoundaryMatrix.hh 157-167 *)
Definition dual_set (D : list (list nat)) (dd : list nat) (M : matrix) (j : nat) : outcome matrix :=
  let* c := at_ D j in
  let* M1 := setColumn M j (cpp_sort Nat.ltb c) in
  let* d := at_ dd j in
  setDimension M1 j d.

(** BoundaryMatrix.hh 113-170 *)
Definition dualize (M : matrix) : outcome matrix :=
  let n := getNumColumns M in
  let* D := foldM (dual_column M) (seq 0 n) (repeat [] n) in
  let* dd := foldM (dual_dim M) (seq 0 n) (repeat 0 n) in
  let* M' := foldM (dual_set D dd) (seq 0 n) (setNumColumns empty_matrix n) in
  Ok (Matrix (cols M') (dims M') (negb (dualized M))).
