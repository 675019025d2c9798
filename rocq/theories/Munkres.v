(** * Model of [persistenceDiagrams/distances/detail/Munkres.hh].

    [T] is [Z] with exact arithmetic, [top] is [std::numeric_limits<T>::max()].
    A [Matrix] (detail/Matrix.hh) of size [n] is a function of the row and the
    column; all accesses of the class are below [n].  Loops that treat every
    cell on its own are written as one update of the function. *)

From Coq Require Import List Arith Bool ZArith.
From Verif Require Import Base.
Import ListNotations.

Definition matrix (A : Type) := nat -> nat -> A.
Definition mset {A} (m : matrix A) (r c : nat) (v : A) : matrix A :=
  fun i j => if (i =? r) && (j =? c) then v else m i j.
Definition vset (m : nat -> bool) (i : nat) (b : bool) : nat -> bool := fun j => if j =? i then b else m j.

(** the attributes, Munkres.hh 420-426 *)
Record munkres_state := MState {
  m_mat : matrix Z;
  m_stars : matrix bool;
  m_primes : matrix bool;
  m_rows : nat -> bool;
  m_cols : nat -> bool
}.

(** the first result of a loop that returns from inside *)
Fixpoint first_some {A B} (f : A -> option B) (l : list A) : option B :=
  match l with
  | [] => None
  | a :: t => match f a with Some b => Some b | None => first_some f t end
  end.

Section Munkres.
  Variables (top : Z) (n : nat).

  Definition indices : list nat := seq 0 n.

  (** Munkres.hh 146-160 *)
  Definition row_minimum (m : matrix Z) (row : nat) : Z :=
    fold_left (fun v col => Z.min v (m row col)) indices (m row 0).
  Definition subtractRowMinimum (m : matrix Z) : matrix Z := fun row col => (m row col - row_minimum m row)%Z.

  (** Munkres.hh 162-182 *)
  Definition findUncoveredZeroInMatrix (s : munkres_state) : option (nat * nat) :=
    first_some (fun row =>
      if m_rows s row then None
      else first_some (fun col =>
             if m_cols s col then None
             else if (m_mat s row col =? 0)%Z then Some (row, col) else None) indices) indices.

  Definition set_stars (s : munkres_state) (st pr : matrix bool) : munkres_state :=
    MState (m_mat s) st pr (m_rows s) (m_cols s).

  (** Munkres.hh 186-224; [goto skipCurrentRow] leaves the loop over the columns *)
  Fixpoint step1_row (row : nat) (cols : list nat) (s : munkres_state) : munkres_state :=
    match cols with
    | [] => s
    | col :: t =>
        if (m_mat s row col =? 0)%Z then
          if existsb (fun r => m_stars s r col) indices then step1_row row t s
          else if existsb (fun c => m_stars s row c) indices then s
          else step1_row row t (set_stars s (mset (m_stars s) row col true) (mset (m_primes s) row col false))
        else step1_row row t s
    end.
  Definition step1 (s : munkres_state) : munkres_state :=
    fold_left (fun s row => step1_row row indices s) indices s.

  (** Munkres.hh 229-250: the new masks and [coveredColumns] *)
  Definition step2_cell (s : munkres_state) (row : nat) (acc : (nat -> bool) * nat) (col : nat) : (nat -> bool) * nat :=
    if m_stars s row col then (vset (fst acc) col true, S (snd acc)) else acc.
  Definition step2 (s : munkres_state) : bool * munkres_state :=
    let r := fold_left (fun acc row => fold_left (step2_cell s row) indices acc) indices (m_cols s, 0) in
    (n <=? snd r, MState (m_mat s) (m_stars s) (m_primes s) (m_rows s) (fst r)).

  (** Munkres.hh 255-279: the next step, the state, and [row], [col] *)
  Definition step3 (s : munkres_state) : nat * munkres_state * (nat * nat) :=
    match findUncoveredZeroInMatrix s with
    | None => (5, s, (n, n))
    | Some (row, col) =>
        let s := set_stars s (mset (m_stars s) row col false) (mset (m_primes s) row col true) in
        match find (fun c => m_stars s row c) indices with
        | Some c => (3, MState (m_mat s) (m_stars s) (m_primes s) (vset (m_rows s) row true) (vset (m_cols s) c false), (row, col))
        | None => (4, s, (row, col))
        end
    end.

  (** Munkres.hh 281-340: the sequence *)
  Definition pair_eqb (p q : nat * nat) : bool := (fst p =? fst q) && (snd p =? snd q).
  Definition in_sequence (p : nat * nat) (l : list (nat * nat)) : bool := existsb (pair_eqb p) l.
  Fixpoint alternate (fuel : nat) (s : munkres_state) (c : nat) (sequence : list (nat * nat)) : outcome (list (nat * nat)) :=
    match fuel with
    | 0 => OutOfFuel
    | S fuel =>
        match find (fun r => m_stars s r c && negb (in_sequence (r, c) sequence)) indices with
        | None => Ok sequence
        | Some r =>
            let sequence := sequence ++ [(r, c)] in
            match find (fun c' => m_primes s r c' && negb (in_sequence (r, c') sequence)) indices with
            | None => Ok sequence
            | Some c' => alternate fuel s c' (sequence ++ [(r, c')])
            end
        end
    end.

  (** Munkres.hh 342-357 *)
  Definition flip (sp : matrix bool * matrix bool) (p : nat * nat) : matrix bool * matrix bool :=
    let (r, c) := p in
    let sp := if fst sp r c then (mset (fst sp) r c false, mset (snd sp) r c false) else sp in
    if snd sp r c then (mset (fst sp) r c true, mset (snd sp) r c false) else sp.

  (** Munkres.hh 359-379: primes are erased (with a star on them), masks are cleared *)
  Definition in_range (r c : nat) : bool := (r <? n) && (c <? n).
  Definition step4 (s : munkres_state) (row col : nat) : outcome munkres_state :=
    let* sequence := alternate (S n) s col [(row, col)] in
    let (st, pr) := fold_left flip sequence (m_stars s, m_primes s) in
    Ok (MState (m_mat s)
         (fun r c => if in_range r c && pr r c then false else st r c)
         (fun r c => if in_range r c then false else pr r c)
         (fun r => if r <? n then false else m_rows s r)
         (fun c => if c <? n then false else m_cols s c)).

  (** Munkres.hh 381-418 *)
  Definition step5_minimum (s : munkres_state) : Z :=
    fold_left (fun v row =>
      if m_rows s row then v
      else fold_left (fun v col =>
             if m_cols s col then v
             else if negb (m_mat s row col =? 0)%Z && (m_mat s row col <? v)%Z then m_mat s row col else v) indices v) indices top.
  Definition step5 (s : munkres_state) : munkres_state :=
    let v := step5_minimum s in
    MState (fun row col => (m_mat s row col + (if m_rows s row then v else 0) - (if m_cols s col then 0 else v))%Z)
           (m_stars s) (m_primes s) (m_rows s) (m_cols s).

  (** Munkres.hh 93-122: the state machine *)
  Fixpoint munkres_loop (fuel : nat) (step : nat) (row col : nat) (s : munkres_state) : outcome munkres_state :=
    match fuel with
    | 0 => OutOfFuel
    | S fuel =>
        match step with
        | 0 => Ok s
        | 1 => munkres_loop fuel 2 row col (step1 s)
        | 2 => let (done, s) := step2 s in munkres_loop fuel (if done then 0 else 3) row col s
        | 3 => let '(next, s, (row, col)) := step3 s in munkres_loop fuel next row col s
        | 4 => let* s := step4 s row col in munkres_loop fuel 2 row col s
        | _ => munkres_loop fuel 3 row col (step5 s)
        end
    end.

  (** Munkres.hh 82-89: the constructor, and 93-140 *)
  Definition munkres_init (m : matrix Z) : munkres_state :=
    MState m (fun _ _ => false) (fun _ _ => false) (fun _ => false) (fun _ => false).
  Definition munkres (fuel : nat) (m : matrix Z) : outcome (matrix Z) :=
    let* s := munkres_loop fuel 1 0 0 (munkres_init (subtractRowMinimum m)) in
    Ok (fun row col => if m_stars s row col then 0%Z else top).

  (** Munkres.hh 65-78 and 31-57: the cells with a zero, and their costs *)
  Definition matching (m : matrix Z) : list (nat * nat) :=
    flat_map (fun row => flat_map (fun col => if (m row col =? 0)%Z then [(row, col)] else []) indices) indices.
  Definition munkres_cost (m costs : matrix Z) (n' : nat) : Z :=
    if n =? n' then
      fold_left Z.add (flat_map (fun row => flat_map (fun col => if (m row col =? 0)%Z then [costs row col] else []) indices) indices) 0%Z
    else top.
End Munkres.
