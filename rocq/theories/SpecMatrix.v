(** * Specification notions for binary matrices given by lists of columns.

    Nothing here refers to the algorithms. *)

From Coq Require Import List Arith Bool Sorted.
Import ListNotations.

(** entry in row [r] and column [c] of a matrix given by the row indices of its columns *)
Definition entry (C : list (list nat)) (r c : nat) : bool :=
  existsb (Nat.eqb r) (nth c C []).

(** sum modulo two of the columns with indices in [S] (with multiplicity) *)
Definition sum_cols (C : list (list nat)) (S : list nat) (r : nat) : bool :=
  fold_right (fun k acc => xorb (entry C r k) acc) false S.

(** sum modulo two of the rows with indices in [T] *)
Definition sum_rows (C : list (list nat)) (T : list nat) (c : nat) : bool :=
  fold_right (fun r acc => xorb (entry C r c) acc) false T.

(** [x] is column [j] plus a combination of columns to its left *)
Definition coset (C : list (list nat)) (j : nat) (x : nat -> bool) : Prop :=
  exists S, (forall k, In k S -> k < j) /\ forall r, x r = xorb (entry C r j) (sum_cols C S r).

(** the lowest non-zero entry of a vector is in row [i] *)
Definition is_low (x : nat -> bool) (i : nat) : Prop :=
  x i = true /\ forall r, i < r -> x r = false.

Definition is_zero (x : nat -> bool) : Prop := forall r, x r = false.

(** the smallest possible lowest entry of column [j] after adding columns to
    its left; [None] if the column can be made zero *)
Definition min_low (C : list (list nat)) (j : nat) (o : option nat) : Prop :=
  match o with
  | Some i => (exists x, coset C j x /\ is_low x i) /\
              (forall x, coset C j x -> exists r, i <= r /\ x r = true)
  | None => exists x, coset C j x /\ is_zero x
  end.

(** column-equivalence by additions from left to right *)
Definition col_equiv (C R : list (list nat)) : Prop :=
  length R = length C /\
  forall j, j < length C -> coset C j (fun r => entry R r j).

(** no two non-zero columns have the same lowest entry *)
Definition reduced (R : list (list nat)) : Prop :=
  forall j k i, j < length R -> k < length R -> j <> k ->
    is_low (fun r => entry R r j) i -> is_low (fun r => entry R r k) i -> False.

(** columns are ascending without repetition *)
Definition sorted_cols (C : list (list nat)) : Prop :=
  forall c, In c C -> StronglySorted lt c.

(** all row indices are column indices *)
Definition square (C : list (list nat)) : Prop :=
  forall c r, In c C -> In r c -> r < length C.

(** A filtered boundary matrix over the field with two elements: rows of
    column [j] are smaller than [j] and belong to simplices of dimension one
    less; the matrix squares to zero. *)
Definition valid_boundary (C : list (list nat)) (dims : list nat) : Prop :=
  length dims = length C /\
  sorted_cols C /\
  (forall j r, entry C r j = true ->
     r < j /\ S (nth r dims 0) = nth j dims 0) /\
  (forall j r, sum_cols C (nth j C []) r = false).

(** ** Persistence pairings

    A pairing is a list of pairs (creator, destroyer) or (creator, none), in
    strictly ascending order, of exactly the following pairs: [(u,v)] if [u] is
    the smallest lowest entry that column [v] can be given; [(c,none)] if
    column [c] can be made zero and [c] is no such entry.  Unless [all] is set,
    unpaired creators of the largest dimension are omitted.  Only creators
    satisfying [ok] are reported. *)
Definition pair_lt (p q : nat * option nat) : Prop :=
  fst p < fst q \/
  (fst p = fst q /\
   match snd p, snd q with
   | Some a, Some b => a < b
   | Some _, None => True
   | None, _ => False
   end).

Definition max_dim (dims : list nat) : nat := list_max dims.

Definition is_pairing (C : list (list nat)) (dims : list nat) (all : bool) (ok : nat -> Prop)
  (p : list (nat * option nat)) : Prop :=
  StronglySorted pair_lt p /\
  (forall u v, In (u, Some v) p <-> v < length C /\ min_low C v (Some u) /\ ok u) /\
  (forall c, In (c, None) p <->
     c < length C /\ min_low C c None /\
     (forall v, v < length C -> ~ min_low C v (Some c)) /\
     (all = true \/ nth c dims 0 <> max_dim dims) /\ ok c).
