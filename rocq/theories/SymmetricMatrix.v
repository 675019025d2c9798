(** * Model of [math/SymmetricMatrix.hh].

    Indices are [nat]: the arithmetic of the index type is assumed not to wrap
    around.  The element type [A] is arbitrary; [zero] is what [I(0)] converts to. *)

From Coq Require Import List Arith Bool.
From Verif Require Import Base.
Import ListNotations.

Section SymmetricMatrix.
  Context {A : Type}.
  Variable zero : A.

  (** SymmetricMatrix.hh 150-159: [_numRows], [_size] and the array [_data] *)
  Record symmetric := Symmetric { sm_rows : nat; sm_size : nat; sm_data : list A }.

  (** SymmetricMatrix.hh 41-43 and 46-52 *)
  Definition sm_empty : symmetric := Symmetric 0 0 [].
  Definition sm_make (n : nat) : symmetric :=
    Symmetric n (n * (n + 1) / 2) (repeat zero (n * (n + 1) / 2)).

  (** SymmetricMatrix.hh 63-67: the copy allocates [n * ( n + 1 ) / 2] cells and
      then copies [_size] elements. *)
  Definition sm_copy (M : symmetric) : symmetric :=
    let N := sm_make (sm_rows M) in
    Symmetric (sm_rows N) (sm_size N)
              (firstn (sm_size M) (sm_data M) ++ skipn (sm_size M) (sm_data N)).

  (** SymmetricMatrix.hh 105-119: the position of the cell *)
  Definition sm_cell (M : symmetric) (row column : nat) : outcome nat :=
    if (sm_rows M <=? row) || (sm_rows M <=? column) then Throw OutOfRange
    else
      let (row, column) := if column <? row then (column, row) else (row, column) in
      let index := row * sm_rows M - row * (row + 1) / 2 + column in
      if sm_size M <=? index then Throw OutOfRange else Ok index.

  (** SymmetricMatrix.hh 105-124: reading and writing through the reference *)
  Definition sm_get (M : symmetric) (row column : nat) : outcome A :=
    let* i := sm_cell M row column in get_ (sm_data M) i.
  Definition sm_set (M : symmetric) (row column : nat) (x : A) : outcome symmetric :=
    let* i := sm_cell M row column in
    if i <? length (sm_data M) then Ok (Symmetric (sm_rows M) (sm_size M) (upd (sm_data M) i x)) else UB.
End SymmetricMatrix.
Arguments symmetric : clear implicits.
