(** * Base: outcomes and standard-library algorithms used by the model.

    Nothing here models a particular Aleph file; these are the C++ standard
    library facilities that the modelled headers call. *)

From Coq Require Import List Arith Lia Bool Permutation Sorted ZArith.
Import ListNotations.

(** Ways in which a C++ call can end.  [UB] is undefined behaviour (e.g. an
    unchecked read outside a container), [OutOfFuel] is an artefact of modelling
    loops with fuel; theorems show that it does not occur. *)
Inductive error := OutOfRange | RuntimeError | LengthError | InvalidArgument
| Terminated (* an exception leaving a [noexcept] function: [std::terminate] *).

Inductive outcome (A : Type) :=
| Ok (a : A)
| Throw (e : error)
| UB
| OutOfFuel.
Arguments Ok {A} a.
Arguments Throw {A} e.
Arguments UB {A}.
Arguments OutOfFuel {A}.

Definition bind {A B} (m : outcome A) (f : A -> outcome B) : outcome B :=
  match m with
  | Ok a => f a
  | Throw e => Throw e
  | UB => UB
  | OutOfFuel => OutOfFuel
  end.

Declare Scope outcome_scope.
Delimit Scope outcome_scope with outcome.
Notation "'let*' x ':=' m 'in' f" := (bind m (fun x => f))
  (at level 200, x pattern, m at level 100, f at level 200, right associativity).

(** Folding an effectful function over a list (a range-for loop). *)
Fixpoint foldM {A S} (f : S -> A -> outcome S) (l : list A) (s : S) : outcome S :=
  match l with
  | [] => Ok s
  | a :: l' => let* s' := f s a in foldM f l' s'
  end.

(** [std::vector::at]: throws [std::out_of_range]. *)
Definition at_ {A} (l : list A) (i : nat) : outcome A :=
  match nth_error l i with
  | Some a => Ok a
  | None => Throw OutOfRange
  end.

(** [std::vector::operator[]]: unchecked. *)
Definition get_ {A} (l : list A) (i : nat) : outcome A :=
  match nth_error l i with
  | Some a => Ok a
  | None => UB
  end.

(** Assignment to a position. *)
Fixpoint upd {A} (l : list A) (i : nat) (a : A) : list A :=
  match l, i with
  | [], _ => []
  | _ :: t, 0 => a :: t
  | h :: t, S i' => h :: upd t i' a
  end.

(** [std::sort]/[std::stable_sort] with a strict comparison [cmp]; modelled by
    stable insertion sort.  [std::sort] is not stable in C++; the elements it
    may reorder are those equivalent under [cmp]. *)
Section Sorting.
  Context {A : Type} (cmp : A -> A -> bool).

  Fixpoint insert_sorted (x : A) (l : list A) : list A :=
    match l with
    | [] => [x]
    | y :: t => if cmp y x then y :: insert_sorted x t else x :: l
    end.

  Fixpoint cpp_sort (l : list A) : list A :=
    match l with
    | [] => []
    | x :: t => insert_sorted x (cpp_sort t)
    end.
End Sorting.

(** [std::unique] followed by [erase]: keeps the first of each run of equal
    consecutive elements. *)
Fixpoint cpp_unique {A} (eqb : A -> A -> bool) (l : list A) : list A :=
  match l with
  | [] => []
  | x :: t =>
      match t with
      | [] => [x]
      | y :: _ => if eqb x y then
                    match cpp_unique eqb t with
                    | [] => [x]
                    | _ :: r => x :: r
                    end
                  else x :: cpp_unique eqb t
      end
  end.

(** [std::set_symmetric_difference] on ranges of indices in ascending order,
    written as the two-finger merge of the standard's reference algorithm. *)
Fixpoint sym_diff (a : list nat) : list nat -> list nat :=
  match a with
  | [] => fun b => b
  | x :: a' =>
      fix aux (b : list nat) : list nat :=
        match b with
        | [] => a
        | y :: b' =>
            if x <? y then x :: sym_diff a' b
            else if y <? x then y :: aux b'
            else sym_diff a' b'
        end
  end.

Definition mem (i : nat) (l : list nat) : bool := existsb (Nat.eqb i) l.

(** Last element, if any. *)
Fixpoint last_opt {A} (l : list A) : option A :=
  match l with
  | [] => None
  | [x] => Some x
  | _ :: t => last_opt t
  end.

Definition list_max_opt (l : list nat) : option nat :=
  match l with
  | [] => None
  | x :: t => Some (fold_left Nat.max t x)
  end.

(** [std::find_if], as the distance from [begin]; [None] is [end]. *)
Fixpoint position {A} (p : A -> bool) (l : list A) : option nat :=
  match l with
  | [] => None
  | x :: t => if p x then Some 0 else option_map S (position p t)
  end.
