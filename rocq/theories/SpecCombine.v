(** * Specification notions for combinations. *)

From Coq Require Import List Arith.
From Verif Require Import Base.
Import ListNotations.

Section Calls.
Context {T A : Type}.

(** calls of a function object for the elements of a sequence, until a call
    returns true *)
Fixpoint visit (g : T -> list A -> outcome (bool * T)) (l : list (list A)) (st : T) : outcome (bool * T) :=
  match l with
  | [] => Ok (false, st)
  | x :: r => let* q := g st x in if fst q then Ok q else visit g r (snd q)
  end.

(** the result [r] comes from the calls [q]; the contents of the vector are
    [fin] if none of them returned true *)
Definition matches (r : outcome (bool * T * list A)) (q : outcome (bool * T)) (fin : list A) : Prop :=
  match q with
  | Ok (true, s) => exists v, r = Ok (true, s, v)
  | Ok (false, s) => r = Ok (false, s, fin)
  | Throw e => r = Throw e
  | UB => r = UB
  | OutOfFuel => r = OutOfFuel
  end.
End Calls.

(** [p] is before [q] in the lexicographic order, with a difference at a
    common position *)
Definition before (p q : list nat) : Prop :=
  exists c x y p' q', p = c ++ x :: p' /\ q = c ++ y :: q' /\ x < y.

(** Pascal's triangle *)
Fixpoint binomial (n k : nat) : nat :=
  match n, k with
  | _, 0 => 1
  | 0, S _ => 0
  | S n, S k => binomial n k + binomial n (S k)
  end.
