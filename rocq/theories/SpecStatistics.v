(** * Sample statistics *)

From Coq Require Import List Arith ZArith QArith.
Import ListNotations.
Local Open Scope Q_scope.

Definition total (f : Q -> Q) (l : list Q) : Q := fold_right (fun x s => f x + s) 0 l.
Definition total2 (f : Q -> Q -> Q) (l m : list Q) : Q := fold_right (fun p s => f (fst p) (snd p) + s) 0 (combine l m).
Definition size (l : list Q) : Q := inject_Z (Z.of_nat (length l)).

(** [m] is the arithmetic mean of [l] *)
Definition is_mean (l : list Q) (m : Q) : Prop := size l * m == total (fun x => x) l.

(** all values are the same *)
Definition constant (l : list Q) : Prop := forall x y, In x l -> In y l -> x == y.
