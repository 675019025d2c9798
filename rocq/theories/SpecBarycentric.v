(** * Specification of barycentric subdivision *)

From Coq Require Import List Arith ZArith Sorted.
From Verif Require Import Simplex SpecComplex.
Import ListNotations.

(** [F] is a chain (a flag) of simplices of [L], largest first *)
Definition chain (L F : list simplex) : Prop :=
  F <> [] /\ (forall s, In s F -> In s L) /\ StronglySorted (fun s t => proper_face t s) F.

(** [chain_weight functor F]: the data of the simplex that belongs to the chain [F]:
    the data of an original vertex; the scaled data of the largest simplex else *)
Definition chain_weight (functor : nat -> Z) (F : list simplex) : Z :=
  match F with
  | [] => 0%Z
  | [s] => if length (verts s) =? 1 then data s else (data s * functor 0%nat)%Z
  | s :: _ => (data s * functor (length F))%Z
  end.
