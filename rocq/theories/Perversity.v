(** * Model of the perversities in [persistentHomology/PhiPersistence.hh]. *)

From Coq Require Import List Arith Bool ZArith.
From Verif Require Import Base.
Import ListNotations.

(** PhiPersistence.hh 80-92: [k] is the position of the value. *)
Definition clamp (k : nat) (x : Z) : Z :=
  if (x <? -1)%Z then (-1)%Z else if (Z.of_nat k <? x)%Z then Z.of_nat k else x.
Definition perversity (values : list Z) : list Z :=
  map (fun q => clamp (fst q) (snd q)) (combine (seq 0 (length values)) values).

(** PhiPersistence.hh 104-110; for [d == 0] the index [d-1] is the largest
    number of type [std::size_t], which is no position of a vector. *)
Definition perversity_at (p : list Z) (d : nat) : outcome Z :=
  if d <? length p + 1 then
    match d with 0 => UB | S k => get_ p k end
  else Ok 0%Z.

(** PhiPersistence.hh 145-153; values of type [unsigned], which are assumed not
    to wrap around. *)
Fixpoint gm_from (previous : nat) (values : list nat) : list nat :=
  match values with
  | [] => []
  | x :: t =>
      let x' := if negb (x =? previous) && negb (x =? previous + 1) then previous + 1 else x in
      x' :: gm_from x' t
  end.
Definition perversityGM (values : list nat) : list nat :=
  match values with [] => [] | x :: t => x :: gm_from x t end.

(** PhiPersistence.hh 165-171 *)
Definition perversityGM_at (p : list nat) (d : nat) : outcome nat :=
  if d <? length p + 2 then
    match d with 0 | 1 => UB | S (S k) => get_ p k end
  else Ok 0.
