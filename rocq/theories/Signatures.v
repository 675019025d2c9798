(** * Model of the functions of [src/tools/wicked_triangulations.cc].

    Betti numbers are natural numbers; the Euler characteristic is of type [long]
    and is assumed not to overflow, nor does the number of perversities.  Output and
    the main program, which calls modelled functions only, are not modelled. *)

From Coq Require Import List Arith Bool ZArith.
From Verif Require Import Base Diagram Perversity.
Import ListNotations.

(** wicked_triangulations.cc 43-47: [std::lexicographical_compare] *)
Fixpoint signature_ltb (a b : list nat) : bool :=
  match a, b with
  | _, [] => false
  | [], _ :: _ => true
  | x :: a', y :: b' => if x <? y then true else if y <? x then false else signature_ltb a' b'
  end.

(** wicked_triangulations.cc 49-61 *)
Definition euler_step (st : Z * bool) (betti : nat) : Z * bool :=
  let chi := fst st in
  let s := snd st in
  ((if s then chi + Z.of_nat betti else chi - Z.of_nat betti)%Z, negb s).
Definition signature_euler (betti : list nat) : Z := fst (fold_left euler_step betti (0%Z, true)).

(** wicked_triangulations.cc 95-108 *)
Definition signature_step (inf : Z) (betti : list nat) (D : diagram) : outcome (list nat) :=
  let* _ := at_ betti (dgm_dim D) in
  Ok (upd betti (dgm_dim D) (d_betti inf D)).
Definition makeSignature (inf : Z) (diagrams : list diagram) (D : nat) : outcome (list nat) :=
  foldM (signature_step inf) diagrams (repeat 0 (D + 1)).

(** wicked_triangulations.cc 121-132: the values in dimension [d], from -1 to [d] *)
Definition possible_values (d : nat) : list Z := map (fun k => Z.of_nat k - 1)%Z (seq 0 (d + 2)).

(** wicked_triangulations.cc 134-137 *)
Definition num_combinations (dimension : nat) : nat :=
  fold_left (fun n d => n * length (possible_values d)) (seq 0 dimension) 1.

(** wicked_triangulations.cc 151-155 *)
Definition current_values (indices : list nat) (dimension : nat) : outcome (list Z) :=
  foldM (fun values d => let* index := at_ indices d in
                         let* v := at_ (possible_values d) index in
                         Ok (values ++ [v])) (seq 0 dimension) [].

(** wicked_triangulations.cc 169-179: [d] more positions are left, the next one is [d-1] *)
Fixpoint propagate (d : nat) (indices : list nat) : outcome (list nat) :=
  match d with
  | O => Ok indices
  | S D =>
      let* v := at_ indices D in
      let indices' := upd indices D (v + 1) in
      if v + 1 <? length (possible_values D) then Ok indices' else propagate D (upd indices' D 0)
  end.

(** wicked_triangulations.cc 160-180; for the dimension zero [dimension - 1] is the
    largest number of type [unsigned], which is no position of a vector *)
Definition next_indices (dimension : nat) (indices : list nat) : outcome (list nat) :=
  match dimension with
  | O => Throw OutOfRange
  | S last =>
      let* v := at_ indices last in
      let indices' := upd indices last (v + 1) in
      if length (possible_values last) <=? v + 1 then propagate last (upd indices' last 0) else Ok indices'
  end.

(** wicked_triangulations.cc 115-186 *)
Definition perversity_step (dimension : nat) (st : list nat * list (list Z)) (_ : nat) : outcome (list nat * list (list Z)) :=
  let* values := current_values (fst st) dimension in
  let* indices := next_indices dimension (fst st) in
  Ok (indices, snd st ++ [perversity values]).
Definition getPerversities (dimension : nat) : outcome (list (list Z)) :=
  let* st := foldM (perversity_step dimension) (seq 0 (num_combinations dimension)) (repeat 0 dimension, []) in
  Ok (snd st).
