(** * Model of [persistentHomology/EulerCharacteristic.hh]; numbers are [Z], i.e.
      [long] does not overflow. *)

From Coq Require Import List Arith Bool ZArith.
From Verif Require Import Base Simplex Complex Diagram.
Import ListNotations.

(** [std::map<std::size_t, std::size_t>]; absent keys read as 0. *)
Definition cardinalities := list (nat * nat).
Definition card_get (m : cardinalities) (d : nat) : nat :=
  match find (fun q => fst q =? d) m with Some q => snd q | None => 0 end.
Fixpoint card_set (m : cardinalities) (d x : nat) : cardinalities :=
  match m with
  | [] => [(d, x)]
  | q :: m' => if fst q =? d then (d, x) :: m'
               else if d <? fst q then (d, x) :: m else q :: card_set m' d x
  end.

(** EulerCharacteristic.hh 31-36 and 65-69: the loop runs over [d < D]. *)
Definition alternating (m : cardinalities) (D : nat) : Z :=
  fst (fold_left (fun st d => (fst st + snd st * Z.of_nat (card_get m d), snd st * -1)%Z) (seq 0 D) (0, 1)%Z).

(** EulerCharacteristic.hh 15-40 *)
Definition euler_step (m : cardinalities) (s : simplex) : outcome cardinalities :=
  let* d := s_dimension s in Ok (card_set m d (card_get m d + 1)).
Definition eulerCharacteristic (K : complex) : outcome Z :=
  if k_isempty K then Ok 0%Z
  else
    let* m := foldM euler_step (by_index K) [] in
    let* D := k_dimension K in
    Ok (alternating m D).

(** EulerCharacteristic.hh 47-74 *)
Definition eulerDiagrams (inf : Z) (l : list diagram) : outcome Z :=
  match l with
  | [] => Ok 0%Z
  | _ =>
      let betti := fold_left (fun m D => card_set m (dgm_dim D) (d_betti inf D)) l [] in
      match last_opt betti with
      | None => UB
      | Some q => Ok (alternating betti (fst q))
      end
  end.
