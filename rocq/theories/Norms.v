(** * Model of [persistenceDiagrams/Norms.hh] and [persistenceDiagrams/Extraction.hh].

    Coordinates are [Z] with exact arithmetic; the exponent of [std::pow] is a
    natural number [k] (the code also accepts negative and fractional ones).
    [std::pow( x, 1/p )] is the parameter [root]. *)

From Coq Require Import List Arith Bool ZArith QArith.
From Verif Require Import Base Diagram Hausdorff.
Import ListNotations.
Local Open Scope nat_scope.

(** PersistenceDiagram.hh 45-48 *)
Definition point_persistence (p : point) : Z := (snd p - fst p)%Z.

(** Norms.hh 28-46; KahanSummation.hh 26-34 *)
Definition totalPersistence (D : diagram) (k : nat) (weighted : bool) : Z :=
  if negb weighted
  then fst (fold_left (fun result p => kahan_add result (Z.abs (point_persistence p) ^ Z.of_nat k)%Z) (points D) (0%Z, 0%Z))
  else fst (fold_left (fun result p => kahan_add result (Z.abs (fst p) * Z.abs (point_persistence p) ^ Z.of_nat k)%Z) (points D) (0%Z, 0%Z)).

(** Norms.hh 49-57 *)
Definition pNorm (root : nat -> Z -> Z) (D : diagram) (p : nat) (weighted : bool) : outcome Z :=
  if p =? 0 then Throw RuntimeError else Ok (root p (totalPersistence D p weighted)).

(** [std::max_element] followed by the dereferencing; the end iterator of an
    empty range must not be dereferenced *)
Definition max_element (l : list Z) : outcome Z :=
  match l with
  | [] => UB
  | x :: t => Ok (fold_left (fun largest y => if (largest <? y)%Z then y else largest) t x)
  end.

(** Norms.hh 66-77 *)
Definition infinityNorm (D : diagram) : outcome Z :=
  match points D with
  | [] => Ok 0%Z
  | _ => max_element (fold_left (fun values p => values ++ [Z.abs (point_persistence p)]) (points D) [])
  end.

(** Extraction.hh 20-27: the values written to the output iterator *)
Definition persistence_values (D : diagram) (useAbsoluteValue : bool) : list Z :=
  map (fun p => if useAbsoluteValue then Z.abs (point_persistence p) else point_persistence p) (points D).

(** [std::count] *)
Definition count_points (p : point) (l : list point) : nat := length (filter (fun q => point_eqb q p) l).

(** Extraction.hh 47-54 *)
Definition extraction_ltb (p q : point) : bool :=
  if (fst p =? fst q)%Z then (snd p <? snd q)%Z else (fst p <? fst q)%Z.

(** Extraction.hh 35-67 *)
Definition weightedPersistence (D : diagram) : list Q :=
  let ps := cpp_sort extraction_ltb (points D) in
  map (fun p => (inject_Z (Z.of_nat (count_points p ps)) / inject_Z (Z.of_nat (length ps)) * inject_Z (point_persistence p))%Q)
      (cpp_unique point_eqb ps).
