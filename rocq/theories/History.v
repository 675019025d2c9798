(** * Histories of public operations on a simplicial complex.

    The operations are given by what the caller hands over; simplices are made
    by the range constructor. *)

From Coq Require Import List Arith Bool ZArith.
From Verif Require Import Base Simplex Matrix Complex.
Import ListNotations.

Inductive kop :=
| PushBack (l : list nat) (d : Z)                     (* push_back( Simplex(l,d) ) *)
| InsertRange (l : list (list nat * Z))               (* insert( begin, end ) *)
| Replace (i : nat) (l : list nat) (d : Z)            (* replace( begin()+i, Simplex(l,d) ) *)
| Remove (l : list nat)                               (* remove( Simplex(l) ) *)
| RemoveWithoutValidation (l : list nat)
| Sort (cmp : simplex -> simplex -> bool)
| Rearrange (view : list nat)                         (* references to the elements at these positions *)
| CreateMissingFaces
| RecalculateWeights (useMaximum skipOne : bool)
| RecalculateWeightsRange (weights : list Z)
| Clear.

Definition drop_value {A} (m : outcome A) : outcome unit := let* _ := m in Ok tt.
Definition keep_on_error (K : complex) (m : outcome complex) : complex * outcome unit :=
  match m with Ok K' => (K', Ok tt) | r => (K, drop_value r) end.

(** One operation: the complex afterwards and how the call ended. *)
Definition k_exec (lowest highest : Z) (K : complex) (o : kop) : complex * outcome unit :=
  match o with
  | PushBack l d => k_push_back K (simplex_of l d)
  | InsertRange l => k_insert K (map (fun p => simplex_of (fst p) (snd p)) l)
  | Replace i l d => let '(K', r) := k_replace K i (simplex_of l d) in (K', drop_value r)
  | Remove l => keep_on_error K (k_remove K (simplex_of l 0))
  | RemoveWithoutValidation l => (k_remove_without_validation K (simplex_of l 0), Ok tt)
  | Sort cmp => (k_sort cmp K, Ok tt)
  | Rearrange view =>
      if list_eqb (cpp_sort Nat.ltb view) (seq 0 (k_size K))
      then (k_rearrange K (map (fun i => nth i (by_index K) simplex_empty) view), Ok tt)
      else (K, UB)
  | CreateMissingFaces => keep_on_error K (createMissingFaces K)
  | RecalculateWeights um sk => (recalculateWeights lowest highest um sk K, Ok tt)
  | RecalculateWeightsRange w => recalculateWeights_range lowest highest w K
  | Clear => (k_empty, Ok tt)
  end.

Definition k_run (lowest highest : Z) (h : list kop) : complex :=
  fold_left (fun K o => fst (k_exec lowest highest K o)) h k_empty.

Definition reachable (K : complex) : Prop := exists lowest highest h, K = k_run lowest highest h.
