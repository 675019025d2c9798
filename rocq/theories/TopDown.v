(** * Model of [geometry/RipsExpanderTopDown.hh].

    The computation of [kMax + 1] and [kMin + 1] does not overflow. *)

From Coq Require Import List Arith Bool ZArith.
From Verif Require Import Base Simplex Complex Quotient MaximalCliques.
Import ListNotations.

(** [std::rotate( begin + a, begin + b, begin + c )] with [a <= b <= c] *)
Definition rotate {A} (a b c : nat) (l : list A) : list A :=
  firstn a l ++ skipn b (firstn c l) ++ skipn a (firstn b l) ++ skipn c l.

(** RipsExpanderTopDown.hh 47-72: searches backwards from [i] for an element
    that is smaller than the last one *)
Fixpoint nc_search (l : list nat) (i : nat) (last : nat) : option nat :=
  match i with
  | 0 => None
  | S i' => if nth i' l 0 <? last then Some i' else nc_search l i' last
  end.

(** RipsExpanderTopDown.hh 29-75 for [first = begin], [k = begin + k] and
    [last = end]: the returned value and the new contents.  The loop for [j] is
    unbounded and would read past the end if there were no larger element. *)
Definition next_combination (k : nat) (l : list nat) : outcome (bool * list nat) :=
  let n := length l in
  if n <? k then UB
  else if (n =? 0) || (k =? 0) || (n =? k) then Ok (false, l)
  else if n =? 1 then Ok (false, l)
  else match nc_search l k (nth (n - 1) l 0) with
       | None => Ok (false, rotate 0 k n l)
       | Some i =>
           match position (fun x => nth i l 0 <? x) (skipn k l) with
           | None => UB
           | Some p =>
               let j := k + p in
               let l := upd (upd l i (nth j l 0)) j (nth i l 0) in
               let l := rotate (i + 1) (j + 1) n l in
               Ok (true, rotate k (k + (n - (j + 1))) n l)
           end
       end.

(** The [do ... while] loops of operator() and of assignMaximumWeight: the
    prefixes of length [k] that are visited and the contents at the end.  There
    are at most [2 ^ length l] of them. *)
Fixpoint combinations_loop (fuel k : nat) (l : list nat) (acc : list (list nat)) : outcome (list (list nat) * list nat) :=
  match fuel with
  | 0 => OutOfFuel
  | S fuel =>
      let acc := acc ++ [firstn k l] in
      let* r := next_combination k l in
      if fst r then combinations_loop fuel k (snd r) acc else Ok (acc, snd r)
  end.
Definition combinations (k : nat) (l : list nat) : outcome (list (list nat) * list nat) :=
  combinations_loop (2 ^ length l) k l [].

(** RipsExpanderTopDown.hh 96-108: the simplices of one clique *)
Definition td_clique (kMax kMin : nat) (simplices : list simplex) (clique : list nat) : outcome (list simplex) :=
  let* r := foldM (fun st k =>
    let* c := combinations k (snd st) in
    Ok (fst st ++ map (fun vs => simplex_of vs 0) (fst c), snd c))
    (seq (kMin + 1) (Nat.min (kMax + 1) (length clique) - kMin)) (simplices, clique) in
  Ok (fst r).

(** RipsExpanderTopDown.hh 86-114 *)
Definition topDown (order : list nat -> list nat -> list nat) (K : complex) (kMax kMin : nat) : outcome complex :=
  let* cliques := maximalCliquesKoch order K in
  let* simplices := foldM (td_clique kMax kMin) cliques [] in
  insert_into k_empty simplices.

(** RipsExpanderTopDown.hh 125-159; [lowest] is the lowest number of the data type *)
Definition td_weight (lowest : Z) (S : complex) (dimension : nat) (s : simplex) : outcome Z :=
  let* c := combinations (dimension + 1) (cpp_sort Nat.ltb (verts s)) in
  Ok (fold_left (fun w vs => match k_lookup S (simplex_of vs 0) with Some t => Z.max w (data t) | None => w end) (fst c) lowest).
Definition td_assign (lowest : Z) (S : complex) (dimension : nat) (R : complex) (s : simplex) : outcome complex :=
  let* d := s_dimension s in
  if d <? dimension then insert_into R [s]
  else
    let* w := td_weight lowest S dimension s in
    insert_into R [set_data s w].
Definition td_assignMaximumWeight (lowest : Z) (K S : complex) (dimension : nat) : outcome complex :=
  foldM (td_assign lowest S dimension) (by_index K) k_empty.
