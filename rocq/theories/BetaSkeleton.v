(** * Model of [geometry/BetaSkeleton.hh], and of the operators of
    [utilities/ContainerOperators.hh] that it uses.

    Coordinates are integers (a finite set of rational points can be scaled),
    everything else is calculated with rational numbers instead of [double].  The
    functor is represented by the square of the distance, [sq]: the square root
    is taken to calculate a radius, and only the square of the radius is used.
    The weight of an edge is the square of the distance. *)

From Coq Require Import List Arith Bool ZArith QArith.
From Verif Require Import Base Simplex Complex.
Import ListNotations.
Local Open Scope nat_scope.

(** ContainerOperators.hh 46-59 and 70-80; the second one has an assertion *)
Definition v_scale (lambda : Q) (v : list Q) : list Q := map (fun x => (lambda * x)%Q) v.
Definition v_add (lhs rhs : list Q) : outcome (list Q) :=
  if length lhs =? length rhs then Ok (map (fun q => (fst q + snd q)%Q) (combine lhs rhs)) else Throw Terminated.

(** BetaSkeleton.hh 27-57 *)
Record ball := Ball { centre : list Q; radius_sq : Q }.
Definition ball_make (centre : list Q) (diameter_sq : Q) : ball := Ball centre ((1 # 4) * diameter_sq)%Q.
Definition ball_contains (b : ball) (other : list Z) : outcome bool :=
  let* distance := foldM (fun distance i =>
    let* c := get_ (centre b) i in
    let* o := get_ other i in
    Ok (distance + (c - inject_Z o) * (c - inject_Z o))%Q) (seq 0 (length (centre b))) 0%Q in
  Ok (Qle_bool distance (radius_sq b)).

(** 63-96 *)
Definition lune_make (p q : list Z) (beta : Q) (d_sq : Z) : outcome (ball * ball) :=
  let p := map inject_Z p in
  let q := map inject_Z q in
  let* centreP := v_add (v_scale (1 - (1 # 2) * beta) p) (v_scale ((1 # 2) * beta) q) in
  let* centreQ := v_add (v_scale (1 - (1 # 2) * beta) q) (v_scale ((1 # 2) * beta) p) in
  let diameter_sq := (beta * beta * inject_Z d_sq)%Q in
  Ok (ball_make centreP diameter_sq, ball_make centreQ diameter_sq).
Definition lune_contains (l : ball * ball) (r : list Z) : outcome bool :=
  let* b := ball_contains (fst l) r in
  if b then ball_contains (snd l) r else Ok false.

(** 145-152: the loop over [r], which is left at the first point of the lune *)
Fixpoint blocked (container : list (list Z)) (l : ball * ball) (i j : nat) (rs : list nat) : outcome bool :=
  match rs with
  | [] => Ok false
  | r :: rs =>
      let* R := get_ container r in
      let* b := if negb (r =? i) && negb (r =? j) then lune_contains l R else Ok false in
      if b then Ok true else blocked container l i j rs
  end.

Section Skeleton.
  Variable sq : list Z -> list Z -> Z.
  (** 127-156: the loop over [j] *)
  Definition beta_step (container : list (list Z)) (beta : Q) (i : nat) (K : complex) (j : nat) : outcome complex :=
    let* p := get_ container i in
    let* q := get_ container j in
    let dist := sq p q in
    let* lune := lune_make p q beta dist in
    let* b := blocked container lune i j (seq 0 (length container)) in
    Ok (if b then K else fst (k_push_back K (simplex_of [i; j] dist))).

  (** 99-160 *)
  Definition buildBetaSkeletonNaive (container : list (list Z)) (beta : Q) : outcome complex :=
    let n := length container in
    let K := fold_left (fun K i => fst (k_push_back K (simplex_vertex i 0))) (seq 0 n) k_empty in
    foldM (fun K i => foldM (beta_step container beta i) (seq (i + 1) (n - (i + 1))) K) (seq 0 n) K.
End Skeleton.

(** the square of the Euclidean distance (distances/Euclidean.hh) of points with the same dimension *)
Definition euclidean_sq (p q : list Z) : Z :=
  fold_left (fun s x => (s + (fst x - snd x) * (fst x - snd x))%Z) (combine p q) 0%Z.
