(** * Model of [topology/CombinatorialCurvature.hh].

    The dimension of the simplices is taken as [sdim], because all of them are
    stored in a complex and none is empty.  Weights are the (integral) data of
    the simplices, calculations with them are exact in [Q], and [std::sqrt] is a
    parameter; the theorems are about positive weights. *)

From Coq Require Import List Arith Bool ZArith QArith Qabs.
From Verif Require Import Base Simplex Complex Subcomplex.
Import ListNotations.
Local Open Scope nat_scope.

(** CombinatorialCurvature.hh 34-48: [twoPi] is [2*M_PI] and [acosInv n] is
    [std::acos( 1.0 / n )]; [n-2] wraps around for complexes of dimension 0 and
    1, which makes the range empty *)
Definition angleDefectCurvature (twoPi : Q) (acosInv : nat -> Q) (K : complex) : outcome (list Q) :=
  let* n := k_dimension K in
  foldM (fun result s =>
    let* degree := n_degree K s in
    Ok (result ++ [(twoPi - acosInv n * inject_Z (Z.of_nat degree))%Q])) (if n <? 2 then [] else k_range K (n - 2)) [].

(** CombinatorialCurvature.hh 50-53 *)
Definition hasFace (s f : simplex) : bool := existsb (s_eqb f) (boundary s).

(** [std::set_intersection] of two ranges sorted by [operator<] *)
Fixpoint set_intersection (l m : list simplex) : list simplex :=
  match l with
  | [] => []
  | x :: l' =>
      (fix inner (m : list simplex) : list simplex :=
         match m with
         | [] => []
         | y :: m' => if s_ltb x y then set_intersection l' m
                      else if s_ltb y x then inner m'
                      else x :: set_intersection l' m'
         end) m
  end.

(** CombinatorialCurvature.hh 62-69: the output is sorted, so that inserting it
    into a set changes nothing *)
Definition commonBoundary (s t : simplex) : list simplex := set_intersection (boundary s) (boundary t).

(** CombinatorialCurvature.hh 55-90 *)
Definition parallelNeighbours (K : complex) (s t : simplex) : bool :=
  if negb (sdim s =? sdim t) then false
  else
    let condition1 := negb (length (commonBoundary s t) =? 0) in
    let condition2 := existsb (fun u => hasFace u s && hasFace u t) (k_range K (sdim s + 1)) in
    negb (Bool.eqb condition1 condition2).

(** CombinatorialCurvature.hh 92-115: [VertexType] is an unsigned type with
    [modulus] values *)
Definition curvature (modulus : Z) (K : complex) (p : nat) : list Z :=
  map (fun s =>
    let numCofaces := length (filter (fun t => hasFace t s) (k_range K (sdim s + 1))) in
    let numParallelNeighbours := length (filter (fun t => parallelNeighbours K s t) (k_range K (sdim s))) in
    ((Z.of_nat numCofaces + Z.of_nat (s_size s) - Z.of_nat numParallelNeighbours) mod modulus)%Z) (k_range K p).

(** CombinatorialCurvature.hh 117-138 *)
Definition commonCofaces (K : complex) (s t : simplex) : list simplex :=
  if negb (sdim s =? sdim t) then []
  else filter (fun u => hasFace u s && hasFace u t) (k_range K (sdim s + 1)).

(** CombinatorialCurvature.hh 140-164: the result of [find] is dereferenced
    without a check *)
Definition commonFaces (K : complex) (s t : simplex) : outcome (list simplex) :=
  if negb (sdim s =? sdim t) then Ok []
  else foldM (fun faces f => match k_lookup K f with Some g => Ok (faces ++ [g]) | None => UB end) (commonBoundary s t) [].

(** KahanSummation.hh 83-95 *)
Definition kahanQ_add (st : Q * Q) (v : Q) : Q * Q :=
  (let y := v - snd st in
   let t := fst st + y in
   (t, (t - fst st) - y))%Q.
Definition Qltb (x y : Q) : bool := negb (Qle_bool y x).
Definition kahanQ_sorted (values : list Q) : Q := fst (fold_left kahanQ_add (cpp_sort Qltb values) (0%Q, 0%Q)).

(** [data] *)
Definition weight_of (s : simplex) : Q := inject_Z (data s).

(** CombinatorialCurvature.hh 174-230: the body of the loop *)
Definition weighted_value (sqrt : Q -> Q) (K : complex) (s : simplex) : outcome Q :=
  (** 179-187 *)
  let weights_Cofaces := map (fun t => (weight_of s / weight_of t)%Q) (filter (fun t => existsb (s_eqb s) (boundary t)) (k_range K (sdim s + 1))) in
  (** 189-198 *)
  let weights_Faces := fold_left (fun l f => match k_lookup K f with Some g => l ++ [(weight_of g / weight_of s)%Q] | None => l end) (boundary s) [] in
  (** 200-221 *)
  let* common := foldM (fun (acc : list Q * list Q) t =>
      if s_eqb t s then Ok acc
      else
        let cofaces := commonCofaces K t s in
        let* faces := commonFaces K t s in
        let weight := sqrt (weight_of s * weight_of t)%Q in
        Ok (fst acc ++ map (fun c => (weight / weight_of c)%Q) cofaces, snd acc ++ map (fun f => (weight_of f / weight)%Q) faces))
    (k_range K (sdim s)) ([], []) in
  (** 223-229 *)
  let s11 := kahanQ_sorted weights_Cofaces in
  let s12 := kahanQ_sorted weights_Faces in
  let s21 := kahanQ_sorted (fst common) in
  let s22 := kahanQ_sorted (snd common) in
  Ok (weight_of s * ((s11 + s12) - Qabs (s21 - s22)))%Q.

(** CombinatorialCurvature.hh 166-232 *)
Definition weightedCurvature (sqrt : Q -> Q) (K : complex) (p : nat) : outcome (list Q) :=
  foldM (fun result s => let* c := weighted_value sqrt K s in Ok (result ++ [c])) (k_range K p) [].
