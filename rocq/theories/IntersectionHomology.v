(** * Model of [calculateIntersectionHomology] in
      [persistentHomology/PhiPersistence.hh].

    A perversity is given by the flag [gm], which says whether it is a
    [PerversityGM], and by its call operator [p]; see [Perversity.v] for the two
    classes of the library.  The pairing is calculated by [a], which is the Twist
    algorithm by default. *)

From Coq Require Import List Arith Bool ZArith.
From Verif Require Import Base Simplex Matrix Complex Subcomplex Intersections Diagram Perversity.
Import ListNotations.

(** PhiPersistence.hh 299-320: the loop over [k] for the simplex [s], where [d]
    is the dimension of the complex; [break] leaves the loop with [false]. *)
Fixpoint admissible_loop (X : list complex) (p : nat -> outcome Z) (d : nat) (s : simplex) (ks : list nat)
  : outcome bool :=
  match ks with
  | [] => Ok true
  | k :: t =>
      let* q := p k in
      if (0 <=? q - Z.of_nat k)%Z then admissible_loop X p d s t
      else
        let* i := s_dimension s in
        let* x := at_ X (d - k) in
        let* r := lastLexicographicalIntersection x s in
        let* b := (if s_empty r then Ok true
                   else let* e := s_dimension r in
                        Ok (Z.of_nat e <=? Z.of_nat i - Z.of_nat k + q)%Z) in
        if b then admissible_loop X p d s t else Ok false
  end.

(** PhiPersistence.hh 287-324: the loop over the complex; [phi] as a list of
    keys and values. *)
Definition admissible_map (gm : bool) (p : nat -> outcome Z) (K : complex) (X : list complex)
  : outcome (list (simplex * bool)) :=
  let* d := k_dimension K in
  let start := if gm then 2 else 1 in
  foldM (fun phi s =>
           let* b := admissible_loop X p d s (seq start (S d - start)) in
           Ok (phi ++ [(s, b)])) (by_index K) [].

(** [phi.at( s )]; keys are compared by their vertices.  Every simplex of [K] is
    a key, so that [at] does not throw; [None] stands for the exception. *)
Definition phi_at (phi : list (simplex * bool)) (s : simplex) : option bool :=
  option_map snd (find (fun q => s_eqb (fst q) s) phi).

(** PhiPersistence.hh 248-261: requirements by Goresky and MacPherson *)
Definition check_gm (gm : bool) (X : list complex) : outcome unit :=
  if gm then
    if length X <=? 2 then Throw RuntimeError
    else
      let* a := get_ (rev X) 1 in
      let* b := get_ (rev X) 2 in
      if negb (k_eqb a b) then Throw RuntimeError else Ok tt
  else Ok tt.

(** PhiPersistence.hh 268-284: consistency of the filtration; the minimum is
    not used *)
Definition check_filtration (K : complex) (X : list complex) : outcome unit :=
  let* d := k_dimension K in
  let* m := foldM (fun m x => if k_isempty K then Ok m
                              else let* e := k_dimension x in Ok (Nat.max m e)) X 0 in
  let* d := k_dimension K in
  if negb (m =? d) then Throw RuntimeError else Ok tt.

(** PhiPersistence.hh 239-345 *)
Definition calculateIntersectionHomology (inf : Z) (order : list nat -> list nat) (a : algorithm)
  (gm : bool) (p : nat -> outcome Z) (K : complex) (X : list complex) (dual : bool)
  : outcome (list diagram) :=
  let* _ := check_gm gm X in
  let* _ := check_filtration K X in
  let* phi := admissible_map gm p K X in
  let '(L, s) := partition_phi K (fun t => match phi_at phi t with Some b => b | None => false end) in
  let* M := makeBoundaryMatrix L s in
  let* B := (if dual then dualize M else Ok M) in
  let* pairing := calculatePersistencePairing order a B true (Some s) in
  makePersistenceDiagrams inf pairing L.
