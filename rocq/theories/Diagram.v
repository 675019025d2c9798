(** * Model of [persistenceDiagrams/PersistenceDiagram.hh],
      [persistenceDiagrams/Calculation.hh] and
      [calculatePersistenceDiagram(s)] of [persistentHomology/Calculation.hh].

    [DataType] is [Z].  The second coordinate of an unpaired point is
    [std::numeric_limits<DataType>::infinity()] or [max()]; this value is the
    parameter [inf]. *)

From Coq Require Import List Arith Bool ZArith.
From Verif Require Import Base Simplex Matrix Complex.
Import ListNotations.

(** PersistenceDiagram.hh 24-77 *)
Definition point : Set := Z * Z.

(** PersistenceDiagram.hh 28-34 *)
Definition unpaired_point (inf : Z) (x : Z) : point := (x, inf).

(** PersistenceDiagram.hh 50-53, 60-66, 68-72 *)
Definition point_eqb (p q : point) : bool := (fst p =? fst q)%Z && (snd p =? snd q)%Z.
Definition point_ltb (p q : point) : bool :=
  if (fst p =? fst q)%Z then (snd p <? snd q)%Z else (fst p <? fst q)%Z.
Definition isUnpaired (inf : Z) (p : point) : bool := (snd p =? inf)%Z.

(** PersistenceDiagram.hh 239-243 *)
Record diagram := Diagram { dgm_dim : nat; points : list point }.
Definition empty_diagram : diagram := Diagram 0 [].

(** PersistenceDiagram.hh 99-107 *)
Definition d_add (D : diagram) (p : point) : diagram := Diagram (dgm_dim D) (points D ++ [p]).

(** PersistenceDiagram.hh 136-146 *)
Definition removeDiagonal (D : diagram) : diagram :=
  Diagram (dgm_dim D) (filter (fun p => negb (fst p =? snd p)%Z) (points D)).

(** PersistenceDiagram.hh 149-159 *)
Definition removeUnpaired (inf : Z) (D : diagram) : diagram :=
  Diagram (dgm_dim D) (filter (fun p => negb (isUnpaired inf p)) (points D)).

(** [std::set<Point>::insert] *)
Fixpoint pset_insert (p : point) (l : list point) : list point :=
  match l with
  | [] => [p]
  | q :: t => if point_ltb q p then q :: pset_insert p t
              else if point_ltb p q then p :: l else l
  end.

(** PersistenceDiagram.hh 168-174 *)
Definition removeDuplicates (D : diagram) : diagram :=
  Diagram (dgm_dim D) (fold_left (fun acc p => pset_insert p acc) (points D) []).

(** PersistenceDiagram.hh 184-188 *)
Definition d_merge (D E : diagram) : diagram := Diagram (dgm_dim D) (points D ++ points E).

(** PersistenceDiagram.hh 204-207: [std::vector]'s equality; dimensions are not compared. *)
Fixpoint points_eqb (l m : list point) : bool :=
  match l, m with
  | [], [] => true
  | p :: l', q :: m' => point_eqb p q && points_eqb l' m'
  | _, _ => false
  end.
Definition d_eqb (D E : diagram) : bool := points_eqb (points D) (points E).

(** PersistenceDiagram.hh 217-227 *)
Definition d_betti (inf : Z) (D : diagram) : nat := length (filter (isUnpaired inf) (points D)).

(** PersistenceDiagram.hh 229-237 *)
Definition d_size (D : diagram) : nat := length (points D).

(** ** persistenceDiagrams/Calculation.hh *)

(** [std::map<std::size_t, PersistenceDiagram>]: [map[d].add( p )] *)
Fixpoint dmap_add (d : nat) (p : point) (m : list (nat * diagram)) : list (nat * diagram) :=
  match m with
  | [] => [(d, d_add empty_diagram p)]
  | (k, D) :: t =>
      if k =? d then (k, d_add D p) :: t
      else if d <? k then (d, d_add empty_diagram p) :: m
      else (k, D) :: dmap_add d p t
  end.

(** Calculation.hh 30-49.  An unpaired creator has destroyer [None], which
    stands for the largest index and hence is not smaller than [K.size()]. *)
Definition make_step (inf : Z) (K : complex) (m : list (nat * diagram)) (q : nat * option nat)
  : outcome (list (nat * diagram)) :=
  let* s := k_at K (fst q) in
  let* d := s_dimension s in
  match snd q with
  | Some j =>
      if j <? k_size K then
        let* t := k_at K j in Ok (dmap_add d (data s, data t) m)
      else Ok (dmap_add d (unpaired_point inf (data s)) m)
  | None => Ok (dmap_add d (unpaired_point inf (data s)) m)
  end.

(** Calculation.hh 21-71 *)
Definition makePersistenceDiagrams (inf : Z) (pairing : list (nat * option nat)) (K : complex)
  : outcome (list diagram) :=
  let* m := foldM (make_step inf K) pairing [] in
  Ok (cpp_sort (fun D E => dgm_dim D <? dgm_dim E)
        (map (fun q => Diagram (fst q) (points (snd q))) m)).

(** Calculation.hh 79-100; [None] stands for the largest index, which is no
    position of a vector. *)
Definition function_step (values : list Z) (D : diagram) (q : nat * option nat) : outcome diagram :=
  let* x := at_ values (fst q) in
  let* y := match snd q with Some j => at_ values j | None => Throw OutOfRange end in
  Ok (d_add D (x, y)).
Definition makePersistenceDiagram (pairing : list (nat * option nat)) (values : list Z) : outcome diagram :=
  foldM (function_step values) pairing empty_diagram.

(** persistentHomology/Calculation.hh 167-179 *)
Definition calculatePersistenceDiagrams (inf : Z) (order : list nat -> list nat) (a : algorithm)
  (K : complex) (dual all : bool) : outcome (list diagram) :=
  let* M := makeBoundaryMatrix K 0 in
  let* B := (if dual then dualize M else Ok M) in
  let* p := calculatePersistencePairing order a B all None in
  makePersistenceDiagrams inf p K.

(** persistentHomology/Calculation.hh 197-206: unpaired creators of the largest
    dimension are not included. *)
Definition calculatePersistenceDiagram (order : list nat -> list nat) (a : algorithm)
  (M : matrix) (values : list Z) : outcome diagram :=
  let* p := calculatePersistencePairing order a M false None in
  makePersistenceDiagram p values.
