(** * Model of [topology/SimplicialComplex.hh], [topology/filtrations/*.hh] and
    [topology/Conversions.hh].

    The container (SimplicialComplex.hh 37-45) is a [boost::multi_index] with
    three views: the random-access sequence [by_index] (filtration order), an
    ordered unique index by [operator<], and an ordered non-unique index by
    dimension, [by_dim].  The unique index holds the same elements in
    lexicographic order and is used for searching and for rejecting duplicates
    only, so it is not stored: searching it is searching [by_index] for an
    element with the same vertices.  boost's documented behaviour that is used:
    insertion into the non-unique index happens at the upper bound of the key;
    [replace] keeps the position in an ordered index if the order allows it;
    [sort] of a random-access index is stable; a throwing key extractor leaves
    the container unchanged. *)

From Coq Require Import List Arith Bool ZArith.
From Verif Require Import Base Simplex Matrix.
Import ListNotations.

Record complex := Complex { by_index : list simplex; by_dim : list simplex }.

(** Simplex.hh 258-264 for a non-empty simplex (only those are stored). *)
Definition sdim (s : simplex) : nat := length (verts s) - 1.

(** SimplicialComplex.hh 66-69, 98-101. *)
Definition k_empty : complex := Complex [] [].

(** ** Queries *)

(** SimplicialComplex.hh 312-315. *)
Definition k_contains (K : complex) (s : simplex) : bool := existsb (s_eqb s) (by_index K).

(** SimplicialComplex.hh 332-353: the iterator is represented by its distance
    from [begin()]; [None] is [end()]. *)
Definition k_find (K : complex) (s : simplex) : option nat := position (s_eqb s) (by_index K).

(** The simplex an iterator returned by [find] points to. *)
Definition k_lookup (K : complex) (s : simplex) : option simplex := find (s_eqb s) (by_index K).

(** SimplicialComplex.hh 368-376. *)
Definition k_index (K : complex) (s : simplex) : outcome nat :=
  match k_find K s with Some i => Ok i | None => Throw RuntimeError end.

(** SimplicialComplex.hh 206-209 (unchecked), 218-221 (checked). *)
Definition k_get (K : complex) (i : nat) : outcome simplex := get_ (by_index K) i.
Definition k_at (K : complex) (i : nat) : outcome simplex := at_ (by_index K) i.

(** SimplicialComplex.hh 379-382, 389-392. *)
Definition k_size (K : complex) : nat := length (by_index K).
Definition k_isempty (K : complex) : bool := match by_index K with [] => true | _ => false end.

(** SimplicialComplex.hh 395-401. *)
Definition k_dimension (K : complex) : outcome nat :=
  match last_opt (by_dim K) with
  | Some s => Ok (sdim s)
  | None => Throw RuntimeError
  end.

Fixpoint drop_until {A} (p : A -> bool) (l : list A) : list A :=
  match l with
  | [] => []
  | x :: t => if p x then l else drop_until p t
  end.

Fixpoint take_while {A} (p : A -> bool) (l : list A) : list A :=
  match l with
  | [] => []
  | x :: t => if p x then x :: take_while p t else []
  end.

(** SimplicialComplex.hh 433-437 ([ordered_index::range]): from the first
    element satisfying [lower] up to the first one not satisfying [upper]. *)
Definition k_range_pred (K : complex) (lower upper : nat -> bool) : list simplex :=
  take_while (fun s => upper (sdim s)) (drop_until (fun s => lower (sdim s)) (by_dim K)).

(** SimplicialComplex.hh 415-419. *)
Definition k_range (K : complex) (d : nat) : list simplex :=
  k_range_pred K (fun x => d <=? x) (fun x => x <=? d).

(** SimplicialComplex.hh 280-299: set of the first vertices of the 0-simplices. *)
Definition k_vertices (K : complex) : list nat :=
  fold_left (fun acc s => match verts s with v :: _ => set_insert v acc | [] => acc end)
            (k_range K 0) [].

Fixpoint all2 (l m : list simplex) : bool :=
  match l, m with
  | s :: l', t :: m' => s_eqb s t && all2 l' m'
  | _, _ => true
  end.

(** SimplicialComplex.hh 648-662. *)
Definition k_eqb (K L : complex) : bool :=
  if negb (k_size K =? k_size L) then false else all2 (by_index K) (by_index L).

(** ** Modification *)

(** insertion at the upper bound of the dimension *)
Fixpoint dim_insert (s : simplex) (l : list simplex) : list simplex :=
  match l with
  | [] => [s]
  | t :: l' => if sdim s <? sdim t then s :: l else t :: dim_insert s l'
  end.

(** SimplicialComplex.hh 128-131. *)
Definition k_push_back (K : complex) (s : simplex) : complex * outcome unit :=
  if k_contains K s then (K, Ok tt)
  else match s_dimension s with
       | Throw e => (K, Throw e)
       | _ => (Complex (by_index K ++ [s]) (dim_insert s (by_dim K)), Ok tt)
       end.

(** SimplicialComplex.hh 111-115: boost's range insertion appends one after
    the other; an exception stops it and keeps what has been inserted. *)
Fixpoint k_insert (K : complex) (l : list simplex) : complex * outcome unit :=
  match l with
  | [] => (K, Ok tt)
  | s :: l' =>
      match k_push_back K s with
      | (K', Ok _) => k_insert K' l'
      | (K', r) => (K', r)
      end
  end.

(** SimplicialComplex.hh 78-93: the range constructors. *)
Definition k_of_range (l : list simplex) : outcome complex :=
  match k_insert k_empty l with
  | (K, Ok _) => Ok K
  | (_, Throw e) => Throw e
  | (_, UB) => UB
  | (_, OutOfFuel) => OutOfFuel
  end.

(** the part before and after the element with the vertices of [old] *)
Fixpoint split_at (old : simplex) (l : list simplex) : list simplex * list simplex :=
  match l with
  | [] => ([], [])
  | t :: l' => if s_eqb old t then ([], l')
               else let '(a, b) := split_at old l' in (t :: a, b)
  end.

(** [ordered_index::replace_] for the non-unique dimension index. *)
Definition dim_replace (old s : simplex) (l : list simplex) : list simplex :=
  let '(pre, post) := split_at old l in
  if match last_opt pre with Some y => sdim y <=? sdim s | None => true end &&
     match post with z :: _ => sdim s <=? sdim z | [] => true end
  then pre ++ s :: post
  else dim_insert s (pre ++ post).

(** SimplicialComplex.hh 158-161; [i] is the distance of the iterator from
    [begin()]. *)
Definition k_replace (K : complex) (i : nat) (s : simplex) : complex * outcome bool :=
  match nth_error (by_index K) i with
  | None => (K, UB)
  | Some old =>
      if negb (s_eqb old s) && k_contains K s then (K, Ok false)
      else match s_dimension s with
           | Throw e => (K, Throw e)
           | _ => (Complex (upd (by_index K) i s) (dim_replace old s (by_dim K)), Ok true)
           end
  end.

(** [project<index_t>] followed by [replace]. *)
Definition k_replace_at (K : complex) (old s : simplex) : complex :=
  match k_find K old with
  | Some i => fst (k_replace K i s)
  | None => K
  end.

(** SimplicialComplex.hh 617-620 ([random_access_index::remove]: all equal
    elements). *)
Definition k_remove_without_validation (K : complex) (s : simplex) : complex :=
  Complex (filter (fun t => negb (s_eqb t s)) (by_index K))
          (filter (fun t => negb (s_eqb t s)) (by_dim K)).

(** SimplicialComplex.hh 451-460. *)
Definition k_sort (cmp : simplex -> simplex -> bool) (K : complex) : complex :=
  Complex (cpp_sort cmp (by_index K)) (by_dim K).
Definition k_sort_default (K : complex) : complex := k_sort s_ltb K.

(** SimplicialComplex.hh 142-145; [view] must contain each element exactly once. *)
Definition k_rearrange (K : complex) (view : list simplex) : complex :=
  Complex view (by_dim K).

(** SimplicialComplex.hh 717-733. *)
Definition checkValidity (K : complex) (s : simplex) : bool :=
  forallb (k_contains K) (boundary s).

(** SimplicialComplex.hh 688-707. *)
Definition restore_face (d : Z) (K : complex) (f : simplex) : complex :=
  if k_contains K f then K else fst (k_push_back K (simplex_with_data f d)).
Definition checkAndRestoreValidity (K : complex) (s : simplex) : complex :=
  fold_left (restore_face (data s)) (boundary s) K.

(** SimplicialComplex.hh 634-638: the loop visits the simplices that it appends
    as well.  [i] is the position of the iterator. *)
Fixpoint missing_faces_loop (fuel i : nat) (K : complex) : outcome complex :=
  match nth_error (by_index K) i with
  | None => Ok K
  | Some s =>
      match fuel with
      | 0 => OutOfFuel
      | S f => missing_faces_loop f (S i) (checkAndRestoreValidity K s)
      end
  end.

(** a bound for the number of faces *)
Definition face_bound (K : complex) : nat :=
  fold_right (fun s n => 2 ^ length (verts s) + n) 0 (by_index K).

Definition createMissingFaces (K : complex) : outcome complex :=
  missing_faces_loop (face_bound K) 0 K.

(** SimplicialComplex.hh 597-607: one sweep of the loop in [remove]; only the
    current element is erased, so the traversal is over the old sequence. *)
Definition sweep_step (st : complex * bool) (s : simplex) : complex * bool :=
  if checkValidity (fst st) s then st
  else (k_remove_without_validation (fst st) s, true).
Definition sweep (K : complex) : complex * bool :=
  fold_left sweep_step (by_index K) (K, false).

(** SimplicialComplex.hh 592-608. *)
Fixpoint sweep_loop (fuel : nat) (K : complex) : outcome complex :=
  match fuel with
  | 0 => OutOfFuel
  | S f => match sweep K with
           | (K', true) => sweep_loop f K'
           | (K', false) => Ok K'
           end
  end.

(** SimplicialComplex.hh 586-609. *)
Definition k_remove (K : complex) (s : simplex) : outcome complex :=
  let K1 := k_remove_without_validation K s in
  sweep_loop (S (k_size K1)) K1.

(** ** Weights

    [lowest] and [highest] stand for [std::numeric_limits<DataType>::lowest()]
    and [max()]. *)

(** SimplicialComplex.hh 548-566: weight calculated from stored faces. *)
Definition face_weight (lowest highest : Z) (useMaximum : bool) (K : complex) (s : simplex) : Z :=
  fold_left (fun w f =>
               match k_lookup K f with
               | Some t => if useMaximum then Z.max w (data t) else Z.min w (data t)
               | None => w
               end) (boundary s) (if useMaximum then lowest else highest).

(** SimplicialComplex.hh 535-572. *)
Definition recalculate_step (lowest highest : Z) (useMaximum skipOne : bool) (K : complex) (s : simplex) : complex :=
  if (sdim s =? 0) || (skipOne && (sdim s =? 1)) then K
  else k_replace_at K s (set_data s (face_weight lowest highest useMaximum K s)).
Definition recalculateWeights (lowest highest : Z) (useMaximum skipOne : bool) (K : complex) : complex :=
  fold_left (recalculate_step lowest highest useMaximum skipOne) (by_dim K) K.

(** SimplicialComplex.hh 482-490: reset of all weights *)
Definition reset_weights (highest : Z) (K : complex) : complex :=
  fold_left (fun K s => k_replace_at K s (set_data s highest)) (by_index K) K.

(** SimplicialComplex.hh 492-511: assignment of vertex weights; stops at the
    first simplex that is not a vertex. *)
Fixpoint assign_vertex_weights (weights : list Z) (l : list simplex) (K : complex) : complex * outcome unit :=
  match l with
  | [] => (K, Ok tt)
  | s :: l' =>
      if sdim s =? 0 then
        match verts s with
        | v :: _ => match at_ weights v with
                    | Ok w => assign_vertex_weights weights l' (k_replace_at K s (set_data s w))
                    | _ => (K, Throw OutOfRange)
                    end
        | [] => (K, UB)
        end
      else (K, Ok tt)
  end.

(** SimplicialComplex.hh 473-515: the complex afterwards and how the call ended. *)
Definition recalculateWeights_range (lowest highest : Z) (weights : list Z) (K : complex) : complex * outcome unit :=
  let K1 := reset_weights highest K in
  match assign_vertex_weights weights (by_dim K1) K1 with
  | (K2, Ok _) => (recalculateWeights lowest highest true false K2, Ok tt)
  | r => r
  end.

(** ** Filtrations *)

(** filtrations/Data.hh 21-37 with [Compare = std::less]; dimensions of
    non-empty simplices. *)
Definition data_cmp (s t : simplex) : bool :=
  if (data s =? data t)%Z then
    if sdim s =? sdim t then s_ltb s t else sdim s <? sdim t
  else (data s <? data t)%Z.

(** the same with [Compare = std::greater] *)
Definition data_cmp_greater (s t : simplex) : bool :=
  if (data s =? data t)%Z then
    if sdim s =? sdim t then s_ltb s t else sdim s <? sdim t
  else (data t <? data s)%Z.

(** filtrations/LowerStar.hh 96-104; [_values[v]] is unchecked, see
    [values_cover]. *)
Definition maximumValue (lowest : Z) (values : list Z) (s : simplex) : Z :=
  fold_left (fun m v => Z.max m (nth v values 0%Z)) (verts s) lowest.
(** filtrations/LowerStar.hh 68-86. *)
Definition lower_star_cmp (lowest : Z) (values : list Z) (s t : simplex) : bool :=
  let a := maximumValue lowest values s in
  let b := maximumValue lowest values t in
  if (a <? b)%Z then true else if (a =? b)%Z then s_ltb s t else false.

(** filtrations/UpperStar.hh 84-92. *)
Definition minimumValue (highest : Z) (values : list Z) (s : simplex) : Z :=
  fold_left (fun m v => Z.min m (nth v values 0%Z)) (verts s) highest.
(** filtrations/UpperStar.hh 56-74. *)
Definition upper_star_cmp (highest : Z) (values : list Z) (s t : simplex) : bool :=
  let a := minimumValue highest values s in
  let b := minimumValue highest values t in
  if (b <? a)%Z then true else if (a =? b)%Z then s_ltb s t else false.

(** every unchecked access [_values[v]] is in range *)
Definition values_cover (values : list Z) (K : complex) : bool :=
  forallb (fun s => forallb (fun v => v <? length values) (verts s)) (by_index K).

(** [K.sort( LowerStar(values) )] and [K.sort( UpperStar(values) )]; a value
    missing for some vertex counts as undefined behaviour (also in the cases
    where the sort happens not to look at it). *)
Definition sort_lower_star (lowest : Z) (values : list Z) (K : complex) : outcome complex :=
  if values_cover values K then Ok (k_sort (lower_star_cmp lowest values) K) else UB.
Definition sort_upper_star (highest : Z) (values : list Z) (K : complex) : outcome complex :=
  if values_cover values K then Ok (k_sort (upper_star_cmp highest values) K) else UB.

(** ** Conversion to a boundary matrix *)

(** Conversions.hh 41-49 and 63: [simplex_to_index[face]]; a missing face is
    inserted by [operator[]] with index 0. *)
Definition simplex_to_index (K : complex) (f : simplex) : nat :=
  match k_find K f with Some i => i | None => 0 end.

(** Conversions.hh 53-74; [mx] is [max], 0 meaning no maximum *)
Definition matrix_step (K : complex) (mx : nat) (M : matrix) (js : nat * simplex) : outcome matrix :=
  let '(j, s) := js in
  if (mx =? 0) || (j <? mx)
  then setColumn M j (map (simplex_to_index K) (boundary s))
  else let* d := s_dimension s in setDimension M j d.

(** Conversions.hh 28-78. *)
Definition makeBoundaryMatrix (K : complex) (mx : nat) : outcome matrix :=
  foldM (matrix_step K mx) (combine (seq 0 (k_size K)) (by_index K))
        (setNumColumns empty_matrix (k_size K)).
