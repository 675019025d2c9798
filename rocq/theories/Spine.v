(** * Model of [topology/Spine.hh] and of the intersection of two simplices in
    [topology/Intersections.hh].

    Hash maps are lists of entries with different keys.  Which entry [begin()]
    of a hash map refers to is given by [pick], a function of the number of
    completed iterations: every implementation of hash maps is covered by some
    [pick]. *)

From Coq Require Import List Arith Bool ZArith.
From Verif Require Import Base Simplex Matrix Complex.
Import ListNotations.

(** [std::set_intersection] of the two sets of vertices *)
Definition common_vertices (s t : simplex) : list nat :=
  filter (fun v => mem v (set_insert_range (verts t) [])) (set_insert_range (verts s) []).

(** Intersections.hh 24-39 *)
Definition sizeOfIntersection (s t : simplex) : nat := length (common_vertices s t).

(** Intersections.hh 47-62 *)
Definition s_intersect (s t : simplex) : simplex := simplex_of (common_vertices s t) 0.

(** ** [std::unordered_map<Simplex, Simplex>] *)
Definition admissible_map := list (simplex * simplex).
(** [insert]: does nothing if the key is present *)
Definition adm_insert (m : admissible_map) (s t : simplex) : admissible_map :=
  if existsb (fun p => s_eqb (fst p) s) m then m else m ++ [(s, t)].
Definition adm_erase (m : admissible_map) (s : simplex) : admissible_map :=
  filter (fun p => negb (s_eqb (fst p) s)) m.
(** [begin()] for a map that is not empty *)
Definition adm_begin (choice : nat) (m : admissible_map) : simplex * simplex :=
  nth (choice mod length m) m (simplex_empty, simplex_empty).

(** ** Spine.hh 22-225: namespace [dumb] *)

(** Spine.hh 29-53 *)
Definition dumb_isPrincipal (s : simplex) (K : complex) : outcome bool :=
  let* d := s_dimension s in
  if d =? 0 then Ok false
  else Ok (forallb (fun t => negb (sizeOfIntersection s t =? s_size s)) (k_range K (d + 1))).

(** Spine.hh 60-109; the empty simplex stands for failure.  (The vector of flags
    marks the faces without another coface; the first of them is returned.) *)
Definition dumb_isAdmissible (s : simplex) (K : complex) : outcome simplex :=
  let* p := dumb_isPrincipal s K in
  if negb p then Ok simplex_empty
  else
    let* d := s_dimension s in
    match find (fun face => forallb (fun t => s_eqb t s || negb (sizeOfIntersection face t =? s_size face)) (k_range K d))
               (boundary s) with
    | Some face => Ok face
    | None => Ok simplex_empty
    end.

(** Spine.hh 141-171: the first face that is not a face of another simplex.  The
    complex [M] is a copy of [L].  No stored simplex and no face is empty, so
    that [dimension()] does not throw. *)
Definition dumb_freeFace (L : complex) (s : simplex) : option simplex :=
  find (fun face => negb (existsb (fun t =>
          (sdim face + 1 =? sdim t) && negb (s_eqb t s) && s_eqb (s_intersect face t) face) (by_index L)))
       (boundary s).

(** Spine.hh 116-190 *)
Definition dumb_principalFaces (L : complex) : admissible_map :=
  let admissible := fold_left (fun m s =>
    if sdim s =? 0 then m
    else match dumb_freeFace L s with Some face => adm_insert m s face | None => m end) (by_index L) [] in
  fold_left (fun m s => fold_left adm_erase (boundary s) m) (by_index L) admissible.

(** Spine.hh 206-223 *)
Fixpoint dumb_loop (pick : nat -> nat) (fuel step : nat) (L : complex) (admissible : admissible_map) : outcome complex :=
  match admissible with
  | [] => Ok L
  | _ =>
      match fuel with
      | 0 => OutOfFuel
      | S fuel =>
          let '(s, t) := adm_begin (pick step) admissible in
          let L := k_remove_without_validation (k_remove_without_validation L s) t in
          dumb_loop pick fuel (S step) L (dumb_principalFaces L)
      end
  end.
Definition dumb_spine (pick : nat -> nat) (K : complex) : outcome complex :=
  dumb_loop pick (k_size K) 0 K (dumb_principalFaces K).

(** ** Spine.hh 239: [std::unordered_map<Simplex, std::unordered_set<Simplex> >] *)
Definition coface_map := list (simplex * list simplex).
Definition cof_find (m : coface_map) (s : simplex) : option (list simplex) :=
  option_map snd (find (fun p => s_eqb (fst p) s) m).
Definition cof_at (m : coface_map) (s : simplex) : outcome (list simplex) :=
  match cof_find m s with Some l => Ok l | None => Throw OutOfRange end.
(** the effect of changing [m[s]] by [f]; a missing entry is created *)
Fixpoint cof_change (f : list simplex -> list simplex) (m : coface_map) (s : simplex) : coface_map :=
  match m with
  | [] => [(s, f [])]
  | (k, l) :: r => if s_eqb k s then (k, f l) :: r else (k, l) :: cof_change f r s
  end.
Definition cof_erase (m : coface_map) (s : simplex) : coface_map :=
  filter (fun p => negb (s_eqb (fst p) s)) m.
(** [unordered_set]: [insert], [erase], [find] *)
Definition sset_insert (s : simplex) (l : list simplex) : list simplex :=
  if existsb (s_eqb s) l then l else l ++ [s].
Definition sset_erase (s : simplex) (l : list simplex) : list simplex :=
  filter (fun t => negb (s_eqb s t)) l.
Definition sset_mem (s : simplex) (l : list simplex) : bool := existsb (s_eqb s) l.

(** Spine.hh 241-260 *)
Definition buildCofaceMap (K : complex) : coface_map :=
  fold_left (fun m s =>
    let m := match cof_find m s with None => cof_change (fun _ => []) m s | Some _ => m end in
    fold_left (fun m face => cof_change (sset_insert s) m face) (boundary s) m) (by_index K) [].

(** Spine.hh 268-271 *)
Definition isPrincipal (m : coface_map) (s : simplex) : outcome bool :=
  let* l := cof_at m s in Ok (match l with [] => true | _ => false end).

(** Spine.hh 281-296 *)
Fixpoint firstFreeFace (m : coface_map) (s : simplex) (faces : list simplex) : outcome simplex :=
  match faces with
  | [] => Ok simplex_empty
  | face :: faces =>
      let* l := cof_at m face in
      if (length l =? 1) && sset_mem s l then Ok face else firstFreeFace m s faces
  end.
Definition getFreeFace (m : coface_map) (s : simplex) : outcome simplex :=
  let* p := isPrincipal m s in
  if negb p then Ok simplex_empty else firstFreeFace m s (boundary s).

(** Spine.hh 304-319 and 375-396: the search for admissible simplices in a range *)
Definition addAdmissible (m : coface_map) (admissible : admissible_map) (s : simplex) : outcome admissible_map :=
  let* face := getFreeFace m s in
  Ok (if s_empty face then admissible else adm_insert admissible s face).
Definition getPrincipalFaces (m : coface_map) (K : complex) : outcome admissible_map :=
  foldM (addAdmissible m) (by_index K) [].

(** Spine.hh 347-358 *)
Definition removeSimplices (s t : simplex) (m : coface_map) (sigma : simplex) : outcome coface_map :=
  let* _ := cof_at m sigma in
  Ok (cof_change (sset_erase t) (cof_change (sset_erase s) m sigma) sigma).

(** Spine.hh 335-403 *)
Definition spine_step (L : complex) (m : coface_map) (admissible : admissible_map) (s t : simplex)
    : outcome (complex * coface_map * admissible_map) :=
  let L := k_remove_without_validation (k_remove_without_validation L s) t in
  let admissible := adm_erase admissible s in
  let* m := foldM (removeSimplices s t) (boundary s) m in
  let* m := foldM (removeSimplices s t) (boundary t) m in
  let m := cof_erase (cof_erase m s) t in
  let* admissible := foldM (fun a face => if negb (s_eqb t face) then addAdmissible m a face else Ok a) (boundary s) admissible in
  let* admissible := foldM (addAdmissible m) (boundary t) admissible in
  let* admissible := match admissible with [] => getPrincipalFaces m L | _ => Ok admissible end in
  Ok (L, m, admissible).

Fixpoint spine_loop (pick : nat -> nat) (fuel step : nat) (L : complex) (m : coface_map) (admissible : admissible_map) : outcome complex :=
  match admissible with
  | [] => Ok L
  | _ =>
      match fuel with
      | 0 => OutOfFuel
      | S fuel =>
          let '(s, t) := adm_begin (pick step) admissible in
          let* r := spine_step L m admissible s t in
          let '(L, m, admissible) := r in
          spine_loop pick fuel (S step) L m admissible
      end
  end.

(** Spine.hh 329-406 *)
Definition spine (pick : nat -> nat) (K : complex) : outcome complex :=
  let m := buildCofaceMap K in
  let* admissible := getPrincipalFaces m K in
  spine_loop pick (k_size K) 0 K m admissible.
