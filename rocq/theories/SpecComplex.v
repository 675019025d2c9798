(** * Specification notions for simplicial complexes given as sequences of simplices. *)

From Coq Require Import List Arith ZArith.
From Verif Require Import Simplex.
Import ListNotations.

(** [vs] and [ws] are the same set of vertices *)
Definition set_eq (vs ws : list nat) : Prop := forall v, In v vs <-> In v ws.
Definition subset (vs ws : list nat) : Prop := forall v, In v vs -> In v ws.

(** the vertex set [vs] is stored in [L] *)
Definition has (L : list simplex) (vs : list nat) : Prop :=
  exists s, In s L /\ set_eq (verts s) vs.

(** closed under taking non-empty faces *)
Definition closed (L : list simplex) : Prop :=
  forall s vs, In s L -> vs <> [] -> subset vs (verts s) -> has L vs.

(** [t] is a proper face of [s] *)
Definition proper_face (t s : simplex) : Prop :=
  subset (verts t) (verts s) /\ ~ subset (verts s) (verts t).

(** filtration order: no simplex is preceded by one of which it is a proper face *)
Definition filtration_order (L : list simplex) : Prop :=
  forall i j s t, nth_error L i = Some s -> nth_error L j = Some t -> proper_face t s -> j < i.

(** simplices as the constructors make them, none empty, vertex sets distinct *)
Definition proper_simplices (L : list simplex) : Prop :=
  (forall s, In s L -> exists l d, l <> [] /\ s = simplex_of l d) /\
  (forall i j s t, nth_error L i = Some s -> nth_error L j = Some t -> i <> j ->
     ~ set_eq (verts s) (verts t)).

(** data never decreases from a face to a coface *)
Definition monotone (L : list simplex) : Prop :=
  forall s t, In s L -> In t L -> subset (verts t) (verts s) -> (data t <= data s)%Z.

(** [m] is the maximum (minimum) of a function over a non-empty vertex set *)
Definition is_max_over (f : nat -> Z) (vs : list nat) (m : Z) : Prop :=
  (exists v, In v vs /\ f v = m) /\ forall v, In v vs -> (f v <= m)%Z.
Definition is_min_over (f : nat -> Z) (vs : list nat) (m : Z) : Prop :=
  (exists v, In v vs /\ f v = m) /\ forall v, In v vs -> (m <= f v)%Z.

(** [m] is the maximum (minimum) of the data of the simplices of [L] that are
    faces of [s] of dimension [b] *)
Definition is_max_of_faces (L : list simplex) (b : nat) (s : simplex) (m : Z) : Prop :=
  (exists t, In t L /\ subset (verts t) (verts s) /\ length (verts t) = S b /\ data t = m) /\
  (forall t, In t L -> subset (verts t) (verts s) -> length (verts t) = S b -> (data t <= m)%Z).
Definition is_min_of_faces (L : list simplex) (b : nat) (s : simplex) (m : Z) : Prop :=
  (exists t, In t L /\ subset (verts t) (verts s) /\ length (verts t) = S b /\ data t = m) /\
  (forall t, In t L -> subset (verts t) (verts s) -> length (verts t) = S b -> (m <= data t)%Z).
