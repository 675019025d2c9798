(** * Specification notions for combinatorial curvature. *)

From Coq Require Import List Arith ZArith QArith.
From Verif Require Import Simplex SpecComplex.
Import ListNotations.
Local Open Scope nat_scope.

(** [l] lists the things with property [P], each once *)
Definition lists {A} (P : A -> Prop) (l : list A) : Prop := NoDup l /\ forall x, In x l <-> P x.

(** [f] is a face of [s] with one vertex less *)
Definition codim_one (f s : simplex) : Prop := subset (verts f) (verts s) /\ length (verts s) = S (length (verts f)).

(** the stored cofaces and faces of [s], and the other simplices of its dimension *)
Definition coface_in (L : list simplex) (s t : simplex) : Prop := In t L /\ codim_one s t.
Definition face_in (L : list simplex) (s f : simplex) : Prop := In f L /\ codim_one f s.
Definition sibling_in (L : list simplex) (s t : simplex) : Prop :=
  In t L /\ length (verts t) = length (verts s) /\ ~ set_eq (verts t) (verts s).

(** [s] and [t] are faces of a common simplex, or have a common face *)
Definition share_coface (L : list simplex) (s t : simplex) : Prop := exists u, In u L /\ codim_one s u /\ codim_one t u.
Definition share_face (L : list simplex) (s t : simplex) : Prop := exists f, In f L /\ codim_one f s /\ codim_one f t.

(** Forman's parallel neighbours: exactly one of the two *)
Definition parallel_in (L : list simplex) (s t : simplex) : Prop :=
  sibling_in L s t /\ ((share_face L s t /\ ~ share_coface L s t) \/ (~ share_face L s t /\ share_coface L s t)).

(** [c] is Forman's combinatorial curvature of [s] *)
Definition forman (L : list simplex) (s : simplex) (c : Z) : Prop :=
  exists cofaces faces neighbours,
    lists (coface_in L s) cofaces /\ lists (face_in L s) faces /\ lists (parallel_in L s) neighbours /\
    c = (Z.of_nat (length cofaces) + Z.of_nat (length faces) - Z.of_nat (length neighbours))%Z.

Definition sumQ {A} (f : A -> Q) (l : list A) : Q := fold_right (fun x acc => f x + acc)%Q 0%Q l.
