(** * Model of the tool [src/tools/clique_persistence_diagram.cc], from the sorted, expanded
      complex on. *)

From Coq Require Import List Arith Bool ZArith.
From Verif Require Import Base Simplex Complex Diagram Components CliqueGraph Functors.
Import ListNotations.

(** clique_persistence_diagram.cc 167-201.  The maps are association lists; an access to a
    missing entry yields the default value.  Weights are integers, counters are unbounded. *)
Record ccif := Ccif {
  cc_vim : list (nat * (nat * Z));       (* number of communities, accumulated persistence *)
  cc_cs : sizes;
  cc_cc : list (nat * list nat);
  cc_destruction : Z
}.

Definition vim_of (m : list (nat * (nat * Z))) (v : nat) : nat * Z :=
  match find (fun q => fst q =? v) m with Some q => snd q | None => (0, 0%Z) end.
Definition set_vim (m : list (nat * (nat * Z))) (v : nat) (a : nat * Z) := (v, a) :: filter (fun q => negb (fst q =? v)) m.
Definition cc_of (m : list (nat * list nat)) (v : nat) : list nat :=
  match find (fun q => fst q =? v) m with Some q => snd q | None => [] end.
Definition erase_cc (m : list (nat * list nat)) (v : nat) := filter (fun q => negb (fst q =? v)) m.
Definition set_cc (m : list (nat * list nat)) (v : nat) (l : list nat) := (v, l) :: erase_cc m v.

(** clique_persistence_diagram.cc 72-86 *)
Definition ccif_new (K : complex) (destruction : Z) : ccif :=
  Ccif (fold_left (fun m v => set_vim m v (0, 0%Z)) (k_vertices K) []) [] [] destruction.

(** clique_persistence_diagram.cc 88-92 *)
Definition cc_initialize (x : ccif) (v : nat) : outcome ccif :=
  Ok (Ccif (cc_vim x) (set_size (cc_cs x) v 1) (set_cc (cc_cc x) v [v]) (cc_destruction x)).

(** [unordered_set::insert] *)
Definition hs_insert (l : list nat) (v : nat) : list nat := if existsb (Nat.eqb v) l then l else l ++ [v].

(** clique_persistence_diagram.cc 111-119 and 137-145 *)
Definition cliqueVertices (K : complex) (l : list nat) : outcome (list nat) :=
  foldM (fun acc v => let* s := k_at K v in Ok (fold_left hs_insert (verts s) acc)) l [].

(** clique_persistence_diagram.cc 125-129 and 147-151; [horder] is the order of the hash set *)
Definition accumulate (horder : list nat -> list nat) (p : Z) (l : list nat) (m : list (nat * (nat * Z))) :=
  fold_left (fun m v => set_vim m v (S (fst (vim_of m v)), (snd (vim_of m v) + p * p)%Z)) (horder l) m.

(** clique_persistence_diagram.cc 94-133 *)
Definition cc_merge (horder : list nat -> list nat) (K : complex) (x : ccif) (younger older : nat)
  (creation destruction : Z) (u v : nat) : outcome ccif :=
  let cs := set_size (cc_cs x) older (size_of (cc_cs x) older + size_of (cc_cs x) younger) in
  let cc := set_cc (cc_cc x) older (cc_of (cc_cc x) older ++ cc_of (cc_cc x) younger) in
  let* l := cliqueVertices K (cc_of cc younger) in
  let vim := if (creation =? destruction)%Z then cc_vim x
             else accumulate horder (destruction - creation) l (cc_vim x) in
  Ok (Ccif vim cs (erase_cc cc younger) (cc_destruction x)).

(** clique_persistence_diagram.cc 135-152 *)
Definition cc_root (horder : list nat -> list nat) (K : complex) (x : ccif) (root : nat) (creation : Z) : outcome ccif :=
  let* l := cliqueVertices K (cc_of (cc_cc x) root) in
  Ok (Ccif (accumulate horder (cc_destruction x - creation) l (cc_vim x)) (cc_cs x) (cc_cc x) (cc_destruction x)).

Definition ccifFunctor (horder : list nat -> list nat) (K : complex) : functor ccif :=
  Functor cc_initialize (cc_merge horder K) (cc_root horder K).

(** clique_persistence_diagram.cc 160-163: [at] throws *)
Definition getComponentSize (x : ccif) (v : nat) : outcome nat :=
  match find (fun q => fst q =? v) (cc_cs x) with Some q => Ok (snd q) | None => Throw OutOfRange end.

(** clique_persistence_diagram.cc 503-510: infinite coordinates become finite *)
Definition cc_finite (inf D : Z) (p : point) : point := if (snd p =? inf)%Z then (fst p, D) else p.

(** clique_persistence_diagram.cc 516-525: both iterators advance together; the end of the
    diagram is not checked. *)
Definition cc_rows (C : complex) (x : ccif) (pd : list point) (pp : list (nat * option nat))
  : outcome (list (Z * Z * nat)) :=
  foldM (fun rows i =>
    let* q := get_ pp i in
    let* p := get_ pd i in
    let* s := k_at C (fst q) in
    let* v := get_ (verts s) 0 in
    let* n := getComponentSize x v in
    Ok (rows ++ [(p, n)])) (seq 0 (length pp)) [].

(** clique_persistence_diagram.cc 463-527.  The result lists, for every graph that has been
    processed, [k] and the rows of its file, if it is written. *)
Fixpoint cc_loop (inf : Z) (order horder : list nat -> list nat) (ignoreEmpty : bool) (K : complex) (maxWeight : Z)
  (k : nat) (x : ccif) : outcome (list (nat * list (Z * Z * nat)) * ccif) :=
  match k with
  | 0 => Ok ([], x)
  | S k' =>
      let* C0 := cliqueGraph_max K k in
      let C := k_sort data_cmp C0 in
      let isEmpty := k_size C =? 0 in
      if negb ignoreEmpty && isEmpty then Ok ([], x)
      else
        let* q := zeroFunctor (ccifFunctor horder K) inf false order C x in
        let pd := points (removeDiagonal (Diagram 0 (fst (fst q)))) in
        let* files :=
          (if isEmpty then Ok []
           else let* rows := cc_rows C (snd q) (map (cc_finite inf (2 * maxWeight)) pd) (snd (fst q)) in
                Ok [(k, rows)]) in
        let* r := cc_loop inf order horder ignoreEmpty K maxWeight k' (snd q) in
        Ok (files ++ fst r, snd r)
  end.

(** clique_persistence_diagram.cc 455-546: the files and the table of all vertices; labels are
    left out. *)
Definition cliquePersistence (inf : Z) (order horder : list nat -> list nat) (ignoreEmpty : bool) (K : complex)
  (maxWeight : Z) (maxK : nat) : outcome (list (nat * list (Z * Z * nat)) * list (nat * (Z * nat))) :=
  let* r := cc_loop inf order horder ignoreEmpty K maxWeight maxK (ccif_new K (2 * maxWeight)) in
  Ok (fst r, map (fun v => (v, (snd (vim_of (cc_vim (snd r)) v), fst (vim_of (cc_vim (snd r)) v)))) (k_vertices K)).
