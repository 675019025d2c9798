(** * Model of [containers/PointCloud.hh].

    The elements have the type [A] with the value [dflt] for [T()] and the equality
    [eqb]; reading and writing elements are the parameters [conv] and [show].
    Moving and copying is not modelled, nor is opening a file (313-317). *)

From Coq Require Import List Arith Bool ZArith Ascii.
From Verif Require Import Base LoadMatrix StringUtilities.
Import ListNotations.

(** PointCloud.hh 219-223 *)
Record cloud (A : Type) := Cloud { pc_n : nat; pc_d : nat; pc_data : list A }.
Arguments Cloud {A}. Arguments pc_n {A}. Arguments pc_d {A}. Arguments pc_data {A}.

Section PointCloud.
  Context {A : Type}.
  Variables (dflt : A) (eqb : A -> A -> bool).

  (** PointCloud.hh 35-40, 42-51 *)
  Definition pc_empty : cloud A := Cloud 0 0 [].
  Definition pc_make (n d : nat) : cloud A := Cloud n d (repeat dflt (n * d)).

  (** PointCloud.hh 89-94 *)
  Fixpoint data_eqb (l m : list A) : bool :=
    match l, m with
    | [], [] => true
    | x :: l, y :: m => eqb x y && data_eqb l m
    | _, _ => false
    end.
  Definition pc_eqb (P Q : cloud A) : bool :=
    (pc_n P =? pc_n Q) && (pc_d P =? pc_d Q) && data_eqb (pc_data P) (pc_data Q).

  (** PointCloud.hh 128-140 *)
  Definition pc_set (P : cloud A) (i : nat) (p : list A) : outcome (cloud A) :=
    if pc_n P <=? i then Throw RuntimeError
    else if negb (length p =? pc_d P) then Throw RuntimeError
    else Ok (Cloud (pc_n P) (pc_d P)
      (firstn (pc_d P * i) (pc_data P) ++ p ++ skipn (pc_d P * i + length p) (pc_data P))).

  (** PointCloud.hh 153-163, 171-179 *)
  Definition pc_get (P : cloud A) (i : nat) : outcome (list A) :=
    if pc_n P <=? i then Throw RuntimeError
    else Ok (firstn (pc_d P) (skipn (i * pc_d P) (pc_data P))).

  (** PointCloud.hh 191-216 *)
  Definition pc_append (P Q : cloud A) : outcome (cloud A) :=
    if negb (pc_d P =? pc_d Q) then Throw RuntimeError
    else
      let* st := foldM (fun st j => let* p := pc_get P j in let* R := pc_set (fst st) (snd st) p in Ok (R, S (snd st)))
                       (seq 0 (pc_n P)) (pc_make (pc_n P + pc_n Q) (pc_d P), 0) in
      let* st := foldM (fun st j => let* p := pc_get Q j in let* R := pc_set (fst st) (snd st) p in Ok (R, S (snd st)))
                       (seq 0 (pc_n Q)) st in
      Ok (fst st).

  Variables (conv : str -> A) (show : A -> str).

  (** PointCloud.hh 273: the separators *)
  Definition cloud_sep (c : ascii) : bool :=
    isspace c || Ascii.eqb c ":" || Ascii.eqb c ";" || Ascii.eqb c ",".
  (** PointCloud.hh 254, 279 *)
  Definition skipped (line : str) : bool :=
    match line with [] => true | c :: _ => Ascii.eqb c hash end.

  (** PointCloud.hh 270-301 *)
  Definition load_point (n : nat) (st : cloud A * nat * nat) (line : str) : outcome (cloud A * nat * nat) :=
    let '(P, i, d) := st in
    let line := trim line in
    let tokens := split cloud_sep line in
    if skipped line || match tokens with [] => true | _ => false end then Ok st
    else
      let '(P, d) := if d =? 0 then (pc_make n (length tokens), length tokens) else (P, d) in
      let* P := pc_set P i (map conv tokens) in
      Ok (P, S i, d).

  (** PointCloud.hh 231-304; [lines] is signed *)
  Definition load_cloud (text : str) : outcome (cloud A) :=
    let lines := Z.of_nat (length (filter (Ascii.eqb newline) text)) in
    if (lines <=? 0)%Z then Ok pc_empty
    else
      let lines := (lines - Z.of_nat (length (filter (fun line => skipped (trim line)) (getlines [] text))))%Z in
      let* st := foldM (load_point (Z.to_nat lines)) (getlines [] text) (pc_empty, 0, 0) in
      Ok (fst (fst st)).

  (** PointCloud.hh 334-353 *)
  Fixpoint print_row (p : list A) : str :=
    match p with
    | [] => []
    | [x] => show x
    | x :: t => show x ++ "009"%char :: print_row t
    end.
  Definition print_cloud (P : cloud A) : outcome str :=
    foldM (fun o i => let* p := pc_get P i in Ok (o ++ print_row p ++ [newline])) (seq 0 (pc_n P)) [].
End PointCloud.
