(** * Model of [src/tools/make_signature.cc].

    [DataType] ([double]) is modelled by the real numbers of the standard library; [None] is the
    infinite value.  A point is a pair whose second coordinate may be infinite.  [big] and
    [lowest] are the limits of the type, [capacity] is [max_size()] of a vector of data.
    [std::size_t] has 64 bits.  Memory is not exhausted; texts of the output are not modelled. *)
From Coq Require Import Reals List Arith Bool ZArith.
From Verif Require Import Base.
Import ListNotations.
Local Open Scope R_scope.

Definition xreal : Type := option R.
Definition xpoint : Type := R * xreal.

(** [a < b], [std::less], and [a > b], [std::greater] *)
Definition xltb (a b : xreal) : bool :=
  match a, b with
  | Some x, Some y => if Rlt_dec x y then true else false
  | Some _, None => true
  | None, _ => false
  end.
Definition xgtb (a b : xreal) : bool := xltb b a.

(** [std::min] *)
Definition xmin (a b : xreal) : xreal := if xltb b a then b else a.

(** [std::abs( p.persistence() )]: PersistenceDiagram.hh 45-48 *)
Definition abs_persistence (p : xpoint) : xreal :=
  match snd p with Some y => Some (Rabs (y - fst p)) | None => None end.

(** Infinity.hh 21-33.  The difference of two infinite values is no number, and [std::max]
    returns its first argument if the second one is no number. *)
Definition abs_difference (a b : R) : R := if Rle_dec b a then a - b else b - a.
Definition xdistance (p q : xpoint) : xreal :=
  let dx := abs_difference (fst p) (fst q) in
  match snd p, snd q with
  | Some y, Some z => Some (Rmax dx (abs_difference y z))
  | None, None => Some dx
  | _, _ => None
  end.

(** make_signature.cc 24-42 *)
Definition filterDiagram (threshold : R) (lower : bool) (D : list xpoint) : list xpoint :=
  filter (fun p => negb (if lower then xltb (abs_persistence p) (Some threshold)
                         else xgtb (abs_persistence p) (Some threshold))) D.

(** PersistenceDiagram.hh 217-227 *)
Definition xbetti (D : list xpoint) : nat :=
  length (filter (fun p => match snd p with None => true | Some _ => false end) D).

(** make_signature.cc 52-56; only diagrams without infinite coordinates get here *)
Definition finite (a : xreal) : R := match a with Some x => x | None => 0 end.
Definition coordinate_range (big lowest : R) (D : list xpoint) : R * R :=
  fold_left (fun st p => (Rmin (fst st) (Rmin (fst p) (finite (snd p))), Rmax (snd st) (Rmax (fst p) (finite (snd p)))))
    D (big, lowest).

(** make_signature.cc 44-72 *)
Definition normalizeDiagram (big lowest : R) (D : list xpoint) : outcome (list xpoint) :=
  if (xbetti D =? 0)%nat then
    let min := fst (coordinate_range big lowest D) in
    let max := snd (coordinate_range big lowest D) in
    if Req_EM_T min max then Ok D
    else Ok (map (fun p => ((fst p - min) / (max - min), Some ((finite (snd p) - min) / (max - min)))) D)
  else Throw RuntimeError.

(** make_signature.cc 87-91 *)
Definition influence (p q : xpoint) : xreal :=
  xmin (xdistance p q) (xmin (abs_persistence p) (abs_persistence q)).

(** make_signature.cc 83-93 *)
Fixpoint influences (D : list xpoint) : list xreal :=
  match D with
  | [] => []
  | p :: t => map (influence p) t ++ influences t
  end.

(** make_signature.cc 81: [reserve] throws if the argument exceeds [max_size()]; the argument is
    computed modulo 2^64 *)
Definition reserve_argument (n : nat) : Z := (((Z.of_nat n * Z.of_nat n - 1) mod 2 ^ 64) / 2)%Z.

(** make_signature.cc 74-99 *)
Definition makeSignature (capacity : Z) (D : list xpoint) : outcome (list xreal) :=
  if (capacity <? reserve_argument (length D))%Z then Throw LengthError
  else Ok (cpp_sort xgtb (influences D)).

(** [std::vector::resize] *)
Definition resize (n : nat) (l : list xreal) : list xreal :=
  firstn n l ++ repeat (Some 0) (n - length l).

(** make_signature.cc 156-186: one diagram *)
Definition prepare (big lowest threshold : R) (normalize : bool) (D : list xpoint) : outcome (list xpoint) :=
  let D1 := if Req_EM_T threshold 0 then D else filterDiagram threshold true D in
  if normalize then normalizeDiagram big lowest D1 else Ok D1.

(** make_signature.cc 188-196: one diagram *)
Definition signature_line (capacity : Z) (keep : nat) (D : list xpoint) : outcome (list xreal) :=
  let* s := makeSignature capacity D in
  Ok (if (keep =? 0)%nat then s else resize keep s).

(** make_signature.cc 153-197: the signatures that are written, line by line.  All diagrams are
    prepared before the first one is written. *)
Definition signatures (big lowest : R) (capacity : Z) (threshold : R) (normalize : bool) (keep : nat)
  (files : list (list xpoint)) : outcome (list (list xreal)) :=
  let* ds := foldM (fun acc D => let* E := prepare big lowest threshold normalize D in Ok (acc ++ [E])) files [] in
  foldM (fun acc D => let* s := signature_line capacity keep D in Ok (acc ++ [s])) ds [].
