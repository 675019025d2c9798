(** * Model of [utilities/String.hh].

    Strings are lists of characters, [isspace] is the function of the "C" locale.
    [convert] is modelled for a type that is given by its extraction and its special
    values, and for signed integral types with the limits [lo] and [hi]. *)

From Coq Require Import String.
From Coq Require Import List Arith Bool NArith ZArith Ascii.
From Verif Require Import Base LoadMatrix.
Import ListNotations.

Definition str : Set := list ascii.

(** String.hh 30-40, 47-57, 64-67 *)
Fixpoint ltrim (s : str) : str :=
  match s with
  | [] => []
  | c :: t => if isspace c then ltrim t else s
  end.
Definition rtrim (s : str) : str := rev (ltrim (rev s)).
Definition trim (s : str) : str := ltrim (rtrim s).

(** String.hh 79-94, for a regular expression [[...]+] that matches non-empty runs
    of separators: what precedes a match is a token, what follows the last match
    is a token if it is not empty; a string without match is a token. *)
Fixpoint split_token (sep : ascii -> bool) (cur s : str) : list str :=
  match s with
  | [] => [cur]
  | c :: t => if sep c then cur :: split_run sep t else split_token sep (cur ++ [c]) t
  end
with split_run (sep : ascii -> bool) (s : str) : list str :=
  match s with
  | [] => []
  | c :: t => if sep c then split_run sep t else split_token sep [c] t
  end.
Definition split (sep : ascii -> bool) (s : str) : list str := split_token sep [] s.

(** String.hh 102-113, 122-130 *)
Definition splitByWhitespace (s : str) : list str := tokens [] s.
Definition countTokens (s : str) : nat := length (tokens [] s).

(** the extraction of a number: leading whitespace is skipped, a sign and digits
    are read; the number is zero if there are none and the nearest limit if it is
    too large.  The second result is [failbit]. *)
Definition leading_digits (s : str) : option N :=
  match s with
  | c :: _ => match digit c with Some _ => Some (digits 0 s) | None => None end
  | [] => None
  end.
Definition extract (lo hi : Z) (s : str) : Z * bool :=
  let '(neg, d) := match ltrim s with
                   | c :: t => if Ascii.eqb c "-" then (true, leading_digits t)
                               else if Ascii.eqb c "+" then (false, leading_digits t)
                               else (false, leading_digits (c :: t))
                   | [] => (false, None)
                   end in
  match d with
  | None => (0%Z, true)
  | Some n => let z := if neg then (- Z.of_N n)%Z else Z.of_N n in
              if (z <? lo)%Z then (lo, true) else if (hi <? z)%Z then (hi, true) else (z, false)
  end.

(** [::tolower] *)
Definition tolower (c : ascii) : ascii :=
  let n := nat_of_ascii c in if (65 <=? n) && (n <=? 90) then ascii_of_nat (n + 32) else c.
Fixpoint chars (s : String.string) : str :=
  match s with String.EmptyString => [] | String.String c t => c :: chars t end.
Fixpoint str_eqb (a b : str) : bool :=
  match a, b with
  | [], [] => true
  | c :: a, d :: b => Ascii.eqb c d && str_eqb a b
  | _, _ => false
  end.
Definition named (s : str) (names : list String.string) : bool := existsb (str_eqb (map tolower s)) (map chars names).

(** String.hh 147-178, 181-185: for a type [V] with the extraction [ext] (its second
    result is [failbit]), the comparison [eqb] and the values of [V()],
    [infinity()], [-infinity()] and [quiet_NaN()] *)
Definition convert_to {V : Type} (eqb : V -> V -> bool) (zero inf ninf nan : V) (ext : str -> V * bool) (s : str) : V * bool :=
  let '(result, fail) := ext s in
  if fail then
    let result := if named s ["+inf"; "inf"; "+infinity"; "infinity"]%string then inf
                  else if named s ["-inf"; "-infinity"]%string then ninf
                  else if named s ["nan"]%string then nan
                  else result in
    (result, negb (eqb result zero))
  else (result, true).
(** integral types: [infinity()] and [quiet_NaN()] are zero *)
Definition convert (lo hi : Z) (s : str) : Z * bool := convert_to Z.eqb 0%Z 0%Z 0%Z 0%Z (extract lo hi) s.
(** any of these names *)
Definition special (s : str) : bool :=
  named s ["+inf"; "inf"; "+infinity"; "infinity"; "-inf"; "-infinity"; "nan"]%string.
