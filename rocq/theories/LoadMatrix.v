(** * Model of [BoundaryMatrix::load], BoundaryMatrix.hh 174-247.

    A stream is the sequence of its characters; it can be rewound.  Opening the
    file (243-247) is not modelled. *)

From Coq Require Import List Arith Bool NArith Ascii.
From Verif Require Import Base Matrix.
Import ListNotations.

Definition newline : ascii := "010"%char.
Definition hash : ascii := "#"%char.

(** [::isspace] in the "C" locale *)
Definition isspace (c : ascii) : bool :=
  let n := nat_of_ascii c in (n =? 32) || ((9 <=? n) && (n <=? 13)).

(** repeated [std::getline], lines 179 and 197 *)
Fixpoint getlines (cur text : list ascii) : list (list ascii) :=
  match text with
  | [] => match cur with [] => [] | _ => [cur] end
  | c :: t => if Ascii.eqb c newline then cur :: getlines [] t else getlines (cur ++ [c]) t
  end.

(** lines 182-186 *)
Definition counted (line : list ascii) : bool :=
  match filter (fun c => negb (isspace c)) line with
  | [] => false
  | c :: _ => negb (Ascii.eqb c hash)
  end.

(** lines 203-209: extraction of strings separated by whitespace *)
Fixpoint tokens (cur line : list ascii) : list (list ascii) :=
  match line with
  | [] => match cur with [] => [] | _ => [cur] end
  | c :: t =>
      if isspace c then match cur with [] => tokens [] t | _ => cur :: tokens [] t end
      else tokens (cur ++ [c]) t
  end.

(** [std::stoul], base 10, 64 bits.  Tokens contain no whitespace. *)
Definition digit (c : ascii) : option N :=
  let n := N_of_ascii c in
  if (N.leb 48 n && N.leb n 57)%bool then Some (n - 48)%N else None.
Fixpoint digits (acc : N) (l : list ascii) : N :=
  match l with
  | [] => acc
  | c :: t => match digit c with Some d => digits (10 * acc + d)%N t | None => acc end
  end.
Definition stoul_digits (neg : bool) (l : list ascii) : outcome N :=
  match l with
  | [] => Throw InvalidArgument
  | c :: _ =>
      match digit c with
      | None => Throw InvalidArgument
      | Some _ =>
          let v := digits 0 l in
          if N.ltb v (2 ^ 64) then Ok (if neg then (2 ^ 64 - v) mod 2 ^ 64 else v)%N
          else Throw OutOfRange
      end
  end.
Definition stoul (token : list ascii) : outcome N :=
  match token with
  | c :: t => if Ascii.eqb c "+" then stoul_digits false t
              else if Ascii.eqb c "-" then stoul_digits true t
              else stoul_digits false token
  | [] => Throw InvalidArgument
  end.

(** line 221; [Index] is an unsigned number of 32 bits *)
Definition read_index (token : list ascii) : outcome nat :=
  let* v := stoul token in Ok (N.to_nat (v mod 2 ^ 32)).
Fixpoint read_indices (l : list (list ascii)) : outcome (list nat) :=
  match l with
  | [] => Ok []
  | t :: r => let* i := read_index t in let* is := read_indices r in Ok (i :: is)
  end.

(** lines 199-237 *)
Definition load_line (st : matrix * nat) (line : list ascii) : outcome (matrix * nat) :=
  match line with
  | [] => Ok st
  | c :: _ =>
      if Ascii.eqb c hash then Ok st
      else match tokens [] line with
           | [] => Ok st
           | ts =>
               let* indices := read_indices ts in
               match indices with
               | [] => Throw RuntimeError
               | d :: rest =>
                   let* M := setColumn (fst st) (snd st) (cpp_sort Nat.ltb rest) in
                   let* d' := getDimension M (snd st) in
                   if d' =? d then Ok (M, S (snd st)) else Throw RuntimeError
               end
           end
  end.

(** lines 174-241 *)
Definition load (text : list ascii) : outcome matrix :=
  let lines := getlines [] text in
  let M := setNumColumns empty_matrix (length (filter counted lines)) in
  let* st := foldM load_line lines (M, 0) in
  Ok (fst st).
