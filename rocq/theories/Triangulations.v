(** * Model of [topology/io/LexicographicTriangulation.hh].

    [VertexType] is an unsigned type with the largest value [vmax].  Iterators of the
    block are represented by what is left of it. *)

From Coq Require Import List Arith Bool ZArith Ascii.
From Verif Require Import Base Simplex Complex LoadMatrix StringUtilities ReadEdges.
Import ListNotations.

Definition char_open : ascii := "[".
Definition char_close : ascii := "]".
Definition char_comma : ascii := ",".
Definition char_equals : ascii := "=".

(** [find], [find_first_of] for one character *)
Fixpoint find_char (c : ascii) (s : str) : option nat :=
  match s with
  | [] => None
  | d :: t => if Ascii.eqb d c then Some 0 else option_map S (find_char c t)
  end.
Definition count_char (c : ascii) (s : str) : nat := length (filter (fun d => Ascii.eqb d c) s).

(** [split] (String.hh 79-94) with the regular expression [","] *)
Fixpoint split_commas (matched : bool) (cur s : str) : list str :=
  match s with
  | [] => match cur with [] => if matched then [] else [[]] | _ => [cur] end
  | c :: t => if Ascii.eqb c char_comma then cur :: split_commas true [] t else split_commas matched (cur ++ [c]) t
  end.

(** LexicographicTriangulation.hh 119-125 *)
Definition isBlockFinished (block : str) : bool := count_char char_open block =? count_char char_close block.

(** LexicographicTriangulation.hh 156-218; [rest] is the range from [it] to the end, the
    position [offset] is its beginning.  To dereference the end is undefined. *)
Fixpoint parse_list (fuel : nat) (vmax : Z) (rest : str) (parsingSimplex : bool) (vertices : list nat) (K : complex) : outcome complex :=
  match fuel with
  | 0 => OutOfFuel
  | S fuel =>
      (** 192-217 *)
      let continue (rest : str) (parsingSimplex : bool) (vertices : list nat) (K : complex) : outcome complex :=
        match rest with
        | [] => UB
        | c :: t =>
            let rest := if Ascii.eqb c char_comma || isspace c then t else rest in
            if parsingSimplex then
              match find_char char_open rest, find_char char_close rest with
              | Some positionBegin, Some positionEnd =>
                  let list := trim (if positionEnd <? positionBegin + 1 then skipn (positionBegin + 1) rest
                                    else firstn (positionEnd - positionBegin - 1) (skipn (positionBegin + 1) rest)) in
                  parse_list fuel vmax (skipn positionEnd rest) true
                    (vertices ++ map (vertex_of vmax) (split_commas false [] list)) K
              | _, _ => Ok k_empty
              end
            else parse_list fuel vmax rest parsingSimplex vertices K
        end in
      match rest with
      | [] => Ok K
      | c :: t =>
          if Ascii.eqb c char_open then
            if parsingSimplex then Ok k_empty else continue rest true vertices K
          else if Ascii.eqb c char_close then
            if parsingSimplex then
              match k_push_back K (simplex_of vertices 0) with
              | (K, Ok _) => continue t false [] K
              | _ => Throw Terminated
              end
            else Ok K
          else continue rest parsingSimplex vertices K
      end
  end.

(** LexicographicTriangulation.hh 135-221 *)
Definition parseBlock (fuel : nat) (vmax : Z) (block : str) : outcome complex :=
  if negb (isBlockFinished block) then Ok k_empty
  else parse_list fuel vmax (match find_char char_open block with Some i => skipn (i + 1) block | None => block end) false [] k_empty.

(** LexicographicTriangulation.hh 113-117 *)
Inductive mode := ParsingBlocks | ParsingList.

(** LexicographicTriangulation.hh 73-106 *)
Definition triangulation_line (fuel : nat) (vmax : Z) (st : mode * str * list complex) (line : str) : outcome (mode * str * list complex) :=
  let '(md, block, result) := st in
  let line := trim line in
  let pos := find_char char_equals line in
  match line with
  | [] => Ok st
  | c :: _ =>
      if Ascii.eqb c hash then Ok st
      else
        let* p :=
          match pos with
          | Some pos =>
              match md with
              | ParsingBlocks => Ok (ParsingList, trim (skipn (pos + 1) line))
              | ParsingList => Throw RuntimeError
              end
          | None =>
              match md with
              | ParsingList => Ok (md, trim (block ++ line))
              | ParsingBlocks => Ok (md, block)
              end
          end in
        let '(md, block) := p in
        if isBlockFinished block then
          let* K := parseBlock fuel vmax block in
          Ok (ParsingBlocks, [], result ++ [K])
        else Ok (md, block, result)
  end.

(** LexicographicTriangulation.hh 61-109 *)
Definition read_triangulations (fuel : nat) (vmax : Z) (text : str) : outcome (list complex) :=
  let* st := foldM (triangulation_line fuel vmax) (getlines [] text) (ParsingBlocks, [], []) in
  Ok (snd st).
