(** * Model of [persistenceDiagrams/io/Raw.hh], [persistenceDiagrams/io/JSON.hh] and the output
      operator of [PersistenceDiagram.hh].

    Coordinates have an arbitrary type [V], whose conversion from text is [conv]
    ([aleph::utilities::convert]), whose representation in a stream is [show], and for which
    [inf] decides whether a second coordinate is that of an unpaired point.  Opening files is not
    modelled. *)
From Coq Require Import String Ascii List Arith NArith ZArith Bool.
From Verif Require Import Base LoadMatrix StringUtilities PropertiesString.
Import ListNotations.
Local Open Scope list_scope.

Definition tab : ascii := "009"%char.

(** a persistence diagram: its dimension and its points, PersistenceDiagram.hh 242-245 *)
Record diagram (V : Type) := Dgm { dg_dim : nat; dg_points : list (V * V) }.
Arguments Dgm {V}. Arguments dg_dim {V}. Arguments dg_points {V}.

Section Diagrams.
  Context {V : Type}.
  Variables (conv : str -> V) (show : V -> str) (inf : V -> bool).

  (** PersistenceDiagram.hh 217-227 *)
  Definition dg_betti (D : diagram V) : nat := length (filter (fun p => inf (snd p)) (dg_points D)).
  (** PersistenceDiagram.hh 229-232 *)
  Definition dg_size (D : diagram V) : nat := length (dg_points D).
  (** PersistenceDiagram.hh 99-102 *)
  Definition dg_add (D : diagram V) (x y : V) : diagram V := Dgm (dg_dim D) (dg_points D ++ [(x, y)]).

  (** PersistenceDiagram.hh 248-254 *)
  Definition print_points (D : diagram V) : str :=
    flat_map (fun p => show (fst p) ++ [tab] ++ show (snd p) ++ [newline]) (dg_points D).

  (** Raw.hh 43-66 *)
  Definition raw_line (D : diagram V) (line : str) : outcome (diagram V) :=
    match line with
    | [] => Ok D
    | c :: _ =>
        if Ascii.eqb c hash then Ok D
        else match tokens [] line with
             | a :: b :: _ => Ok (dg_add D (conv a) (conv b))
             | _ => Throw RuntimeError
             end
    end.
  (** Raw.hh 31-70 *)
  Definition load_raw (text : str) : outcome (diagram V) := foldM raw_line (getlines [] text) (Dgm 0 []).
End Diagrams.

(** ** JSON *)
Definition quote : ascii := """"%char.
(** JSON.hh 49-62 and 66-67: one name and its value *)
Definition member (key value : str) : str := chars "  " ++ [quote] ++ key ++ [quote] ++ chars ": " ++ value ++ chars "," ++ [newline].
Definition quoted (s : str) : str := [quote] ++ s ++ [quote].
Definition print_nat (n : nat) : str := print_Z (Z.of_nat n).

Section Write.
  Context {V : Type}.
  Variables (show : V -> str) (inf : V -> bool).

  (** JSON.hh 74-78 *)
  Definition json_point (p : V * V) : str :=
    chars "    [" ++ quoted (show (fst p)) ++ chars "," ++ quoted (show (snd p)) ++ chars "]".
  (** JSON.hh 69-79 *)
  Fixpoint json_points (l : list (V * V)) : str :=
    match l with
    | [] => []
    | [p] => json_point p
    | p :: r => json_point p ++ chars "," ++ [newline] ++ json_points r
    end.
  (** JSON.hh 39-84; [kvs] is the contents of the map in the order of the keys *)
  Definition writeJSON (D : diagram V) (name : str) (kvs : list (str * str)) : str :=
    chars "{" ++ [newline] ++
    member (chars "betti") (print_nat (dg_betti inf D)) ++
    member (chars "dimension") (print_nat (dg_dim D)) ++
    flat_map (fun kv => member (fst kv) (quoted (snd kv))) kvs ++
    (match name with [] => [] | _ => member (chars "name") (quoted name) end) ++
    member (chars "size") (print_nat (dg_size D)) ++
    chars "  ""diagram"": [" ++ [newline] ++
    json_points (dg_points D) ++
    [newline] ++ chars "  ]" ++ [newline] ++ chars "}".
End Write.

(** Documents.  Numbers are natural numbers. *)
Inductive json := JNum (n : N) | JStr (s : str) | JArr (l : list json) | JObj (l : list (str * json)).

(** The parser of the external library, for documents with natural numbers, strings without
    escape sequences, arrays and objects; [None] for other texts. *)
Definition jspace (c : ascii) : bool := let n := nat_of_ascii c in (n =? 32) || (n =? 9) || (n =? 10) || (n =? 13).
Fixpoint jskip (s : str) : str :=
  match s with
  | c :: t => if jspace c then jskip t else s
  | [] => []
  end.
Definition jchar (c : ascii) : bool := negb (Ascii.eqb c quote) && negb (Ascii.eqb c "\"%char) && (32 <=? nat_of_ascii c).
(** what follows an opening quotation mark *)
Fixpoint jstring (s : str) : option (str * str) :=
  match s with
  | [] => None
  | c :: t => if Ascii.eqb c quote then Some ([], t)
              else if jchar c then option_map (fun r => (c :: fst r, snd r)) (jstring t) else None
  end.
Fixpoint jdigits (acc : N) (s : str) : N * str :=
  match s with
  | c :: t => match digit c with Some d => jdigits (10 * acc + d)%N t | None => (acc, s) end
  | [] => (acc, [])
  end.
Definition starts (c : ascii) (s : str) : option str := match s with d :: t => if Ascii.eqb d c then Some t else None | [] => None end.

Fixpoint parse_value (fuel : nat) (s : str) : option (json * str) :=
  match fuel with
  | 0 => None
  | S f =>
      match jskip s with
      | [] => None
      | c :: t =>
          if Ascii.eqb c quote then option_map (fun r => (JStr (fst r), snd r)) (jstring t)
          else if Ascii.eqb c "[" then
            match starts "]" (jskip t) with
            | Some r => Some (JArr [], r)
            | None => option_map (fun r => (JArr (fst r), snd r)) (parse_elements f t)
            end
          else if Ascii.eqb c "{" then
            match starts "}" (jskip t) with
            | Some r => Some (JObj [], r)
            | None => option_map (fun r => (JObj (fst r), snd r)) (parse_members f t)
            end
          else match digit c with
               | Some d => let '(n, r) := jdigits d t in Some (JNum n, r)
               | None => None
               end
      end
  end
with parse_elements (fuel : nat) (s : str) : option (list json * str) :=
  match fuel with
  | 0 => None
  | S f =>
      match parse_value f s with
      | None => None
      | Some (v, r) =>
          match jskip r with
          | c :: t => if Ascii.eqb c "," then option_map (fun x => (v :: fst x, snd x)) (parse_elements f t)
                      else if Ascii.eqb c "]" then Some ([v], t) else None
          | [] => None
          end
      end
  end
with parse_members (fuel : nat) (s : str) : option (list (str * json) * str) :=
  match fuel with
  | 0 => None
  | S f =>
      match starts quote (jskip s) with
      | None => None
      | Some s1 =>
          match jstring s1 with
          | None => None
          | Some (k, s2) =>
              match starts ":" (jskip s2) with
              | None => None
              | Some s3 =>
                  match parse_value f s3 with
                  | None => None
                  | Some (v, r) =>
                      match jskip r with
                      | c :: t => if Ascii.eqb c "," then option_map (fun x => ((k, v) :: fst x, snd x)) (parse_members f t)
                                  else if Ascii.eqb c "}" then Some ([(k, v)], t) else None
                      | [] => None
                      end
                  end
              end
          end
      end
  end.
Definition parse (s : str) : option json :=
  match parse_value (2 * length s) s with
  | Some (v, r) => match jskip r with [] => Some v | _ => None end
  | None => None
  end.

(** The accessors of the library fail an assertion for a value of another kind and for a missing
    member or element; of several members with the same name the first one is found. *)
Definition members_of (v : json) : outcome (list (str * json)) := match v with JObj l => Ok l | _ => UB end.
Definition find_member (l : list (str * json)) (k : str) : option json := option_map snd (find (fun q => str_eqb (fst q) k) l).
Definition field (v : json) (k : str) : outcome json :=
  let* l := members_of v in match find_member l k with Some x => Ok x | None => UB end.
Definition elements_of (v : json) : outcome (list json) := match v with JArr l => Ok l | _ => UB end.
Definition string_of (v : json) : outcome str := match v with JStr s => Ok s | _ => UB end.
Definition uint_of (v : json) : outcome nat :=
  match v with JNum n => if (n <? 2 ^ 32)%N then Ok (N.to_nat n) else UB | _ => UB end.

Section Read.
  Context {V : Type}.
  Variables (conv : str -> V) (inf : V -> bool).

  (** JSON.hh 133-139 *)
  Definition read_point (D : diagram V) (p : json) : outcome (diagram V) :=
    let* l := elements_of p in
    let* a := get_ l 0 in let* a := string_of a in
    let* b := get_ l 1 in let* b := string_of b in
    Ok (dg_add D (conv a) (conv b)).

  (** JSON.hh 122-148 *)
  Definition read_diagram (v : json) : outcome (diagram V) :=
    let* dimension := let* x := field v (chars "dimension") in uint_of x in
    let* betti := let* x := field v (chars "betti") in uint_of x in
    let* size := let* x := field v (chars "size") in uint_of x in
    let* points := let* x := field v (chars "diagram") in elements_of x in
    let* D := foldM read_point points (Dgm dimension []) in
    if negb (dg_size D =? size) then Throw RuntimeError
    else if negb (dg_betti inf D =? betti) then Throw RuntimeError
    else Ok D.

  (** JSON.hh 116-150 *)
  Definition read_document (v : json) : outcome (list (diagram V)) :=
    let* l := members_of v in
    match find_member l (chars "diagrams") with
    | None => Throw RuntimeError
    | Some d =>
        let* ds := elements_of d in
        foldM (fun acc x => let* D := read_diagram x in Ok (acc ++ [D])) ds []
    end.

  (** JSON.hh 101-150; a text that is not parsed is a null value, for which an assertion fails *)
  Definition readJSON (text : str) : outcome (list (diagram V)) :=
    match parse text with
    | Some v => read_document v
    | None => UB
    end.
End Read.
