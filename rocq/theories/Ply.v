(** * Model of [topology/io/PLY.hh].

    A file is given by its contents.  The data of a simplex is an integer, with the conversion [conv] of a text,
    and [stod] is the conversion of coordinates; [lowest] and [highest] are the limits of the data type.
    Vertices are natural numbers that are read as unsigned numbers of 32 bits.  Members of a descriptor that
    are not assigned are [None]: sums with them are [None], and a decision that depends on them is undefined
    behaviour.  Assertions are enabled ([Throw Terminated]).  A reader is used once. *)
From Coq Require Import String Ascii List Arith Bool NArith ZArith.
From Verif Require Import Base LoadMatrix StringUtilities Simplex Complex Pajek.
Import ListNotations.
Local Open Scope list_scope.
Local Open Scope nat_scope.

(** extraction of an unsigned number: white space is skipped, a sign and digits are read; [None] if this fails *)
Definition read_unsigned (bits : N) (s : str) : option (N * str) :=
  let '(neg, s) := match ltrim s with
                   | c :: t => if Ascii.eqb c "-" then (true, t) else if Ascii.eqb c "+" then (false, t) else (false, c :: t)
                   | [] => (false, [])
                   end in
  match span isdigit s with
  | ([], _) => None
  | (d, rest) => let v := digits 0 d in
                 if N.ltb v (2 ^ bits) then Some (if neg then (2 ^ bits - v) mod 2 ^ bits else v, rest)%N else None
  end.
(** extraction of a text; it is empty if this fails *)
Definition read_word (s : str) : str * str := span (fun c => negb (isspace c)) (ltrim s).

(** PLY.hh 39-51 *)
Definition TypeSizeMap : list (string * nat) :=
  [("double", 8); ("float", 4); ("int", 4); ("int32", 4); ("uint", 4); ("uint32", 4); ("short", 2); ("ushort", 2); ("char", 1); ("uchar", 1); ("uint8", 1)]%string.
Definition type_bytes (t : str) : outcome nat :=
  match find (fun p => str_eqb t (chars (fst p))) TypeSizeMap with Some (_, n) => Ok n | None => Throw OutOfRange end.

(** ** Header *)
(** PLY.hh 134-145: the index of a descriptor is its position *)
Record descriptor := Descriptor { pd_name : str; pd_bytes : option nat; pd_offset : option (option nat); pd_list : option (nat * nat) }.
(** PLY.hh 163-166 and 211-214 *)
Record header := Header { h_vertices : N; h_faces : N; h_properties : list descriptor; h_offset : option nat }.
Definition starts (p : string) (s : str) : bool := str_eqb (firstn (length (chars p)) s) (chars p).
Definition plus (a b : option nat) : option nat := match a, b with Some a, Some b => Some (a + b) | _, _ => None end.
(** PLY.hh 230-258 *)
Definition parse_element (line : str) (h : header) : outcome header :=
  let '(name, rest) := read_word (trim (skipn 7 line)) in
  match name, read_unsigned 64 rest with
  | [], _ | _, None => Throw RuntimeError
  | _, Some (n, _) => Ok (if str_eqb (trim name) (chars "vertex") then Header n (h_faces h) (h_properties h) (h_offset h)
                          else if str_eqb (trim name) (chars "face") then Header (h_vertices h) n (h_properties h) (h_offset h) else h)
  end.
(** PLY.hh 259-316; the sizes of a vertex and a face are not used and not modelled *)
Definition parse_property (line : str) (h : header) : outcome header :=
  let '(type, rest) := read_word (trim (skipn 8 line)) in
  let '(name, rest) := read_word rest in
  let* x := (if str_eqb type (chars "list") then
               let '(entry, rest) := read_word rest in
               let '(listName, _) := read_word rest in
               let* a := type_bytes name in
               let* b := type_bytes entry in
               Ok (Descriptor listName None None (Some (a, b)))
             else
               let* a := type_bytes type in
               Ok (Descriptor name (Some a) (Some (h_offset h)) None)) in
  match pd_name x with
  | [] => Throw RuntimeError
  | _ => Ok (Header (h_vertices h) (h_faces h) (h_properties h ++ [x]) (plus (h_offset h) (pd_bytes x)))
  end.
(** PLY.hh 219-324: the header and what follows it *)
Fixpoint parse_header (lines : list str) (h : header) : outcome (header * list str) :=
  match lines with
  | [] => Ok (h, [])
  | l :: t =>
      let line := trim l in
      if starts "comment" line then parse_header t h
      else
        let* h := (if starts "element" line then parse_element line h else if starts "property" line then parse_property line h else Ok h) in
        if str_eqb line (chars "end_header") then Ok (h, t) else parse_header t h
  end.

(** ** Data *)
(** [std::getline]: at the end of the file the line is empty, or unchanged if the last line has no end *)
Definition next_line (ends : bool) (lines : list str) (line : str) : list str * str :=
  match lines with
  | [] => ([], if ends then [] else line)
  | l :: t => (t, l)
  end.
(** PLY.hh 436-448 *)
Fixpoint property_index (k : nat) (name : str) (ps : list descriptor) : option nat :=
  match ps with
  | [] => None
  | p :: ps => if str_eqb (pd_name p) name then Some k else property_index (S k) name ps
  end.
Definition token_at (tokens : list str) (i : option nat) : outcome str := match i with Some i => at_ tokens i | None => Throw OutOfRange end.

Section Reader.
Variable conv : str -> Z.
Variable stod : str -> outcome Z.
Variables lowest highest : Z.
Variable property : str.
Variable ends : bool.

(** PLY.hh 452-482 *)
Definition parse_vertex (ps : list descriptor) (st : list str * str * list (list Z) * list simplex) (index : nat) : outcome (list str * str * list (list Z) * list simplex) :=
  let '(lines, line, coordinates, simplices) := st in
  let '(lines, line) := next_line ends lines line in
  let line := trim line in
  let tokens := split isspace line in
  let index_of p := property_index 0 p ps in
  let* tx := token_at tokens (index_of (chars "x")) in let* x := stod tx in
  let* ty := token_at tokens (index_of (chars "y")) in let* y := stod ty in
  let* tz := token_at tokens (index_of (chars "z")) in let* z := stod tz in
  let* w := match property, index_of property with
            | [], _ | _, None => Ok 0%Z
            | _, Some i => let* t := at_ tokens i in Ok (conv t)
            end in
  Ok (lines, line, coordinates ++ [[x; y; z]], simplices ++ [simplex_vertex index w]).
(** PLY.hh 521-543 *)
Definition parse_edge (st : list (nat * nat) * list simplex) (edge : simplex) : outcome (list (nat * nat) * list simplex) :=
  let '(edges, simplices) := st in
  let* u := get_ (verts edge) 0 in
  let* v := get_ (verts edge) 1 in
  let p := if u <? v then (v, u) else (u, v) in
  if existsb (fun q => (fst q =? fst p) && (snd q =? snd p)) edges then Ok st else Ok (p :: edges, simplices ++ [simplex_of (verts edge) 0%Z]).
(** PLY.hh 491-549 *)
Definition parse_face (st : list str * str * list (nat * nat) * list simplex) (_ : nat) : outcome (list str * str * list (nat * nat) * list simplex) :=
  let '(lines, line, edges, simplices) := st in
  let '(lines, line) := next_line ends lines line in
  match read_unsigned 32 line with
  | None => Throw RuntimeError
  | Some (n, rest) =>
      if N.eqb n 3 then
        match read_unsigned 32 rest with
        | None => Throw RuntimeError
        | Some (i1, rest) =>
            match read_unsigned 32 rest with
            | None => Throw RuntimeError
            | Some (i2, rest) =>
                match read_unsigned 32 rest with
                | None => Throw RuntimeError
                | Some (i3, _) =>
                    let triangle := simplex_of (map N.to_nat [i1; i2; i3]) 0%Z in
                    let* es := foldM parse_edge (boundary triangle) (edges, simplices) in
                    Ok (lines, line, fst es, snd es ++ [triangle])
                end
            end
        end
      else Throw RuntimeError
  end.
(** PLY.hh 426-552: the coordinates and the simplices *)
Definition parseASCII (h : header) (lines : list str) : outcome (list (list Z) * list simplex) :=
  let* st := foldM (parse_vertex (h_properties h)) (seq 0 (N.to_nat (h_vertices h))) (lines, [], [], []) in
  let '(lines, line, coordinates, simplices) := st in
  let* st := foldM parse_face (seq 0 (N.to_nat (h_faces h))) (lines, line, [], simplices) in
  Ok (coordinates, snd st).
(** PLY.hh 364-423: every property is checked for being a list, but the sizes of others are not assigned; no simplices are created *)
Definition parseBinary (h : header) : outcome (list (list Z) * list simplex) :=
  if existsb (fun p => match pd_list p with None => true | Some _ => false end) (h_properties h) then UB else Ok ([], []).
End Reader.

Section File.
Variable conv : str -> Z.
Variable stod : str -> outcome Z.
Variables lowest highest : Z.
Variable property : str.
(** PLY.hh 156-354, with the property that has been set *)
Definition readPLY (text : str) : outcome complex :=
  let ends := match rev text with [] => true | c :: _ => Ascii.eqb c newline end in
  match getlines [] text with
  | l1 :: l2 :: lines =>
      let format := trim (skipn 6 (trim l2)) in
      if negb (str_eqb (trim l1) (chars "ply")) then Throw RuntimeError
      else if negb (starts "format" (trim l2)) then Throw RuntimeError
      else
        let* binary := (if str_eqb format (chars "ascii 1.0") then Ok false
                        else if str_eqb format (chars "binary_little_endian 1.0") || str_eqb format (chars "binary_big_endian 1.0") then Ok true
                        else Throw RuntimeError) in
        let* x := parse_header lines (Header 0 0 [] (Some 0)) in
        let '(h, lines) := x in
        if N.eqb (h_vertices h) 0 || N.eqb (h_faces h) 0 then Throw Terminated
        else
          let* simplices := if binary : bool then parseBinary h else parseASCII conv stod property ends h lines in
          let* K := k_of_range (snd simplices) in
          Ok (k_sort data_cmp (recalculateWeights lowest highest true false K))
  | _ => Throw RuntimeError
  end.
End File.
