(** * Model of [topology/io/Pajek.hh] and of the labels in [topology/io/SimplicialComplexReader.hh].

    The four regular expressions are modelled by functions that yield the captured groups; they are
    compared with the expressions in PropertiesPajek.v.  The data of a simplex is an integer, with the
    conversion [conv] of a text; vertices are unsigned numbers of 32 bits.  The call [line.front()] for an
    empty line is undefined; with [strict = false], it yields the null character, as in common
    implementations.  The reservation of memory is not modelled. *)
From Coq Require Import String Ascii List Arith Bool NArith ZArith.
From Verif Require Import Base LoadMatrix StringUtilities Simplex Complex DiagramIO Filesystem.
Import ListNotations.
Local Open Scope list_scope.

(** character classes: [[:alpha:]], [[:digit:]], and [.] *)
Definition isalpha (c : ascii) : bool :=
  let n := nat_of_ascii c in ((65 <=? n) && (n <=? 90)) || ((97 <=? n) && (n <=? 122)).
Definition isdigit (c : ascii) : bool := match digit c with Some _ => true | None => false end.
Definition anychar (c : ascii) : bool := let n := nat_of_ascii c in negb ((n =? 10) || (n =? 13)).
(** the longest prefix of characters in a class *)
Fixpoint span (p : ascii -> bool) (s : str) : str * str :=
  match s with
  | c :: t => if p c then let '(a, b) := span p t in (c :: a, b) else ([], s)
  | [] => ([], [])
  end.

(** Pajek.hh 56: the keyword *)
Definition match_keyword (line : str) : option str :=
  match line with
  | c :: t => if Ascii.eqb c "*" then
                match span isalpha t with
                | ([], _) => None
                | (name, rest) => if forallb anychar rest then Some name else None
                end
              else None
  | [] => None
  end.
(** Pajek.hh 57: the number *)
Definition match_key_value (line : str) : option str :=
  match line with
  | c :: t => if Ascii.eqb c "*" then
                match span isalpha t with
                | ([], _) => None
                | (_, rest) =>
                    match span isspace rest with
                    | ([], _) => None
                    | (_, number) => match span isdigit number with
                                     | ([], _) => None
                                     | (d, []) => Some d
                                     | _ => None
                                     end
                    end
                end
              else None
  | [] => None
  end.
(** Pajek.hh 58: number and label *)
Definition match_vertex (line : str) : option (str * str) :=
  match span isdigit line with
  | ([], _) => None
  | (id, rest) =>
      match span isspace rest with
      | ([], _) => None
      | (_, c :: t) => if Ascii.eqb c quote then
                         match rev t with
                         | d :: r => if Ascii.eqb d quote && forallb anychar r then Some (id, rev r) else None
                         | [] => None
                         end
                       else None
      | _ => None
      end
  end.
(** Pajek.hh 59: two numbers and a weight that may be empty *)
Definition isweight (c : ascii) : bool := isdigit c || Ascii.eqb c dot.
Definition match_edge (line : str) : option (str * str * str) :=
  match span isdigit line with
  | ([], _) => None
  | (u, rest) =>
      match span isspace rest with
      | ([], _) => None
      | (_, rest) =>
          match span isdigit rest with
          | ([], _) => None
          | (v, rest) => let '(_, w) := span isspace rest in
                         if forallb isweight w then Some (u, v, w) else None
          end
      end
  end.

(** [std::map< std::string, std::string >]: sorted by the keys *)
Fixpoint str_ltb (a b : str) : bool :=
  match a, b with
  | _, [] => false
  | [], _ :: _ => true
  | c :: a, d :: b => if N.ltb (N_of_ascii c) (N_of_ascii d) then true else if N.ltb (N_of_ascii d) (N_of_ascii c) then false else str_ltb a b
  end.
Definition smap : Type := list (str * str).
Fixpoint smap_find (k : str) (m : smap) : option str :=
  match m with
  | [] => None
  | (k', v) :: m' => if str_eqb k k' then Some v else smap_find k m'
  end.
Fixpoint smap_set (k v : str) (m : smap) : smap :=
  match m with
  | [] => [(k, v)]
  | (k', v') :: m' => if str_eqb k k' then (k, v) :: m'
                      else if str_ltb k k' then (k, v) :: m
                      else (k', v') :: smap_set k v m'
  end.

(** Pajek.hh 173-178 *)
Inductive mode := Vertices | Edges | Unspecified.
Record pajek := PajekState { pj_mode : mode; pj_number : N; pj_labels : smap; pj_simplices : list simplex }.

(** Pajek.hh 117, 132, 141: [VertexType( ... )] *)
Definition vertex_of (n : N) : nat := N.to_nat (n mod 2 ^ 32).
(** Pajek.hh 129-133 *)
Definition create_vertices (number : N) (l : list simplex) : list simplex :=
  match l with
  | [] => map (fun i => simplex_vertex (vertex_of (N.of_nat i + 1)) 0%Z) (seq 0 (N.to_nat number))
  | _ => l
  end.

(** Pajek.hh 68-161 *)
Definition pajek_line (strict : bool) (conv : str -> Z) (st : pajek) (line : str) : outcome pajek :=
  let line := trim line in
  let* front := match line with c :: _ => Ok c | [] => if strict then UB else Ok "000"%char end in
  if Ascii.eqb front "%" then Ok st
  else
    match match_keyword line with
    | Some name =>
        let name := map tolower name in
        if str_eqb name (chars "vertices") || str_eqb name (chars "verts") then
          match match_key_value line with
          | None => Throw RuntimeError
          | Some d => let* n := stoul d in Ok (PajekState Vertices n (pj_labels st) (pj_simplices st))
          end
        else if str_eqb name (chars "edges") || str_eqb name (chars "arcs") then
          Ok (PajekState Edges (pj_number st) (pj_labels st) (pj_simplices st))
        else Ok st
    | None =>
        match pj_mode st with
        | Vertices =>
            match match_vertex line with
            | None => Throw RuntimeError
            | Some (id, label) =>
                match smap_find id (pj_labels st) with
                | Some _ => Throw RuntimeError
                | None =>
                    let* v := stoul id in
                    Ok (PajekState Vertices (pj_number st) (smap_set id label (pj_labels st))
                                   (pj_simplices st ++ [simplex_vertex (vertex_of v) 0%Z]))
                end
            end
        | Edges =>
            let simplices := create_vertices (pj_number st) (pj_simplices st) in
            if N.ltb (N.of_nat (length simplices)) (pj_number st) then Throw RuntimeError
            else
              match match_edge line with
              | None => Throw RuntimeError
              | Some (u, v, w) =>
                  let* source := stoul u in
                  let* target := stoul v in
                  let edge := simplex_of [vertex_of source; vertex_of target] 0%Z in
                  let edge := match w with [] => edge | _ => set_data edge (conv w) end in
                  Ok (PajekState Edges (pj_number st) (pj_labels st) (simplices ++ [edge]))
              end
        | Unspecified => Ok st
        end
    end.

(** Pajek.hh 44-169: the complex and the labels *)
Definition readPajek (strict : bool) (conv : str -> Z) (text : str) : outcome (complex * smap) :=
  let* st := foldM (pajek_line strict conv) (getlines [] text) (PajekState Unspecified 0 [] []) in
  let* K := k_of_range (pj_simplices st) in
  Ok (K, pj_labels st).

(** SimplicialComplexReader.hh 243-258 *)
Definition getLabels (m : smap) : list str := filter (fun l => match l with [] => false | _ => true end) (map snd m).
