(** * Model of [topology/io/VTK.hh].

    A file is given by its contents.  The regular expressions are modelled by functions that yield the
    captured groups; they are compared with the expressions in PropertiesVtk.v.  The data of a simplex is an
    integer, with the conversion [conv] of a text; vertices are natural numbers.  Sizes of types are those of
    64 bit platforms.  The reservation of memory and overflow in the indices of the grid are not modelled. *)
From Coq Require Import String Ascii List Arith Bool NArith ZArith.
From Verif Require Import Base LoadMatrix StringUtilities Simplex Complex Pajek.
Import ListNotations.
Local Open Scope list_scope.
Local Open Scope nat_scope.

(** ** Expressions *)
Definition obind {A B} (m : option A) (f : A -> option B) : option B := match m with Some a => f a | None => None end.
Notation "'let?' x := m 'in' k" := (obind m (fun x => k)) (at level 200, x pattern, m at level 100, k at level 200).
(** a text at the beginning *)
Definition m_lit (p s : str) : option str := if str_eqb (firstn (length p) s) p then Some (skipn (length p) s) else None.
(** the longest prefix of characters in a class, if it is not empty *)
Definition m_plus (cls : ascii -> bool) (s : str) : option (str * str) := match span cls s with ([], _) => None | x => Some x end.
Definition m_end {A} (s : str) (a : A) : option A := match s with [] => Some a | _ => None end.
Definition isalnum (c : ascii) : bool := isalpha c || isdigit c.

(** VTK.hh 357 *)
Definition match_identifier (s : str) : option (str * str) :=
  let? s := m_lit (chars "#") s in let? (_, s) := m_plus isspace s in
  let? s := m_lit (chars "vtk") s in let? (_, s) := m_plus isspace s in
  let? s := m_lit (chars "DataFile") s in let? (_, s) := m_plus isspace s in
  let? s := m_lit (chars "Version") s in let? (_, s) := m_plus isspace s in
  let? (a, s) := m_plus isdigit s in let? s := m_lit (chars ".") s in let? (b, s) := m_plus isdigit s in m_end s (a, b).
(** VTK.hh 376 *)
Definition match_structure (s : str) : option unit :=
  let? s := m_lit (chars "DATASET") s in let? (_, s) := m_plus isspace s in let? s := m_lit (chars "STRUCTURED_GRID") s in m_end s tt.
(** VTK.hh 380 *)
Definition match_dimensions (s : str) : option (str * str * str) :=
  let? s := m_lit (chars "DIMENSIONS") s in
  let? (_, s) := m_plus isspace s in let? (x, s) := m_plus isdigit s in
  let? (_, s) := m_plus isspace s in let? (y, s) := m_plus isdigit s in
  let? (_, s) := m_plus isspace s in let? (z, s) := m_plus isdigit s in m_end s (x, y, z).
(** VTK.hh 394 *)
Definition match_points (s : str) : option (str * str) :=
  let? s := m_lit (chars "POINTS") s in
  let? (_, s) := m_plus isspace s in let? (n, s) := m_plus isdigit s in
  let? (_, s) := m_plus isspace s in let? (t, s) := m_plus isalpha s in m_end s (n, t).
(** VTK.hh 130 *)
Definition match_point_data (s : str) : option str :=
  let? s := m_lit (chars "POINT_DATA") s in let? (_, s) := m_plus isspace s in let? (n, s) := m_plus isdigit s in m_end s n.
(** VTK.hh 131 *)
Definition match_scalars (s : str) : option (str * str * str) :=
  let? s := m_lit (chars "SCALARS") s in
  let? (_, s) := m_plus isspace s in let? (name, s) := m_plus isalnum s in
  let? (_, s) := m_plus isspace s in let? (type, s) := m_plus isalnum s in
  let '(_, s) := span isspace s in let '(components, s) := span isdigit s in m_end s (name, type, components).
(** VTK.hh 132 *)
Definition match_lookup (s : str) : option str :=
  let? s := m_lit (chars "LOOKUP_TABLE") s in let? (_, s) := m_plus isspace s in let? (name, s) := m_plus isalnum s in m_end s name.

(** ** Header *)
(** VTK.hh 403-424: a size that is not assigned is indeterminate *)
Definition type_size (t : str) : option nat :=
  match find (fun p => str_eqb t (chars (fst p)))
    [("double", 8); ("float", 4); ("long", 8); ("unsigned_long", 8); ("int", 4); ("unsigned_int", 4); ("short", 2); ("unsigned_short", 2); ("char", 1); ("unsigned char", 1); ("bit", 1)]%string with
  | Some (_, s) => Some s
  | None => None
  end.
(** VTK.hh 330-427: the dimensions, the number of points, the size and what follows the header; [None] if the
    function returns [false] *)
Definition parseHeader (lines : list str) : outcome (option (nat * nat * nat * N * option nat * list str)) :=
  match lines with
  | identifier :: _ :: format :: lines =>
      match match_identifier (trim identifier) with
      | None => Ok None
      | Some _ =>
          if negb (str_eqb (trim format) (chars "ASCII")) then Throw RuntimeError
          else
            match lines with
            | structure :: dimensions :: points :: lines =>
                match match_structure (trim structure), match_dimensions (trim dimensions) with
                | Some _, Some (sx, sy, sz) =>
                    let* x := stoul sx in
                    let* y := stoul sy in
                    let* z := stoul sz in
                    match match_points (trim points) with
                    | None => Ok None
                    | Some (sn, st) => let* n := stoul sn in Ok (Some (N.to_nat x, N.to_nat y, N.to_nat z, n, type_size st, lines))
                    end
                | _, _ => Ok None
                end
            | _ => Ok None
            end
      end
  | _ => Ok None
  end.

(** ** Grid *)
(** VTK.hh 258-267 *)
Definition indexToCoordinates (nx ny i : nat) : nat * nat * nat := (i mod nx, (i / nx) mod ny, i / (nx * ny)).
(** VTK.hh 274-278 *)
Definition coordinatesToIndex (nx ny x y z : nat) : nat := z * nx * ny + x mod nx + y * nx.
(** VTK.hh 287-315 *)
Definition neighbours (nx ny nz x y z : nat) : list nat :=
  (if 0 <? x then [coordinatesToIndex nx ny (x - 1) y z] else []) ++ (if x + 1 <? nx then [coordinatesToIndex nx ny (x + 1) y z] else []) ++
  (if 0 <? y then [coordinatesToIndex nx ny x (y - 1) z] else []) ++ (if y + 1 <? ny then [coordinatesToIndex nx ny x (y + 1) z] else []) ++
  (if 0 <? z then [coordinatesToIndex nx ny x y (z - 1)] else []) ++ (if z + 1 <? nz then [coordinatesToIndex nx ny x y (z + 1)] else []).

Section Reader.
Variable conv : str -> Z.
Variable f : Z -> Z -> Z.

(** VTK.hh 221-234 *)
Definition vtk_edge (i : nat) (simplices : list simplex) (j : nat) : outcome (list simplex) :=
  if i <? j then Ok simplices
  else
    let* s := at_ simplices i in
    let* t := at_ simplices j in
    Ok (simplices ++ [simplex_of [i; j] (f (data s) (data t))]).
(** VTK.hh 212-237 *)
Definition vtk_edges (nx ny nz : nat) (simplices : list simplex) : outcome (list simplex) :=
  foldM (fun simplices z => foldM (fun simplices y => foldM (fun simplices x =>
    foldM (vtk_edge (coordinatesToIndex nx ny x y z)) (neighbours nx ny nz x y z) simplices) (seq 0 nx) simplices) (seq 0 ny) simplices) (seq 0 nz) simplices.

(** VTK.hh 137-147: what follows the coordinates *)
Fixpoint skip_coordinates (total count : N) (lines : list str) : list str :=
  match lines with
  | [] => []
  | l :: t => let count := (count + N.of_nat (length (split isspace (trim l))))%N in
              if N.eqb count total then t else skip_coordinates total count t
  end.
(** VTK.hh 155-189: the values, and the name and type of the scalars *)
Definition vtk_line (n : N) (st : list Z * str * str) (line : str) : outcome (list Z * str * str) :=
  let '(values, name, type) := st in
  match match_point_data line with
  | Some sn => let* m := stoul sn in if N.eqb m n then Ok st else Throw RuntimeError
  | None =>
      match match_scalars line with
      | Some (name, type, components) =>
          match components with
          | [] => Ok (values, name, type)
          | _ => let* c := stoul components in if N.eqb c 1 then Ok (values, name, type) else Throw RuntimeError
          end
      | None =>
          match match_lookup line with
          | Some t => if str_eqb t (chars "default") then Ok st else Throw RuntimeError
          | None => Ok (values ++ map conv (split isspace (trim line)), name, type)
          end
      end
  end.
(** the members of the reader and the complex *)
Record vtk := Vtk { vtk_complex : complex; vtk_size : nat; vtk_name : str; vtk_type : str }.
(** VTK.hh 99-240, for a reader that is used once; [None] if the complex is not changed *)
Definition readVTK (text : str) : outcome (option vtk) :=
  let* h := parseHeader (getlines [] text) in
  match h with
  | None => Ok None
  | Some (_, _, _, _, None, _) => UB
  | Some (nx, ny, nz, n, Some s, lines) =>
      let* st := foldM (vtk_line n) (skip_coordinates ((3 * n) mod 2 ^ 64)%N 0%N lines) ([], [], []) in
      let '(values, name, type) := st in
      let vertices := map (fun p => simplex_vertex (fst p) (snd p)) (combine (seq 0 (length values)) values) in
      let* simplices := vtk_edges nx ny nz vertices in
      let* K := k_of_range simplices in
      Ok (Some (Vtk K s name type))
  end.
End Reader.
