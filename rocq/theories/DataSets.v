(** * Model of the assignment of files to data sets in [src/tools/topological_distance.cc].

    File names are lists of characters.  Reading the diagrams is not part of this file. *)
From Coq Require Import String Ascii List Arith NArith Bool.
From Verif Require Import Base LoadMatrix StringUtilities Pajek.
Import ListNotations.
Local Open Scope list_scope.

Definition str_eqb (s t : str) : bool := if list_eq_dec ascii_dec s t then true else false.

(** topological_distance.cc 550 with [std::regex_match]: anything, an underscore, one of the
    letters d and k, a number, and the extension.  The name is read from its end, where the digits
    stop at the letter; anything is everything but the ends of lines *)
Definition reDataSetPrefix (filename : str) : option (str * str) :=
  match rev filename with
  | t1 :: x :: t2 :: p :: rest =>
      if Ascii.eqb t1 "t" && Ascii.eqb x "x" && Ascii.eqb t2 "t" && Ascii.eqb p "." then
        match span isdigit rest with
        | (digits, letter :: u :: prefix) =>
            match digits with
            | [] => None
            | _ => if (Ascii.eqb letter "d" || Ascii.eqb letter "k") && Ascii.eqb u "_" && forallb anychar prefix then Some (rev prefix, rev digits)
                   else None
            end
        | _ => None
        end
      else None
  | _ => None
  end.

(** topological_distance.cc 552-571 *)
Definition lookup_name (m : list (str * nat)) (name : str) : option nat :=
  option_map snd (find (fun e => str_eqb (fst e) name) m).
Definition name_step (st : list (str * nat) * nat) (filename : str) : list (str * nat) * nat :=
  let name := match reDataSetPrefix filename with Some (prefix, _) => prefix | None => filename end in
  match lookup_name (fst st) name with
  | Some _ => st
  | None => (fst st ++ [(name, snd st)], S (snd st))
  end.
Definition filenameMap (filenames : list str) : list (str * nat) := fst (fold_left name_step filenames ([], 0)).

(** topological_distance.cc 77-86, the first three members *)
Record dataset := DataSet { ds_name : str; ds_filename : str; ds_dimension : N }.

(** topological_distance.cc 577-587: [unsigned] has 32 bits *)
Definition describe (filename : str) : outcome dataset :=
  match reDataSetPrefix filename with
  | Some (prefix, number) => let* v := stoul number in Ok (DataSet prefix filename (v mod 2 ^ 32))
  | None => Ok (DataSet filename filename 0)
  end.

(** topological_distance.cc 573-593; [filenameMap[name]] is zero for an unknown name *)
Definition set_step (m : list (str * nat)) (st : list (list dataset) * (N * N)) (filename : str) : outcome (list (list dataset) * (N * N)) :=
  let* d := describe filename in
  let index := match lookup_name m (ds_name d) with Some i => i | None => 0 end in
  let* group := at_ (fst st) index in
  Ok (upd (fst st) index (group ++ [d]), (N.min (fst (snd st)) (ds_dimension d), N.max (snd (snd st)) (ds_dimension d))).

(** topological_distance.cc 550-593: the data sets and the smallest and largest dimension *)
Definition group_files (filenames : list str) : outcome (list (list dataset) * (N * N)) :=
  let m := filenameMap filenames in
  foldM (set_step m) filenames (repeat [] (length m), (2 ^ 32 - 1, 0)%N).
