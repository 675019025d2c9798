(** * Model of the changes of diagrams in [src/tools/topological_distance.cc] and
      [src/tools/persistence_diagram_statistics.cc], and of the names in the latter.

    [DataType] is [Z]; [lowest] and [highest] are [std::numeric_limits<DataType>::lowest()] and
    [max()], [inf] is the second coordinate of unpaired points. *)
From Coq Require Import String Ascii List Arith NArith ZArith Bool.
From Verif Require Import Base Diagram LoadMatrix StringUtilities Pajek Filesystem.
Import ListNotations.
Local Open Scope list_scope.

Section Postprocess.
  Variables lowest highest inf : Z.

  (** topological_distance.cc 305-322 *)
  Definition getMinimumAndMaximum (D : diagram) : Z * Z :=
    fold_left (fun st p =>
      let min := Z.min (fst st) (fst p) in
      let max := Z.max (snd st) (fst p) in
      if isUnpaired inf p then (min, max) else (Z.min min (snd p), Z.max max (snd p))) (points D) (highest, lowest).

  (** topological_distance.cc 324-336 *)
  Definition getMaximum (D : diagram) : Z :=
    fold_left (fun max p =>
      let max := Z.max max (fst p) in
      if isUnpaired inf p then max else Z.max max (snd p)) (points D) lowest.

  (** topological_distance.cc 338-389: the quotients of lines 365-367 are not used *)
  Definition postprocess (D : diagram) (clean dup normalize : bool) (infinityFactor : Z) : diagram :=
    let result := if clean then removeUnpaired inf (removeDiagonal D) else D in
    let result := if dup then removeDuplicates result else result in
    let result := if normalize then Diagram (dgm_dim result) (map (fun p => (fst p, snd p)) (points result)) else result in
    if Z.eqb infinityFactor 0 then result
    else
      let max := getMaximum result in
      Diagram (dgm_dim result) (map (fun p => if isUnpaired inf p then (fst p, infinityFactor * max)%Z else p) (points result)).

  (** persistence_diagram_statistics.cc 183-202, if a value is given *)
  Definition filter_invalid (invalid : Z) (D : diagram) : diagram :=
    removeDiagonal (Diagram (dgm_dim D) (map (fun p => if Z.eqb (fst p) invalid || Z.eqb (snd p) invalid then (0, 0)%Z else p) (points D))).
End Postprocess.

(** persistence_diagram_statistics.cc 75, with [std::regex_match]: anything, an underscore, one of
    the letters d and k, and a number *)
Definition reStatisticsPrefix (name : str) : option (str * str) :=
  match span isdigit (rev name) with
  | (digits, letter :: u :: prefix) =>
      match digits with
      | [] => None
      | _ => if (Ascii.eqb letter "d" || Ascii.eqb letter "k") && Ascii.eqb u "_" && forallb anychar prefix then Some (rev prefix, rev digits)
             else None
      end
  | _ => None
  end.

(** persistence_diagram_statistics.cc 67-94; [unsigned] has 32 bits *)
Definition parseFilename (filename : str) : outcome (str * N) :=
  if list_eq_dec ascii_dec (extension filename) (chars ".txt") then
    let filename := stem filename in
    match reStatisticsPrefix filename with
    | Some (name, number) => let* v := stoul number in Ok (name, v mod 2 ^ 32)%N
    | None => Ok (stem filename, 0%N)
    end
  else Ok (stem filename, 0%N).
