(** * Model of [tools/persistence_indicator_function.cc].

    Numbers are integers, as in StepFunction.v.  The diagrams that are stored in the files are given by a function, and files
    that are written are pairs of a name and a text, of which the last one counts. *)
From Coq Require Import String Ascii List Arith Bool ZArith QArith.
From Verif Require Import Base LoadMatrix StringUtilities DiagramIO Filesystem.
From Verif Require Import Diagram StepFunction StepText.
Import ListNotations.
Local Open Scope list_scope.
Local Open Scope nat_scope.

(** persistence_indicator_function.cc 89-98: the directory ends with a slash *)
Definition output_directory (o : str) : str :=
  let o := match o with [] => chars "/tmp/" | _ => o end in
  match last_opt o with
  | Some c => if Ascii.eqb c slash then o else o ++ [slash]
  | None => o
  end.
(** 151-153 *)
Definition output_filename (directory prefix filename : str) : str :=
  directory ++ prefix ++ stem (basename filename) ++ chars ".txt".
(** [std::ofstream]: a file that exists is overwritten *)
Definition write_file (name text : str) (files : list (str * str)) : list (str * str) :=
  filter (fun f => negb (str_eqb (fst f) name)) files ++ [(name, text)].

Record state := State { mean_function : step_function; functions : list step_function; written : list (str * str) }.

(** 141-163: the loop over all diagrams *)
Definition indicator_step (inf : Z) (calculateMean : bool) (directory prefix : str) (st : state) (x : str * diagram) : outcome state :=
  let '(filename, D) := x in
  let* f := persistenceIndicatorFunction inf D in
  let* m := if calculateMean then sf_plus (mean_function st) f else Ok (mean_function st) in
  Ok (State m (functions st ++ [f]) (write_file (output_filename directory prefix filename) (sf_print f ++ [newline]) (written st))).

(** 165-204: the mean, its norm, and the sample variance, where [None] is infinity *)
Definition sample_variance (Y : Z) (fs : list step_function) : option Q :=
  let s := fold_left (fun s f => s + (sf_integral f - Y) * (sf_integral f - Y))%Z fs 0%Z in
  if 1 <? length fs then Some (inject_Z s / inject_Z (Z.of_nat (length fs) - 1))%Q else None.
(** 51-206 *)
Definition indicator_tool (inf : Z) (calculateMean : bool) (o prefix : str) (load : str -> diagram) (filenames : list str)
  : outcome (list (str * str) * option (Z * option Q)) :=
  let directory := output_directory o in
  let diagrams := map (fun name => (name, removeUnpaired inf (load name))) filenames in
  let* st := foldM (indicator_step inf calculateMean directory prefix) diagrams (State [] [] []) in
  if calculateMean then
    let* m := sf_divide (Z.of_nat (length filenames)) (mean_function st) in
    let Y := sf_integral m in
    Ok (write_file (directory ++ prefix ++ chars "mean.txt") (sf_print m ++ [newline]) (written st), Some (Y, sample_variance Y (functions st)))
  else Ok (written st, None).
