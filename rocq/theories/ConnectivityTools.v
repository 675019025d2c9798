(** * Model of [src/tools/connectivity_matrix_analysis.cc] and [src/tools/ephemeral.cc].

    As in ReadMatrices.v, the entries of matrices are integers, and files are given by their text.  [inf] is the second
    coordinate of unpaired points. *)
From Coq Require Import String Ascii List Arith Bool ZArith.
From Verif Require Import Base StringUtilities Filesystem Simplex Complex Rips Matrix DiagramIO Diagram ReadMatrices LoadMatrix.
Import ListNotations.
Local Open Scope list_scope.

(** connectivity_matrix_analysis.cc 100-128, ephemeral.cc 120-137: the complex, which is empty in the beginning;
    zero weights are ignored *)
Definition load_graph (lo hi : Z) (strat : strategy) (f : Z -> Z -> Z -> Z) (text : str) : outcome complex :=
  let* r := read_adjacency lo hi true strat f text in
  Ok (match r with Some K => K | None => k_empty end).

(** connectivity_matrix_analysis.cc 146-157, ephemeral.cc 190-203; [None]: the value is not finite *)
Definition replace_unpaired (inf : Z) (infinity : option Z) (D : diagram) : diagram :=
  match infinity with
  | None => D
  | Some x => Diagram (dgm_dim D) (map (fun p => if isUnpaired inf p then (fst p, x) else p) (points D))
  end.

(** connectivity_matrix_analysis.cc 113-157: the diagrams of one file.  The dimension is not used. *)
Definition connectivity_file (inf : Z) (order : list nat -> list nat) (a : algorithm) (lo hi : Z) (infinity : option Z) (keepUnpaired : bool)
  (text : str) : outcome (list diagram) :=
  let* K := load_graph lo hi AssignZero (fun maxWeight _ weight => maxWeight - weight)%Z text in
  let K := k_sort_default K in
  let* ds := calculatePersistenceDiagrams inf order a K true keepUnpaired in
  Ok (map (replace_unpaired inf infinity) ds).

(** [std::vector::resize] *)
Definition resize_diagrams (n : nat) (ds : list diagram) : list diagram :=
  firstn n ds ++ repeat empty_diagram (n - length ds).

(** ephemeral.cc 172-178 *)
Definition follows_indexing (ds : list diagram) : bool :=
  forallb (fun iD => match points (snd iD) with [] => true | _ => dgm_dim (snd iD) =? fst iD end) (combine (seq 0 (length ds)) ds).

(** ephemeral.cc 108-206.  The filtrations of 154-161 have the same comparison. *)
Definition processFilename (inf : Z) (order horder : list nat -> list nat) (a : algorithm) (lo hi : Z) (infinity : option Z) (dimension : nat)
  (keepUnpaired reverse distance : bool) (numDiagrams : nat) (strat : strategy) (text : str) : outcome (list diagram) :=
  let* K := load_graph lo hi strat (if distance then fun _ _ weight => 1 - weight else fun _ _ weight => weight)%Z text in
  let* K := if dimension =? 0 then Ok K
            else let* K := ripsExpander horder K dimension in Ok (assignMaximumWeight K 1) in
  if distance && reverse then Throw Terminated
  else
    let K := if reverse then k_sort data_cmp K else k_sort data_cmp K in
    let* ds := calculatePersistenceDiagrams inf order a K true keepUnpaired in
    let ds := resize_diagrams numDiagrams ds in
    if negb (follows_indexing ds) then Throw Terminated
    else
      let infinity := if reverse then option_map Z.opp infinity else infinity in
      Ok (map (replace_unpaired inf infinity) ds).

(** ephemeral.cc 55-91: the collection as a function of the names of files *)
Definition collection := str -> option (list diagram).
Definition new_collection (numDiagrams : nat) (names : list str) : collection :=
  fun s => if existsb (str_eqb s) names then Some (repeat empty_diagram numDiagrams) else None.
Fixpoint merge_all (current ds : list diagram) : outcome (list diagram) :=
  match ds, current with
  | [], _ => Ok current
  | _ :: _, [] => Throw OutOfRange
  | D :: ds, C :: current => let* r := merge_all current ds in Ok (d_merge C D :: r)
  end.
Definition update_collection (c : collection) (key : str) (ds : list diagram) : outcome collection :=
  match c key with
  | None => Throw OutOfRange
  | Some current => let* r := merge_all current ds in Ok (fun s => if str_eqb s key then Some r else c s)
  end.

(** ephemeral.cc 208-396 for files with names and texts; the result is given by the collection (397-417) *)
Definition process_all (process : str -> outcome (list diagram)) (files : list (str * str)) (c : collection) : outcome collection :=
  foldM (fun c file => let* ds := process (snd file) in update_collection c (fst file) ds) files c.
Definition ephemeral (inf : Z) (order horder : list nat -> list nat) (a : algorithm) (lo hi : Z) (infinity : option Z) (dimension : nat)
  (keepUnpaired distance : bool) (files : list (str * str)) : outcome collection :=
  let numDiagrams := (if keepUnpaired then 1 else 0) + dimension + 1 in
  let c := new_collection numDiagrams (map fst files) in
  let process := processFilename inf order horder a lo hi infinity dimension keepUnpaired in
  if distance then process_all (process false true numDiagrams AssignZero) files c
  else
    let* c := process_all (process false false numDiagrams AssignGlobalMinimum) files c in
    process_all (process true false numDiagrams AssignGlobalMaximum) files c.

(** connectivity_matrix_analysis.cc 109-110, 170, 174-176: what is written for diagrams with names and pairs of keys and values *)
Definition connectivity_output {V} (show : V -> str) (inf : V -> bool) (items : list (DiagramIO.diagram V * str * list (str * str))) : str :=
  chars "{" ++ [newline] ++ chars """diagrams"": [" ++ [newline] ++
  concat (map (fun i => writeJSON show inf (fst (fst i)) (snd (fst i)) (snd i)) items) ++
  [newline] ++ chars "]" ++ [newline] ++ chars "}" ++ [newline].
