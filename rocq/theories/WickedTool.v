(** * Model of the main program of [src/tools/wicked_triangulations.cc].

    The reader of the triangulations is in Triangulations.v, the functions of the tool are in Signatures.v.  Weights are of
    type [bool]; all of them are zero, and [inf] stands for the value of unpaired points.  The map of perversities (line 279
    and 288-301) stores results of a function without effects, so it is left out; so are the sorted signatures (line 337-338),
    which are not used.  [order] and [sorder] stand for the orders of hash containers. *)
From Coq Require Import String Ascii.
From Coq Require Import List Arith Bool ZArith.
From Verif Require Import Base LoadMatrix StringUtilities Simplex Matrix Complex Subcomplex PropertiesString DiagramIO Diagram Perversity IntersectionHomology Barycentric
  Triangulations Signatures.
Import ListNotations.
Local Open Scope list_scope.
Local Open Scope nat_scope.

(** wicked_triangulations.cc 75-81, PhiPersistence.hh 195-201: elements with commas between them *)
Fixpoint comma_list (first : bool) (l : list str) : str :=
  match l with
  | [] => []
  | s :: t => (if first then [] else chars ",") ++ s ++ comma_list false t
  end.
(** wicked_triangulations.cc 71-86 *)
Definition print_signature (b : list nat) : str := chars "[" ++ comma_list true (map print_nat b) ++ chars "]".
(** PhiPersistence.hh 191-206 *)
Definition print_perversity (p : list Z) : str := chars "[" ++ comma_list true (map print_Z p) ++ chars "]".

(** 208 *)
Definition level : str := chars "  ".
Definition quoted (s : str) : str := chars """" ++ s ++ chars """".
(** 215, 239-246 and others: the line that opens an object with a number as its name, and the one that closes it *)
Definition open_object (indent : str) (index : nat) : str := indent ++ quoted (print_nat index) ++ chars ":" ++ level ++ chars "{" ++ [newline].
Definition close_object (indent : str) (index total : nat) : str := indent ++ chars "}" ++ (if index + 1 <? total then chars "," else []) ++ [newline].

(** 199-203: missing faces, sorting *)
Definition prepare (K : complex) : outcome complex := let* L := createMissingFaces K in Ok (k_sort_default L).

(** 213-248: one triangulation *)
Definition homology_entry (inf : Z) (order : list nat -> list nat) (a : algorithm) (total index : nat) (K : complex) : outcome str :=
  let* ds := calculatePersistenceDiagrams inf order a K true true in
  let* d := k_dimension K in
  let* b := makeSignature inf ds d in
  Ok (open_object (level ++ level) index ++
      level ++ level ++ level ++ quoted (chars "betti") ++ chars ":" ++ level ++ print_signature b ++ chars "," ++ [newline] ++
      level ++ level ++ level ++ quoted (chars "euler") ++ chars ":" ++ level ++ print_Z (signature_euler b) ++ [newline] ++
      close_object (level ++ level) index total).
(** 205-248 *)
Definition homology_section (inf : Z) (order : list nat -> list nat) (a : algorithm) (Ks : list complex) : outcome str :=
  let* body := foldM (fun out q => let* s := homology_entry inf order a (length Ks) (fst q) (snd q) in Ok (out ++ s)) (combine (seq 0 (length Ks)) Ks) [] in
  Ok (chars "{" ++ [newline] ++ level ++ quoted (chars "homology") ++ chars ":" ++ level ++ chars "{" ++ [newline] ++ body).

(** 313-335: one perversity *)
Definition perversity_entry (inf : Z) (order : list nat -> list nat) (a : algorithm) (L : complex) (X : list complex) (d total index : nat) (p : list Z) : outcome str :=
  let* ds := calculateIntersectionHomology inf order a false (perversity_at p) L X true in
  let* b := makeSignature inf ds d in
  Ok (open_object (level ++ level ++ level) index ++
      level ++ level ++ level ++ level ++ quoted (chars "perversity") ++ chars ":" ++ level ++ print_perversity p ++ chars "," ++ [newline] ++
      level ++ level ++ level ++ level ++ quoted (chars "betti") ++ chars ":" ++ level ++ print_signature b ++ [newline] ++
      close_object (level ++ level ++ level) index total).
(** 275-349: one triangulation *)
Definition intersection_entry (inf : Z) (order : list nat -> list nat) (sorder : submap -> submap) (a : algorithm) (total index : nat) (K : complex) : outcome str :=
  let* d := k_dimension K in
  let X := map (fun e => skeleton e K) (seq 0 (d + 1)) in
  let* L := subdivide sorder empty_functor K in
  let* ps := getPerversities d in
  let* body := foldM (fun out q => let* s := perversity_entry inf order a L X d (length ps) (fst q) (snd q) in Ok (out ++ s)) (combine (seq 0 (length ps)) ps) [] in
  Ok (open_object (level ++ level) index ++ body ++ close_object (level ++ level) index total).
(** 250-251, 270-353 *)
Definition intersection_section (inf : Z) (order : list nat -> list nat) (sorder : submap -> submap) (a : algorithm) (Ks : list complex) : outcome str :=
  let* body := foldM (fun out q => let* s := intersection_entry inf order sorder a (length Ks) (fst q) (snd q) in Ok (out ++ s)) (combine (seq 0 (length Ks)) Ks) [] in
  Ok (level ++ chars "}," ++ [newline] ++ level ++ quoted (chars "intersection_homology") ++ chars ":" ++ level ++ chars "{" ++ [newline] ++ body ++
      level ++ chars "}" ++ [newline] ++ chars "}" ++ [newline]).

(** 183-354: the output for the text of the file *)
Definition wicked (fuel : nat) (vmax inf : Z) (order : list nat -> list nat) (sorder : submap -> submap) (a : algorithm) (text : str) : outcome str :=
  let* Ks := read_triangulations fuel vmax text in
  let* Ks := foldM (fun l K => let* L := prepare K in Ok (l ++ [L])) Ks [] in
  let* h := homology_section inf order a Ks in
  let* i := intersection_section inf order sorder a Ks in
  Ok (h ++ i).
