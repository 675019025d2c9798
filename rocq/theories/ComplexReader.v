(** * Model of [topology/io/SimplicialComplexReader.hh].

    A file is given by its path and its contents: a text, and for HDF5 files the default data set with its extents,
    whether its type is known, and its values.  The parameters are those of the readers; opening a file is not
    modelled. *)
From Coq Require Import String Ascii List Arith Bool NArith ZArith.
From Verif Require Import Base LoadMatrix StringUtilities Simplex Complex Filesystem Pajek Gml Vtk Ply Hdf5 ReadEdges.
Import ListNotations.
Local Open Scope list_scope.
Local Open Scope nat_scope.

(** SimplicialComplexReader.hh 210-290: the attribute with data, the attribute with labels and the labels *)
Record reader := ComplexReader { data_attribute : str; label_attribute : str; labels_of : list str }.
(** SimplicialComplexReader.hh 224, 235 *)
Definition new_reader : reader := ComplexReader [] (chars "label") [].
Definition set_labels (r : reader) (l : list str) : reader := ComplexReader (data_attribute r) (label_attribute r) l.
(** SimplicialComplexReader.hh 171-174 and 187-190 *)
Definition setDataAttribute (r : reader) (a : str) : reader := ComplexReader a (label_attribute r) (labels_of r).
Definition setLabelAttribute (r : reader) (a : str) : reader := ComplexReader (data_attribute r) a (labels_of r).

Section Readers.
Variable strict : bool.
Variable conv : str -> Z.
Variable stod : str -> outcome Z.
Variables lowest highest vmax : Z.

(** SimplicialComplexReader.hh 91-162, for a complex [K] before the call *)
Definition read_complex (f : Z -> Z -> Z) (r : reader) (path text : str) (field : list nat * bool * list Z) (K : complex) : outcome (complex * reader) :=
  let e := extension path in
  if str_eqb e (chars ".gml") then
    let* x := readGML conv Z.max text in
    let '(L, nodes, _) := x in
    let* l := gml_labels nodes (label_attribute r) in
    Ok (L, set_labels r l)
  else if str_eqb e (chars ".h5") then
    let '(extents, known, values) := field in
    let* x := readHDF5 Z.max extents known values in
    Ok (match x with Some L => L | None => K end, r)
  else if str_eqb e (chars ".net") then
    let* x := readPajek strict conv text in
    Ok (fst x, set_labels r (getLabels (snd x)))
  else if str_eqb e (chars ".ply") then
    let* L := readPLY conv stod lowest highest (data_attribute r) text in
    Ok (L, r)
  else if str_eqb e (chars ".vtk") then
    let* x := readVTK conv f text in
    Ok (match x with Some v => vtk_complex v | None => K end, r)
  else
    let* x := read_edges lowest highest vmax true true isspace [] text in
    Ok (fst x, r).
(** SimplicialComplexReader.hh 57-63 *)
Definition read_complex_max : reader -> str -> str -> list nat * bool * list Z -> complex -> outcome (complex * reader) := read_complex Z.max.
End Readers.
