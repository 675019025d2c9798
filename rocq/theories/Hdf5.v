(** * Model of [topology/io/HDF5.hh], with the library available.

    A data set is given by its extents, by whether its type is one of the types of the reader, and by its values,
    after the conversion to the data type, in the order of the file.  Files, groups and names, and overflows of
    vertices, are not modelled. *)
From Coq Require Import List Arith Bool ZArith.
From Verif Require Import Base Simplex Complex.
Import ListNotations.

(** HDF5.hh 134-137 *)
Definition coordinatesToIndex (width x y : nat) : nat := y * width + x.
(** HDF5.hh 148-159 *)
Definition neighbourCoordinates (width height x y : nat) : list nat :=
  (if 0 <? x then [coordinatesToIndex width (x - 1) y] else []) ++
  (if x <? width - 1 then [coordinatesToIndex width (x + 1) y] else []) ++
  (if 0 <? y then [coordinatesToIndex width x (y - 1)] else []) ++
  (if y <? height - 1 then [coordinatesToIndex width x (y + 1)] else []) ++
  (if (x <? width - 1) && (0 <? y) then [coordinatesToIndex width (x + 1) (y - 1)] else []).
(** HDF5.hh 157-165 *)
Definition triangleCoordinates (width x y : nat) : list nat :=
  if (x <? width - 1) && (0 <? y)
  then [coordinatesToIndex width x y; coordinatesToIndex width x (y - 1); coordinatesToIndex width (x + 1) y; coordinatesToIndex width (x + 1) (y - 1)]
  else [].

Section Field.
Variable f : Z -> Z -> Z.
Variable data : list Z.
(** HDF5.hh 172-179 *)
Definition add_edge (u : nat) (simplices : list simplex) (v : nat) : outcome (list simplex) :=
  if v <? u then
    let* a := get_ data u in
    let* b := get_ data v in
    Ok (simplices ++ [simplex_of [u; v] (f a b)])
  else Ok simplices.
(** HDF5.hh 181-190 *)
Definition add_triangles (t : list nat) (simplices : list simplex) : outcome (list simplex) :=
  match t with
  | [] => Ok simplices
  | _ =>
      let* u := at_ t 0 in let* v := at_ t 1 in let* w := at_ t 2 in let* x := at_ t 3 in
      let* a := get_ data u in let* b := get_ data v in let* c := get_ data w in let* d := get_ data x in
      Ok (simplices ++ [simplex_of [u; x; w] (f a (f d c)); simplex_of [u; v; x] (f a (f b d))])
  end.
(** HDF5.hh 141-191 *)
Definition add_cells (width height y : nat) (simplices : list simplex) (x : nat) : outcome (list simplex) :=
  let* simplices := foldM (add_edge (coordinatesToIndex width x y)) (neighbourCoordinates width height x y) simplices in
  add_triangles (triangleCoordinates width x y) simplices.
(** HDF5.hh 126-127 *)
Definition add_vertex (simplices : list simplex) (i : nat) : outcome (list simplex) :=
  let* a := at_ data i in Ok (simplices ++ [simplex_vertex i a]).
End Field.

(** HDF5.hh 81-194 and 223-255; [None] if the complex remains unchanged *)
Definition readHDF5 (f : Z -> Z -> Z) (extents : list nat) (known : bool) (values : list Z) : outcome (option complex) :=
  match extents with
  | [width; height] =>
      let n := width * height in
      if known then
        let* simplices := foldM (add_vertex values) (seq 0 n) [] in
        let* simplices := foldM (fun l y => foldM (add_cells f values width height y) (seq 0 width) l) (seq 0 height) simplices in
        let* K := k_of_range simplices in
        Ok (Some K)
      else Throw RuntimeError
  | _ => Ok None
  end.
