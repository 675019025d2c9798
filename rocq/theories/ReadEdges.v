(** * Model of [topology/io/EdgeLists.hh].

    [DataType] is an integral type with the range [lo], [hi]; [VertexType] is an
    unsigned type with the largest value [vmax].  The class [[_separator]] of the
    regular expression is given by a predicate.  Opening a file is not modelled. *)

From Coq Require Import List Arith Bool ZArith Ascii.
From Verif Require Import Base Simplex Complex LoadMatrix StringUtilities Intersections Barycentric.
Import ListNotations.

(** The lines seen by [while( in ) getline( in, line )] (72-74): the loop ends only after
    an attempt to read that fails.  Having reached the end of the file without a
    newline character, [getline] does not change [line], so that the last line is seen
    twice; otherwise it is cleared. *)
Definition seen_lines (text : str) : list str :=
  getlines [] text ++
  [match rev text with
   | [] => []
   | c :: _ => if Ascii.eqb c newline then [] else last (getlines [] text) []
   end].

(** EdgeLists.hh 158 *)
Definition comment_token (c : ascii) : bool :=
  Ascii.eqb c "#" || Ascii.eqb c "%" || Ascii.eqb c """" || Ascii.eqb c "*".

(** [convert<VertexType>]: a negative number is taken modulo [vmax + 1] *)
Definition vertex_of (vmax : Z) (s : str) : nat :=
  let '(z, fail) := extract (- vmax) vmax s in
  if fail then (if special s then 0 else if (z =? 0)%Z then 0 else Z.to_nat vmax)
  else if (z <? 0)%Z then Z.to_nat (vmax + 1 + z) else Z.to_nat z.

(** EdgeLists.hh 90 *)
Definition numeric (s : str) : bool := forallb (fun c => match digit c with Some _ => true | None => false end) s.

(** [std::map<std::string, std::size_t>] *)
Definition labels := list (str * nat).
Fixpoint label_find (m : labels) (s : str) : option nat :=
  match m with
  | [] => None
  | (t, i) :: r => if str_eqb t s then Some i else label_find r s
  end.
(** EdgeLists.hh 100-101, 103-104 *)
Definition label_add (st : labels * nat) (s : str) : labels * nat :=
  let '(m, lastID) := st in
  match label_find m s with
  | None => ((s, lastID) :: m, S lastID)
  | Some _ => st
  end.
(** [at] *)
Definition label_at (m : labels) (s : str) : outcome nat :=
  match label_find m s with Some i => Ok i | None => Throw OutOfRange end.

Record reader_state := Reader { node_labels : labels; last_id : nat; edges : list simplex; vertices : list simplex }.

Section Reader.
  Variables (lo hi vmax : Z) (readWeights trimLines : bool) (sep : ascii -> bool).

  (** EdgeLists.hh 74-120 *)
  Definition read_line (st : reader_state) (line : str) : outcome reader_state :=
    let line := if trimLines then trim line else line in
    let tokens := split sep line in
    match line with
    | [] => Ok st
    | c :: _ =>
        if comment_token c then Ok st
        else match tokens with
             | us :: vs :: rest =>
                 let* r :=
                   if numeric us then Ok (node_labels st, last_id st, vertex_of vmax us, vertex_of vmax vs)
                   else
                     let '(m, id) := label_add (label_add (node_labels st, last_id st) us) vs in
                     let* u := label_at m us in
                     let* v := label_at m vs in
                     Ok (m, id, u, v) in
                 let '(m, id, u, v) := r in
                 let w := match rest with x :: _ => if readWeights then fst (convert lo hi x) else 0%Z | [] => 0%Z end in
                 Ok (Reader m id (edges st ++ [simplex_of [u; v] w])
                       (sset_insert (simplex_vertex v 0) (sset_insert (simplex_vertex u 0) (vertices st))))
             | _ => Throw RuntimeError
             end
    end.

  (** EdgeLists.hh 57-133, for a reader whose [_nodeLabels] are [m]; the second result
      are those afterwards *)
  Definition read_edges (m : labels) (text : str) : outcome (complex * labels) :=
    let* st := foldM read_line (seen_lines text) (Reader m 0 [] []) in
    let simplices := sset_insert_all (vertices st) [] in
    let simplices := sset_insert_all (edges st) simplices in
    let* K := k_of_range simplices in
    Ok (K, node_labels st).
End Reader.
