(** * Model of the functions for paths of [utilities/Filesystem.hh].

    Paths are lists of characters without null characters; the function [basename] of POSIX is
    modelled according to its specification.  Queries of the file system are not modelled. *)
From Coq Require Import String Ascii List Arith Bool.
From Verif Require Import Base LoadMatrix StringUtilities.
Import ListNotations.
Local Open Scope list_scope.

Definition slash : ascii := "/"%char.
Definition dot : ascii := "."%char.

(** [s.find_last_of( c )] *)
Fixpoint find_last_of (c : ascii) (s : str) : option nat :=
  match s with
  | [] => None
  | d :: t => match find_last_of c t with
              | Some i => Some (S i)
              | None => if Ascii.eqb d c then Some 0 else None
              end
  end.

(** what follows the last slash *)
Definition after_slash (s : str) : str := match find_last_of slash s with Some i => skipn (S i) s | None => s end.
(** without slashes at the end *)
Fixpoint skip_slashes (s : str) : str :=
  match s with
  | c :: t => if Ascii.eqb c slash then skip_slashes t else s
  | [] => []
  end.
(** Filesystem.hh 131-161, with [::basename] *)
Definition basename (path : str) : str :=
  match path with
  | [] => []
  | _ => match rev (skip_slashes (rev path)) with
         | [] => [slash]
         | s => after_slash s
         end
  end.

(** Filesystem.hh 176, 199 *)
Definition no_extension (filename : str) : bool :=
  match find_last_of dot filename with None => true | Some _ => false end || str_eqb filename (chars ".") || str_eqb filename (chars "..").
(** Filesystem.hh 172-181 *)
Definition stem (path : str) : str :=
  let filename := basename path in
  if no_extension filename then filename
  else match find_last_of dot filename with Some pos => firstn pos filename | None => filename end.
(** Filesystem.hh 195-204 *)
Definition extension (path : str) : str :=
  let filename := basename path in
  if no_extension filename then []
  else match find_last_of dot filename with Some pos => skipn pos filename | None => [] end.
