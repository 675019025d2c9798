(** * Model of the text form of step functions, [operator<<] and [operator>>] of
      [math/StepFunction.hh].

    Domain and image are signed integral types with the limits [dlo], [dhi] and
    [ilo], [ihi]; streams are sequences of characters. *)

From Coq Require Import List Arith Bool NArith ZArith Ascii.
From Verif Require Import Base LoadMatrix StringUtilities DiagramIO PropertiesString StepFunction.
Import ListNotations.

(** what the extraction of a number leaves in the stream: blanks, a sign and digits are consumed *)
Fixpoint drop_digits (s : str) : str :=
  match s with
  | [] => []
  | c :: t => match digit c with Some _ => drop_digits t | None => s end
  end.
Definition after_number (s : str) : str :=
  match ltrim s with
  | c :: t => if (Ascii.eqb c "-" || Ascii.eqb c "+")%bool then drop_digits t else drop_digits (c :: t)
  | [] => []
  end.

(** StepFunction.hh 504-513 *)
Definition sf_print (f : step_function) : str :=
  flat_map (fun i => print_Z (ia i) ++ [tab] ++ print_Z (iy i) ++ [newline] ++
                     print_Z (ib i) ++ [tab] ++ print_Z (iy i) ++ [newline]) f.

Section Read.
Variables (dlo dhi ilo ihi : Z).

(** StepFunction.hh 525-526, 533: [converter >> a >> ya], [None] if the stream fails *)
Definition read_pair (line : str) : option (Z * Z) :=
  let '(a, fa) := extract dlo dhi line in
  if fa then None
  else let '(y, fy) := extract ilo ihi (after_number line) in
       if fy then None else Some (a, y).

(** StepFunction.hh 515-543: the loop consumes one line or, if it holds two numbers, two lines *)
Fixpoint sf_read_lines (lines : list str) (f : step_function) : outcome step_function :=
  match lines with
  | [] => Ok f
  | line :: rest =>
      match read_pair line with
      | None => sf_read_lines rest f
      | Some (a, ya) =>
          match rest with
          | [] => Ok f
          | line' :: rest' =>
              let* f' := (match read_pair line' with
                          | Some (b, yb) => if (ya =? yb)%Z then sf_add a b ya f else Ok f
                          | None => Ok f
                          end) in
              sf_read_lines rest' f'
          end
      end
  end.
Definition sf_read (text : str) (f : step_function) : outcome step_function := sf_read_lines (getlines [] text) f.
End Read.
