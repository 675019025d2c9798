(** * Specification: text files with boundary matrices. *)
From Coq Require Import List Arith NArith Ascii.
Import ListNotations.

(** space, tab, line feed, vertical tab, form feed, carriage return *)
Definition blank (c : ascii) : Prop := In (nat_of_ascii c) [9; 10; 11; 12; 13; 32].

(** [s] is the decimal notation of [v] *)
Definition decimal_digit (c : ascii) (d : N) : Prop := (d <= 9)%N /\ N_of_ascii c = (48 + d)%N.
Inductive numeral : list ascii -> N -> Prop :=
| numeral_one c d : decimal_digit c d -> numeral [c] d
| numeral_more s v c d : numeral s v -> decimal_digit c d -> numeral (s ++ [c]) (10 * v + d)%N.

(** a line with numbers that are separated by blanks *)
Inductive numbers : list ascii -> list N -> Prop :=
| numbers_nil ws : Forall blank ws -> numbers ws []
| numbers_cons ws s v rest vs :
    Forall blank ws -> numeral s v -> numbers rest vs ->
    (forall c t, rest = c :: t -> blank c) ->
    numbers (ws ++ s ++ rest) (v :: vs).

(** what a line contributes: nothing, or a dimension with boundary indices *)
Inductive line_means : list ascii -> option (nat * list nat) -> Prop :=
| means_blank l : Forall blank l -> line_means l None
| means_comment t : line_means ("#"%char :: t) None
| means_column l d is : numbers l (map N.of_nat (d :: is)) ->
    Forall (fun i => (N.of_nat i < 2 ^ 32)%N) (d :: is) -> line_means l (Some (d, is)).

(** all columns described by a text *)
Inductive lines_mean : list (list ascii) -> list (nat * list nat) -> Prop :=
| lines_nil : lines_mean [] []
| lines_none l ls cs : line_means l None -> lines_mean ls cs -> lines_mean (l :: ls) cs
| lines_some l c ls cs : line_means l (Some c) -> lines_mean ls cs -> lines_mean (l :: ls) (c :: cs).

(** the text with these lines; the last one may lack its end *)
Definition text_of (lines : list (list ascii)) (last : list ascii) : list ascii :=
  flat_map (fun l => l ++ ["010"%char]) lines ++ last.
