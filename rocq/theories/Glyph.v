(** * Model of [src/tools/persistence_indicator_function_glyph.cc], from the functions and
      their domains on.

    [double] is modelled by the real numbers of the standard library; [None] is a value that is
    not finite.  [next] and [prev] are the functions [std::nextafter] towards the largest and the
    smallest number.  The number of bins is an [unsigned] number. *)
From Coq Require Import Reals List Arith Bool ZArith.
From Verif Require Import Base HeatKernel StepNorm.
Import ListNotations.
Local Open Scope R_scope.

(** [std::log10]: negative infinity for zero, not a number for negative numbers *)
Definition log10 (x : R) : option R := if Rlt_dec 0 x then Some (ln x / ln 10) else None.

(** the conversion to [std::size_t] is undefined for values that it cannot represent *)
Definition to_size (x : R) : outcome nat :=
  if Rle_dec x (-1) then UB
  else if Rle_dec 18446744073709551616 x then UB
  else if Rlt_dec x 0 then Ok 0%nat
  else Ok (Z.to_nat (Int_part x)).

Section Glyph.
  Variables next prev : R -> R.
  Variable n : nat.

  (** persistence_indicator_function_glyph.cc 152-158 *)
  Definition linbins (min max : R) : list R := map (fun i => min + INR i * ((max - min) / INR n)) (seq 0 n).

  (** persistence_indicator_function_glyph.cc 167-180: [n - 1] is zero for a single bin *)
  Definition logbins (min max : R) : list (option R) :=
    map (fun i =>
      match log10 min, log10 max with
      | Some a, Some b => if (n - 1 =? 0)%nat then None else Some (Rpower 10 (a + INR i * ((b - a) / INR (n - 1))))
      | _, _ => None
      end) (seq 0 n).

  (** persistence_indicator_function_glyph.cc 189-196 and 198-205: the values between neighbouring bins *)
  Fixpoint add_middles (bins : list (option R)) (domain : list R) : list R :=
    match bins with
    | Some a :: ((Some b :: _) as bins') => add_middles bins' (rset_insert ((a + b) / 2) domain)
    | _ :: bins' => add_middles bins' domain
    | [] => domain
    end.

  (** persistence_indicator_function_glyph.cc 209-221 *)
  Definition replaceDomain (domain : list R) : list R :=
    fold_left (fun s x =>
      let s := if Req_EM_T x (last domain 0) then s else rset_insert (next x) s in
      if Req_EM_T x (hd 0 domain) then s else rset_insert (prev x) s) domain [].

  (** persistence_indicator_function_glyph.cc 225-229; for no bins at all the offset is infinite *)
  Definition valueToLinIndex (min max value : R) : outcome nat :=
    if (n =? 0)%nat then Ok 0%nat else to_size ((value - min) / ((max - min) / INR n)).

  (** persistence_indicator_function_glyph.cc 231-235 *)
  Definition valueToLogIndex (min max value : R) : outcome nat :=
    match log10 min, log10 max, log10 value with
    | Some a, Some b, Some v => if (n =? 0)%nat then Ok 0%nat else to_size ((v - a) / ((b - a) / INR n))
    | _, _, _ => UB
    end.

  (** persistence_indicator_function_glyph.cc 246-256 *)
  Definition glyph_step (min max : R) (pif : R -> R) (st : list R * list R) (x : R) : outcome (list R * list R) :=
    let value := pif x in
    let* linbin := valueToLinIndex min max x in
    let* logbin := valueToLogIndex min max x in
    let* old := at_ (fst st) linbin in
    let lin := upd (fst st) linbin (Rmax old value) in
    if (logbin <? length (snd st))%nat then
      let* old' := at_ (snd st) logbin in
      Ok (lin, upd (snd st) logbin (Rmax old' value))
    else Ok (lin, snd st).
  Definition histograms (min max : R) (domain : list R) (pif : R -> R) : outcome (list R * list R) :=
    foldM (glyph_step min max pif) domain (repeat 0 n, repeat 0 n).

  (** persistence_indicator_function_glyph.cc 54-61: the lines, without the empty one at the end *)
  Definition print_glyph (m : list R) (row : nat) : list (nat * nat * R) :=
    map (fun p => (fst p, row, snd p)) (combine (seq 0 (length m)) m).

  (** persistence_indicator_function_glyph.cc 134-271: both files; [None] if there is no domain *)
  Definition glyphs (maxK : nat) (domain : list R) (pifs : list (R -> R)) : outcome (option (list (list (nat * nat * R)) * list (list (nat * nat * R)))) :=
    match domain with
    | [] => Ok None
    | min :: _ =>
        let max := next (last domain 0) in
        let domain1 := add_middles (logbins min max) (add_middles (map Some (linbins min max)) domain) in
        let domain2 := replaceDomain domain1 in
        let* hs := foldM (fun hs pif => let* h := histograms min max domain2 pif in Ok (hs ++ [h])) pifs [] in
        let hs := hs ++ repeat (repeat 0 n, repeat 0 n) (maxK - length pifs) in
        Ok (Some (map (fun p => print_glyph (fst (snd p)) (fst p)) (combine (seq 0 (length hs)) hs),
                  map (fun p => print_glyph (snd (snd p)) (fst p)) (combine (seq 0 (length hs)) hs)))
    end.
End Glyph.
