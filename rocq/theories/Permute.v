(** * Model of the permutation algorithms in [math/Combinations.hh].

    Iterators are positions in one vector [v], as in [Combine].  A function
    object is a function of its state and of the vector; it returns the result
    of the call, its new state and the new contents of the vector.  The
    function objects of the header hold references to the function object of
    the user, so there is one state only. *)

From Coq Require Import List Arith Bool.
From Verif Require Import Base TopDown Combine.
Import ListNotations.

Section Permute.
Context {S A : Type}.

(** [std::reverse( begin + a, begin + b )] with [a <= b] *)
Definition std_reverse (a b : nat) (v : list A) : list A :=
  firstn a v ++ rev (firstn (b - a) (skipn a v)) ++ skipn b v.

(** [if( r ) return true; k] *)
Definition until (r : outcome (bool * S * list A)) (k : S -> list A -> outcome (bool * S * list A))
  : outcome (bool * S * list A) :=
  let* r := r in if fst (fst r) then Ok r else k (snd (fst r)) (snd r).

(** [swap( *i, *j ); k] *)
Definition swapped (i j : nat) (v : list A) (k : list A -> outcome (bool * S * list A))
  : outcome (bool * S * list A) :=
  let* v := swap_at i j v in k v.

(** Combinations.hh 289-313 and 348-371: the six calls for three elements *)
Definition permute3 (f : S -> list A -> outcome (bool * S * list A)) (first1 : nat) (st : S) (v : list A)
  : outcome (bool * S * list A) :=
  let f2 := first1 + 1 in
  let f3 := first1 + 2 in
  until (f st v) (fun st v => swapped f2 f3 v (fun v =>
  until (f st v) (fun st v => swapped first1 f3 v (fun v => swapped f2 f3 v (fun v =>
  until (f st v) (fun st v => swapped f2 f3 v (fun v =>
  until (f st v) (fun st v => swapped first1 f2 v (fun v => swapped f2 f3 v (fun v =>
  until (f st v) (fun st v => swapped f2 f3 v (fun v => f st v)))))))))))).

(** Combinations.hh 316-322 and 377-385: the loop over [p] and the call after
    it; [sub] is the call of [permute_] for the range without its first
    element *)
Definition permute_loop (sub : S -> list A -> outcome (bool * S * list A)) (first1 d1 : nat)
    (st : S) (v : list A) : outcome (bool * S * list A) :=
  let fp1 := first1 + 1 in
  (fix loop (n p : nat) (st : S) (v : list A) {struct n} : outcome (bool * S * list A) :=
     match n with
     | 0 => sub st v
     | Datatypes.S n =>
         until (sub st v) (fun st v =>
           let v := std_reverse fp1 (first1 + d1) v in
           swapped first1 p v (fun v => loop n (p + 1) st v))
     end) (d1 - 1) fp1 st v.

(** Combinations.hh 272-322 for [last1 = first1 + d1] *)
Fixpoint permute_ (f : S -> list A -> outcome (bool * S * list A)) (d1 first1 : nat) (st : S) (v : list A)
  : outcome (bool * S * list A) :=
  match d1 with
  | 0 | 1 => f st v
  | 2 => until (f st v) (fun st v => swapped first1 (first1 + 1) v (fun v => f st v))
  | 3 => permute3 f first1 st v
  | Datatypes.S d => permute_loop (permute_ f d (first1 + 1)) first1 d1 st v
  end.

(** Combinations.hh 327-391 *)
Definition permute (f : S -> list A -> outcome (bool * S * list A)) (d1 first1 : nat) (st : S) (v : list A)
  : outcome (bool * S * list A) :=
  match d1 with
  | 0 | 1 => f st v
  | 2 => until (f st v) (fun st v => swapped first1 (first1 + 1) v (fun v =>
         until (f st v) (fun st v => swapped first1 (first1 + 1) v (fun v => Ok (false, st, v)))))
  | 3 => until (permute3 f first1 st v) (fun st v => swapped first1 (first1 + 2) v (fun v => Ok (false, st, v)))
  | Datatypes.S d =>
      until (permute_loop (permute_ f d (first1 + 1)) first1 d1 st v) (fun st v =>
        Ok (false, st, std_reverse first1 (first1 + d1) v))
  end.

(** Combinations.hh 527-542 for [first = begin()], [mid = begin() + k] and
    [last = end()]; [pf()] is the call of [call_permute] in 419-436 *)
Definition for_each_permutation (f : S -> list A -> outcome (bool * S)) (k : nat) (st : S) (v : list A)
  : outcome (bool * S * list A) :=
  if length v <? k then UB
  else combine_discontinuous (permute (bound_range f 0 k) k 0) k 0 k (length v - k) 0 st v.

(** Combinations.hh 577-596, 600-609: the function object holds the first
    element and permutes the others *)
Definition circular_permutation (f : S -> list A -> outcome (bool * S)) (k : nat) (st : S) (v : list A)
  : outcome (bool * S * list A) :=
  if k <=? 1 then bound_range f 0 k st v
  else permute (bound_range f 0 k) (k - 1) 1 st v.
Definition for_each_circular_permutation (f : S -> list A -> outcome (bool * S)) (k : nat) (st : S) (v : list A)
  : outcome (bool * S * list A) :=
  if length v <? k then UB
  else combine_discontinuous (circular_permutation f k) k 0 k (length v - k) 0 st v.

(** Combinations.hh 88-106; [last = first + d] for the three ranges *)
Definition rotate_discontinuous3 (first1 d1 first2 d2 first3 d3 : nat) (v : list A) : outcome (list A) :=
  let* v := rotate_discontinuous first1 d1 first2 d2 v in
  if d1 <=? d2 then rotate_discontinuous (first2 + (d2 - d1)) d1 first3 d3 v
  else
    let* v := rotate_discontinuous (first1 + d2) (d1 - d2) first3 d3 v in
    rotate_discontinuous first2 d2 first3 d3 v.

(** the loops of [combine_discontinuous3_] over [i2] in a range of [n]
    elements: [if( body ) return true; swap( *first1, *i2 );] *)
Fixpoint swap_loop (body : nat -> nat -> S -> list A -> outcome (bool * S * list A)) (first1 n i2 : nat) (st : S) (v : list A)
  : outcome (bool * S * list A) :=
  match n with
  | 0 => Ok (false, st, v)
  | Datatypes.S n' =>
      until (body n i2 st v) (fun st v => swapped first1 i2 v (fun v => swap_loop body first1 n' (i2 + 1) st v))
  end.

(** Combinations.hh 185-249.  [std::prev( last2 )] is [first2 + (d2 - 1)].
    There are no calls with [d1 = 0], where the recursion would not end. *)
Fixpoint combine_discontinuous3_ (f : S -> list A -> outcome (bool * S * list A))
    (d1 first1 first2 d2 first3 d3 d : nat) (st : S) (v : list A) : outcome (bool * S * list A) :=
  match d1 with
  | 0 => UB
  | Datatypes.S d1' =>
      until
        (if d1' =? 0 then
           (* 199-216 *)
           until (swap_loop (fun _ _ => f) first1 d2 first2 st v) (fun st v =>
           until (f st v) (fun st v =>
             swapped first1 (first2 + (d2 - 1)) v (fun v => swapped first1 first3 v (fun v =>
             swap_loop (fun _ _ => f) first1 (d3 - 1) (first3 + 1) st v))))
         else
           (* 219-236 *)
           until (swap_loop (fun d22 i2 => combine_discontinuous3_ f d1' (first1 + 1) i2 d22 first3 d3 (d + 1)) first1 d2 first2 st v) (fun st v =>
           swap_loop (fun d22 i2 => combine_discontinuous f d1' (first1 + 1) i2 d22 (d + 1)) first1 d3 first3 st v))
        (fun st v =>
           (* 237-248 *)
           until (f st v) (fun st v =>
             let* v := if d1' =? 0 then swap_at (first2 + (d2 - 1)) first3 v else Ok v in
             let* v := if d =? 0 then rotate_discontinuous3 first1 d1 first2 d2 first3 d3 v
                       else if 1 <? d2 then rotate_discontinuous3 first1 d1 (first2 + 1) (d2 - 1) first3 d3 v
                       else rotate_discontinuous first1 d1 first3 d3 v in
             Ok (false, st, v)))
  end.

(** Combinations.hh 256-269; [fbc()] is the call of
    [call_combine_discontinuous] in 157-183 *)
Definition combine_discontinuous3 (f : S -> list A -> outcome (bool * S * list A))
    (d1 first1 first2 d2 first3 d3 : nat) (st : S) (v : list A) : outcome (bool * S * list A) :=
  combine_discontinuous3_ (combine_discontinuous f d2 first2 first3 d3 0) d1 first1 first2 d2 first3 d3 0 st v.

(** Combinations.hh 708-732 and 737-766 *)
Definition rev2 (f : S -> list A -> outcome (bool * S * list A)) (first1 d1 first2 d2 : nat)
  : S -> list A -> outcome (bool * S * list A) :=
  permute (permute f d2 first2) d1 first1.
Definition rev3 (f : S -> list A -> outcome (bool * S * list A)) (first1 d1 first2 d2 first3 d3 : nat)
  : S -> list A -> outcome (bool * S * list A) :=
  permute (rev2 f first2 d2 first3 d3) d1 first1.

(** Combinations.hh 794-801: the loop; [am1 = first + (i - 1)], [a = first + i]
    and [ap1 = first + (i + 1)] *)
Fixpoint rev_loop (f : S -> list A -> outcome (bool * S * list A)) (s first : nat) (n i : nat) (st : S) (v : list A)
  : outcome (bool * S * list A) :=
  match n with
  | 0 => Ok (false, st, v)
  | Datatypes.S n =>
      swapped (first + (i - 1)) (first + i) v (fun v =>
        until (combine_discontinuous (rev2 f first i (first + (i + 1)) (s - i - 1)) i first (first + (i + 1)) (s - i - 1) 0 st v)
          (fun st v => rev_loop f s first n (i + 1) st v))
  end.

(** Combinations.hh 839-845: the loop; [bm1 = first + (i - 1)],
    [b = first + i], [bp1 = first + (i + 1)], [a = first + s2] and
    [ap1 = first + (s2 + 1)] *)
Fixpoint rev_middle_loop (f : S -> list A -> outcome (bool * S * list A)) (s s2 first : nat) (n i : nat) (st : S) (v : list A)
  : outcome (bool * S * list A) :=
  match n with
  | 0 => Ok (false, st, v)
  | Datatypes.S n =>
      swapped (first + (i - 1)) (first + i) v (fun v =>
        until (combine_discontinuous3 (rev3 f first i (first + (i + 1)) (s2 - i - 1) (first + (s2 + 1)) (s - s2 - 1))
                 i first (first + (i + 1)) (s2 - i - 1) (first + (s2 + 1)) (s - s2 - 1) st v)
          (fun st v => rev_middle_loop f s s2 first n (i + 1) st v))
  end.

(** Combinations.hh 770-860 for [last = first + s].  After the loop
    [am1 = first + (s2 - 1)], [a = first + s2] and [ap1 = first + (s2 + 1)]. *)
Definition reversible_permutation (f : S -> list A -> outcome (bool * S * list A)) (s first : nat) (st : S) (v : list A)
  : outcome (bool * S * list A) :=
  if s <? 3 then f st v
  else
    until (permute f (s - 1) (first + 1) st v) (fun st v =>
    let s2 := s / 2 in
    until (rev_loop f s first (s2 - 1) 1 st v) (fun st v =>
    if 2 * s2 =? s then Ok (false, st, rotate first (first + (s2 - 1)) (first + s2) v)
    else if s =? 3 then
      swapped (first + (s2 - 1)) (first + s2) v (fun v =>
      until (f st v) (fun st v =>
      swapped (first + (s2 - 1)) (first + s2) v (fun v => Ok (false, st, v))))
    else
      swapped (first + (s2 - 1)) (first + s2) v (fun v =>
      until (combine_discontinuous (rev2 f (first + 1) (s2 - 1) (first + (s2 + 1)) (s - s2 - 1))
               (s2 - 1) (first + 1) (first + (s2 + 1)) (s - s2 - 1) 0 st v) (fun st v =>
      until (rev_middle_loop f s s2 first (s2 - 2) 1 st v) (fun st v =>
      swapped (first + (s2 - 2)) (first + (s2 - 1)) v (fun v =>
      until (combine_discontinuous (rev2 f first (s2 - 1) (first + (s2 + 1)) (s - s2 - 1))
               (s2 - 1) first (first + (s2 + 1)) (s - s2 - 1) 0 st v) (fun st v =>
      let v := std_reverse first (first + (s2 - 1)) v in
      Ok (false, st, std_reverse first (first + (s2 + 1)) v)))))))).

(** Combinations.hh 863-874 *)
Definition for_each_reversible_permutation (f : S -> list A -> outcome (bool * S)) (k : nat) (st : S) (v : list A)
  : outcome (bool * S * list A) :=
  if length v <? k then UB
  else combine_discontinuous (reversible_permutation (bound_range f 0 k) k 0) k 0 k (length v - k) 0 st v.

(** Combinations.hh 923-945, 949-958.  For [k = 0] the function object
    increments [begin()], and [std::distance( n, last )] is -1, which is less
    than 3. *)
Definition reverse_circular_permutation (f : S -> list A -> outcome (bool * S)) (k : nat) (st : S) (v : list A)
  : outcome (bool * S * list A) :=
  if k =? 1 then bound_range f 0 k st v
  else if k =? 0 then match v with [] => UB | _ => bound_range f 0 k st v end
  else reversible_permutation (bound_range f 0 k) (k - 1) 1 st v.
Definition for_each_reversible_circular_permutation (f : S -> list A -> outcome (bool * S)) (k : nat) (st : S) (v : list A)
  : outcome (bool * S * list A) :=
  if length v <? k then UB
  else combine_discontinuous (reverse_circular_permutation f k) k 0 k (length v - k) 0 st v.
End Permute.

(** [for( ; n > last; --n ) { if( r > max / n ) throw; r *= n; }] in
    Combinations.hh 544-661 and 876-907; [steps = n - last] *)
Fixpoint falling_loop (max steps n r : nat) : outcome nat :=
  match steps with
  | 0 => Ok r
  | S steps => if max / n <? r then Throw RuntimeError else falling_loop max steps (n - 1) (r * n)
  end.

(** Combinations.hh 544-561 *)
Definition count_each_permutation (max d1 d2 : nat) : outcome nat :=
  if max - d2 <? d1 then Throw RuntimeError else falling_loop max d1 (d1 + d2) 1.

(** Combinations.hh 611-657; the overflow error of the combinations is
    replaced by another one *)
Definition count_each_circular_permutation (max d1 d2 : nat) : outcome nat :=
  if d1 =? 0 then Ok 1
  else if d1 <=? d2 then
    let* r := count_each_combination max d1 d2 in
    falling_loop max (d1 - 2) (d1 - 1) r
  else if max - d2 <? d1 then Throw RuntimeError
  else
    let* r := falling_loop max d2 (d1 + d2) 1 in
    falling_loop max (d1 - 1 - d2) (d1 - 1) r.

(** Combinations.hh 876-907 *)
Definition count_each_reversible_permutation (max d1 d2 : nat) : outcome nat :=
  if max - d2 <? d1 then Throw RuntimeError
  else
    let n := d1 + d2 in
    if 1 <? d1 then
      let r := if Nat.even n then n / 2 else n in
      let t := if Nat.even (n - 1) then (n - 1) / 2 else n - 1 in
      if max / t <? r then Throw RuntimeError
      else falling_loop max (d1 - 2) (n - 2) (r * t)
    else falling_loop max d1 n 1.

(** Combinations.hh 960-985 *)
Definition count_each_reversible_circular_permutation (max d1 d2 : nat) : outcome nat :=
  let* r := count_each_combination max d1 d2 in
  if 3 <? d1 then falling_loop max (d1 - 3) (d1 - 1) r else Ok r.
