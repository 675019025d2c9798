(** * Model of [src/tools/clique_communities_to_json.cc].

    The graph and the labels are those of the readers (ReadEdges.v, Gml.v).  Weights are integers, and the flag for their
    normalisation is left out.  [least] is the smallest value of weights, [tau] the threshold as it is printed. *)
From Coq Require Import String Ascii.
From Coq Require Import List Arith Bool ZArith.
From Verif Require Import DiagramIO.
From Verif Require Import Base Simplex Complex Matrix UnionFind Components Rips CliqueGraph LoadMatrix StringUtilities.
Import ListNotations.
Local Open Scope list_scope.
Local Open Scope nat_scope.

(** clique_communities_to_json.cc 191-197 *)
Definition largest_weight (least : Z) (K : complex) : Z := fold_left (fun m s => Z.max m (data s)) (by_index K) least.
(** 226-235; the result of [replace] is not examined *)
Definition invert_step (m : Z) (K : complex) (i : nat) : outcome complex :=
  let* s := get_ (by_index K) i in
  if sdim s =? 0 then Ok K
  else
    let '(K', r) := k_replace K i (set_data s (m - data s)%Z) in
    let* _ := r in
    Ok K'.
Definition invertWeights (m : Z) (K : complex) : outcome complex := foldM (invert_step m) (seq 0 (length (by_index K))) K.
(** 245-253 *)
Definition below_threshold (threshold : Z) (K : complex) : outcome complex :=
  k_of_range (filter (fun s => negb (threshold <? data s)%Z) (by_index K)).
(** 191-264 *)
Definition communities_complex (order : list nat -> list nat) (least : Z) (invert : bool) (threshold : Z) (maxK : nat) (K : complex) : outcome complex :=
  let m := largest_weight least K in
  let* K := if invert then invertWeights m K else Ok K in
  let* K := below_threshold threshold K in
  let* K := ripsExpander order K maxK in
  Ok (k_sort data_cmp (assignMaximumWeight K 1)).

(** 296-307: the members of one community; sets sort their elements *)
Definition community (K : complex) (indices : list nat) : outcome (list simplex) :=
  let* l := foldM (fun l v => let* s := k_at K v in Ok (l ++ [s])) (set_insert_range indices []) [] in
  Ok (cpp_sort s_ltb l).
Definition community_step (order : list nat -> list nat) (K : complex) (st : parents * list (list simplex)) (root : nat) : outcome (parents * list (list simplex)) :=
  let* (uf, indices) := uf_get order (fst st) root in
  let* c := community K indices in
  Ok (uf, snd st ++ [c]).
(** 273-307 *)
Definition communities (order : list nat -> list nat) (K : complex) (k : nat) : outcome (list (list simplex)) :=
  let* C := cliqueGraph_max K k in
  let C := k_sort data_cmp C in
  let* uf := calculateConnectedComponents C in
  let* (uf, roots) := uf_roots order uf in
  let* (_, cs) := foldM (community_step order K) (set_insert_range roots []) (uf, []) in
  Ok cs.

(** entries separated by commas *)
Fixpoint commas (l : list str) : str :=
  match l with
  | [] => []
  | [x] => x
  | x :: r => x ++ chars "," ++ commas r
  end.
(** 54-73; [labels] is the map of labels, if they are used *)
Definition formatSimplex (labels : option (nat -> option str)) (s : simplex) : outcome str :=
  let* l := foldM (fun l v =>
    match labels with
    | None => Ok (l ++ [print_nat v])
    | Some f => match f v with Some t => Ok (l ++ [[quote] ++ t ++ [quote]]) | None => Throw OutOfRange end
    end) (verts s) [] in
  Ok (chars "[" ++ commas l ++ chars "]").
(** 309-319 *)
Definition formatCommunity (labels : option (nat -> option str)) (c : list simplex) : outcome str :=
  let* l := foldM (fun l s => let* t := formatSimplex labels s in Ok (l ++ [t])) c [] in
  Ok (chars "            [" ++ commas l ++ chars "]").
(** 321-324 *)
Fixpoint community_lines (l : list str) : str :=
  match l with
  | [] => []
  | [x] => x ++ [newline]
  | x :: r => x ++ chars "," ++ [newline] ++ community_lines r
  end.
(** 269-333: one round of the loop *)
Definition level_text (order : list nat -> list nat) (labels : option (nat -> option str)) (K : complex) (maxK : nat) (out : str) (k : nat) : outcome str :=
  let* cs := communities order K k in
  let* l := foldM (fun l c => let* t := formatCommunity labels c in Ok (l ++ [t])) cs [] in
  Ok (out ++ chars "    " ++ [quote] ++ print_nat (k + 1) ++ [quote] ++ chars ": [" ++ [newline] ++ community_lines l ++ chars "    ]" ++
      (if k <? maxK then chars "  ," else []) ++ [newline]).
(** 266-336 *)
Definition communities_text (order : list nat -> list nat) (labels : option (nat -> option str)) (tau : str) (maxK : nat) (K : complex) : outcome str :=
  let* body := foldM (level_text order labels K maxK) (seq 1 maxK) [] in
  Ok (chars "{" ++ [newline] ++ chars "  " ++ [quote] ++ tau ++ [quote] ++ chars ": {" ++ [newline] ++ body ++ chars "  }" ++ [newline] ++ chars "}" ++ [newline]).

(** 191-336 *)
Definition communities_to_json (order : list nat -> list nat) (least : Z) (invert : bool) (labels : option (nat -> option str)) (threshold : Z) (tau : str) (maxK : nat) (K : complex)
  : outcome str :=
  let* K := communities_complex order least invert threshold maxK K in
  communities_text order labels tau maxK K.
