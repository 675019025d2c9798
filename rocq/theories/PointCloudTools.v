(** * Model of [src/tools/rips_distributions.cc] and [src/tools/point_cloud_data_descriptors.cc].

    A point cloud with [n] points is represented by the function [dist] with the values of the distance functor after the
    conversion [traits.from] (as in VietorisRips.v).  Distances, values and thresholds of these tools are integers here; the
    conversion of values to [0..1] is modelled for rational numbers.  Sums are exact.  The values of the three data descriptors
    are modelled in Descriptors.v and RealDescriptors.v; here, they are given. *)
From Coq Require Import String Ascii.
From Coq Require Import List Arith Bool ZArith QArith.
From Verif Require Import DiagramIO.
From Verif Require Import Base Simplex Complex Rips VietorisRips Matrix Diagram Hausdorff LoadMatrix StringUtilities ReadMatrices.
Import ListNotations.
Local Open Scope list_scope.
Local Open Scope nat_scope.

(** ** Distributions *)
(** rips_distributions.cc 25-57 *)
Definition pairwiseDistances (n : nat) (dist : nat -> nat -> Z) : list Z :=
  flat_map (fun i => map (fun j => (dist i j * dist i j)%Z) (seq (i + 1) (n - (i + 1)))) (seq 0 n).
(** rips_distributions.cc 59-99, with [BruteForce]: unweighted and weighted degrees *)
Definition calculateDegrees (n : nat) (dist : nat -> nat -> Z) (epsilon : Z) : outcome (list nat * list Z) :=
  if (epsilon =? 0)%Z then Ok ([], [])
  else
    let r := radiusSearch n dist epsilon in
    foldM (fun acc i =>
      let* is := at_ (fst r) i in
      let* ds := at_ (snd r) i in
      Ok (fst acc ++ [length is], snd acc ++ [accumulate_kahan_sorted ds 0])) (seq 0 n) ([], []).

(** rips_distributions.cc 109-115 *)
Fixpoint json_numbers {V} (show : V -> str) (l : list V) : str :=
  match l with
  | [] => []
  | [x] => show x
  | x :: r => show x ++ chars "," ++ json_numbers show r
  end.
(** rips_distributions.cc 101-118 *)
Definition containerAsJSON {V} (show : V -> str) (container : list V) (name : str) : str :=
  match container with
  | [] => []
  | _ => chars "  " ++ [quote] ++ name ++ [quote] ++ chars ": [" ++ json_numbers show container ++ chars "]" ++ [newline]
  end.
(** rips_distributions.cc 175-191 *)
Definition distributions_output (show : Z -> str) (distances : list Z) (unweighted : list nat) (weighted : list Z) : str :=
  chars "{" ++ [newline] ++
  containerAsJSON show distances (chars "distances") ++
  (match unweighted with [] => [] | _ => chars "," ++ [newline] ++ containerAsJSON print_nat unweighted (chars "unweighted_degrees") end) ++
  (match weighted with [] => [] | _ => chars "," ++ [newline] ++ containerAsJSON show weighted (chars "weighted_degrees") end) ++
  chars "}" ++ [newline].
(** rips_distributions.cc 120-192 for a point cloud with the given Euclidean and Manhattan distances *)
Definition rips_distributions (show : Z -> str) (n : nat) (euclidean manhattan : nat -> nat -> Z) (functor : str) (epsilon : Z) : outcome str :=
  let run dist := let* (u, w) := calculateDegrees n dist epsilon in Ok (distributions_output show (pairwiseDistances n dist) u w) in
  if str_eqb functor (chars "euclidean") then run euclidean
  else if str_eqb functor (chars "manhattan") then run manhattan
  else Ok (distributions_output show [] [] []).

(** ** Data descriptors *)
(** point_cloud_data_descriptors.cc 56-71 *)
Definition minQ (a : Q) (l : list Q) : Q := fold_left (fun m x => if Qle_bool m x then m else x) l a.
Definition maxQ (a : Q) (l : list Q) : Q := fold_left (fun m x => if Qle_bool x m then m else x) l a.
Definition normalizeValues (values : list Q) : list Q :=
  match values with
  | [] => []
  | a :: r =>
      let mn := minQ a r in
      let mx := maxQ a r in
      if Qeq_bool mn mx then values else map (fun v => (v - mn) / (mx - mn))%Q values
  end.
(** point_cloud_data_descriptors.cc 73-81 *)
Definition invertValues (values : list Q) : list Q :=
  match values with
  | [] => []
  | a :: r => map (fun v => maxQ a r - v)%Q values
  end.
(** point_cloud_data_descriptors.cc 83-101 for a point cloud with the given densities and eccentricities *)
Definition calculateDataDescriptor {V} (name : str) (density eccentricity gaussian : list V) : list V :=
  if str_eqb name (chars "density") then density
  else if str_eqb name (chars "eccentricity") then eccentricity
  else if str_eqb name (chars "gaussian") then gaussian
  else [].

(** point_cloud_data_descriptors.cc 257-287, for values of the descriptor *)
Definition descriptor_diagrams (inf lowest : Z) (order horder : list nat -> list nat) (a : algorithm) (removeUnpairedSimplices : bool) (n : nat) (dist : nat -> nat -> Z) (epsilon : Z)
  (dimension : nat) (values : list Z) : outcome (list diagram) :=
  let* K := buildVietorisRipsComplex_values order n dist epsilon dimension lowest values in
  let* ds := calculatePersistenceDiagrams inf horder a K true false in
  Ok (map (fun D => let D := removeDiagonal D in if removeUnpairedSimplices then removeUnpaired inf D else D) ds).
(** point_cloud_data_descriptors.cc 271-291 *)
Fixpoint comma_separated (l : list str) : str :=
  match l with
  | [] => []
  | [x] => x
  | x :: r => x ++ chars "," ++ [newline] ++ comma_separated r
  end.
Definition descriptor_output {V} (show : V -> str) (inf : V -> bool) (name : str) (ds : list (DiagramIO.diagram V)) : str :=
  chars "{" ++ [newline] ++ chars """diagrams"": [" ++ [newline] ++
  comma_separated (map (fun D => writeJSON show inf D name []) ds) ++
  [newline] ++ chars "  ]" ++ [newline] ++ chars "}" ++ [newline].
