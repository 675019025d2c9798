(** * Changes of diagrams, and names of diagrams, in the tools for distances and statistics. *)
From Coq Require Import String Ascii List Arith NArith ZArith Bool Lia.
From Verif Require Import Base BaseFacts Diagram SpecText LoadMatrix LoadFacts StringUtilities PropertiesString Pajek Filesystem PropertiesFilesystem DataSets PropertiesDataSets Postprocess.
Import ListNotations.
Local Open Scope list_scope.

(** ** specification *)
(** [c] is a coordinate of a point, and not the infinite one of an unpaired point *)
Definition finite_coordinate (inf : Z) (D : diagram) (c : Z) : Prop := exists p, In p (points D) /\ (c = fst p \/ (c = snd p /\ snd p <> inf)).

Lemma unpaired_spec inf p : reflect (snd p = inf) (isUnpaired inf p).
Proof. unfold isUnpaired. destruct (Z.eqb_spec (snd p) inf); constructor; assumption. Qed.

(** ** C150 *)
(** The maximum is the largest finite coordinate. *)
Theorem C150_maximum : forall lowest inf D, points D <> [] -> (forall c, finite_coordinate inf D c -> (lowest <= c)%Z) ->
  finite_coordinate inf D (getMaximum lowest inf D) /\ forall c, finite_coordinate inf D c -> (c <= getMaximum lowest inf D)%Z.
Proof.
  intros lowest inf D. unfold finite_coordinate, getMaximum. set (step := fun max p => _).
  assert (S1 : forall m p, step m p = m \/ (step m p = fst p \/ step m p = snd p /\ snd p <> inf)).
  { intros m p. unfold step. destruct (unpaired_spec inf p) as [U|U]; [lia|]. lia. }
  assert (S2 : forall m p, (m <= step m p)%Z /\ (fst p <= step m p)%Z /\ (snd p <> inf -> (snd p <= step m p)%Z)).
  { intros m p. unfold step. destruct (unpaired_spec inf p) as [U|U]; [refine (conj _ (conj _ _)); [lia|lia|contradiction]|lia]. }
  assert (G : forall l m, (m <= fold_left step l m)%Z /\ (forall c p, In p l -> c = fst p \/ c = snd p /\ snd p <> inf -> (c <= fold_left step l m)%Z) /\ (fold_left step l m = m \/ exists p, In p l /\ (fold_left step l m = fst p \/ fold_left step l m = snd p /\ snd p <> inf))).
  { induction l as [|p l IH]; intro m; cbn [fold_left]; [refine (conj (Z.le_refl m) (conj _ (or_introl eq_refl))); intros c p []|]. destruct (IH (step m p)) as (A & B & C). destruct (S2 m p) as (T1 & T2 & T3). refine (conj _ (conj _ _)).
    - lia.
    - intros c q [<-|Hq] Hc; [|apply (B c q Hq Hc)]. destruct Hc as [->|[-> Hc]]; [lia|]. specialize (T3 Hc). lia.
    - destruct C as [C|(q & Hq & C)]; [|right; exists q; split; [right; exact Hq|exact C]]. rewrite C. destruct (S1 m p) as [E|E]; [left; exact E|]. right. exists p. split; [left; reflexivity|exact E]. }
  intros Hne Hl. destruct (G (points D) lowest) as (A & B & C). split.
  - destruct C as [C|C]; [|exact C]. destruct (points D) as [|p l]; [contradiction|]. exists p. split; [left; reflexivity|]. left.
    assert (lowest <= fst p)%Z by (apply Hl; exists p; split; [left; reflexivity|left; reflexivity]). assert (fst p <= fold_left step (p :: l) lowest)%Z by (apply (B (fst p) p); [left; reflexivity|left; reflexivity]). lia.
  - intros c (p & Hp & Hc). apply (B c p Hp Hc).
Qed.
Theorem C150_extremes : forall lowest highest inf D, points D <> [] -> (forall c, finite_coordinate inf D c -> (lowest <= c <= highest)%Z) ->
  let m := getMinimumAndMaximum lowest highest inf D in
  finite_coordinate inf D (fst m) /\ finite_coordinate inf D (snd m) /\ forall c, finite_coordinate inf D c -> (fst m <= c <= snd m)%Z.
Proof.
  intros lowest highest inf D Hne Hl m. assert (E2 : snd m = getMaximum lowest inf D).
  { unfold m, getMinimumAndMaximum, getMaximum. generalize highest, lowest. generalize (points D). clear. induction l as [|p l IH]; intros hi lo; [reflexivity|]. cbn [fold_left fst snd]. destruct (isUnpaired inf p); rewrite IH; reflexivity. }
  destruct (C150_maximum lowest inf D Hne) as [A B]; [intros c Hc; specialize (Hl c Hc); lia|]. rewrite E2.
  set (step := fun mn p => if isUnpaired inf p then Z.min mn (fst p) else Z.min (Z.min mn (fst p)) (snd p)).
  assert (E1 : fst m = fold_left step (points D) highest).
  { unfold m, getMinimumAndMaximum. generalize highest, lowest. generalize (points D). clear. induction l as [|p l IH]; intros hi lo; [reflexivity|]. cbn [fold_left fst snd]. unfold step at 2. destruct (isUnpaired inf p); rewrite IH; reflexivity. }
  assert (G : forall l x, (fold_left step l x <= x)%Z /\ (forall c p, In p l -> c = fst p \/ c = snd p /\ snd p <> inf -> (fold_left step l x <= c)%Z) /\ (fold_left step l x = x \/ exists p, In p l /\ (fold_left step l x = fst p \/ fold_left step l x = snd p /\ snd p <> inf))).
  { induction l as [|p l IH]; intro x; cbn [fold_left]; [refine (conj (Z.le_refl x) (conj _ (or_introl eq_refl))); intros c p []|]. destruct (IH (step x p)) as (T1 & T2 & T3).
    assert (S2 : (step x p <= x)%Z /\ (step x p <= fst p)%Z /\ (snd p <> inf -> (step x p <= snd p)%Z)) by (unfold step; destruct (unpaired_spec inf p) as [U|U]; [refine (conj _ (conj _ _)); [lia|lia|contradiction]|lia]).
    assert (S1 : step x p = x \/ (step x p = fst p \/ step x p = snd p /\ snd p <> inf)) by (unfold step; destruct (unpaired_spec inf p) as [U|U]; lia). destruct S2 as (U1 & U2 & U3). refine (conj _ (conj _ _)).
    - lia.
    - intros c q [<-|Hq] Hc; [|apply (T2 c q Hq Hc)]. destruct Hc as [->|[-> Hc]]; [lia|]. specialize (U3 Hc). lia.
    - destruct T3 as [C|(q & Hq & C)]; [|right; exists q; split; [right; exact Hq|exact C]]. rewrite C. destruct S1 as [E|E]; [left; exact E|]. right. exists p. split; [left; reflexivity|exact E]. }
  destruct (G (points D) highest) as (T1 & T2 & T3). rewrite E1. refine (conj _ (conj A _)).
  - destruct T3 as [C|C]; [|exact C]. destruct (points D) as [|p l] eqn:Ep; [contradiction|]. exists p. rewrite Ep. split; [left; reflexivity|]. left.
    assert (fst p <= highest)%Z by (apply Hl; exists p; rewrite Ep; split; [left; reflexivity|left; reflexivity]). assert (fold_left step (p :: l) highest <= fst p)%Z by (apply (T2 (fst p) p); [left; reflexivity|left; reflexivity]). lia.
  - intros c Hc. split; [|apply B; exact Hc]. destruct Hc as (p & Hp & Hc). apply (T2 c p Hp Hc).
Qed.

(** With cleaning, exactly the points above and below the diagonal that are paired remain, in
    their order; the factor has no effect. *)
Theorem C150_clean : forall lowest inf D normalize factor,
  postprocess lowest inf D true false normalize factor = Diagram (dgm_dim D) (filter (fun p => negb (fst p =? snd p)%Z && negb (snd p =? inf)%Z) (points D)).
Proof.
  intros lowest inf D normalize factor. unfold postprocess. set (E := removeUnpaired inf (removeDiagonal D)).
  assert (EE : E = Diagram (dgm_dim D) (filter (fun p => negb (fst p =? snd p)%Z && negb (snd p =? inf)%Z) (points D))).
  { unfold E, removeUnpaired, removeDiagonal, isUnpaired. cbn [dgm_dim points]. f_equal. induction (points D) as [|p l IH]; [reflexivity|]. cbn [filter]. destruct (fst p =? snd p)%Z; cbn [negb andb]; [exact IH|]. cbn [filter]. destruct (snd p =? inf)%Z; cbn [negb]; rewrite IH; reflexivity. }
  assert (N : (if normalize then Diagram (dgm_dim E) (map (fun p => (fst p, snd p)) (points E)) else E) = E).
  { destruct normalize; [|reflexivity]. destruct E as [n l]. cbn [dgm_dim points]. f_equal. rewrite (map_ext _ (fun p => p)) by (intros []; reflexivity). apply map_id. }
  rewrite N. destruct (Z.eqb factor 0); [exact EE|]. rewrite EE. cbn [dgm_dim points]. f_equal. rewrite <- (map_id (filter _ (points D))) at 2. apply map_ext_in. intros p Hp. apply filter_In in Hp. destruct Hp as [_ Hp]. apply andb_prop in Hp. unfold isUnpaired. destruct (snd p =? inf)%Z; [destruct Hp; discriminate|reflexivity].
Qed.

(** Without cleaning, a factor moves the unpaired points of the diagram to the multiple of the
    maximum; all other points stay. *)
Theorem C150_factor : forall lowest inf D normalize factor, factor <> 0%Z ->
  postprocess lowest inf D false false normalize factor =
    Diagram (dgm_dim D) (map (fun p => if (snd p =? inf)%Z then (fst p, factor * getMaximum lowest inf D)%Z else p) (points D)) /\
  postprocess lowest inf D false false normalize 0 = D.
Proof.
  intros lowest inf D normalize factor Hf. unfold postprocess.
  assert (N : (if normalize then Diagram (dgm_dim D) (map (fun p => (fst p, snd p)) (points D)) else D) = D).
  { destruct normalize; [|reflexivity]. destruct D as [n l]. cbn [dgm_dim points]. f_equal. rewrite (map_ext _ (fun p => p)) by (intros []; reflexivity). apply map_id. }
  rewrite N. destruct (Z.eqb_spec factor 0); [contradiction|]. split; reflexivity.
Qed.

(** Removing duplicates comes after cleaning. *)
Theorem C150_duplicates : forall lowest inf D clean normalize factor,
  postprocess lowest inf D clean true normalize factor = postprocess lowest inf (removeDuplicates (postprocess lowest inf D clean false false 0)) false false normalize factor.
Proof. intros lowest inf D clean normalize factor. unfold postprocess. cbn [Z.eqb]. reflexivity. Qed.

(** FINDING: normalization changes nothing. *)
Theorem C150_normalize_refuted : forall lowest inf D clean dup factor, postprocess lowest inf D clean dup true factor = postprocess lowest inf D clean dup false factor.
Proof.
  intros lowest inf D clean dup factor. unfold postprocess. set (E := if dup then _ else _).
  assert (N : Diagram (dgm_dim E) (map (fun p => (fst p, snd p)) (points E)) = E).
  { destruct E as [n l]. cbn [dgm_dim points]. f_equal. rewrite (map_ext _ (fun p => p)) by (intros []; reflexivity). apply map_id. }
  rewrite N. reflexivity.
Qed.

(** FINDING: if all coordinates are negative, a factor of two puts unpaired points below the
    diagonal. *)
Theorem C150_negative_refuted : exists lowest inf D x y, In (x, inf) (points D) /\ In (x, y) (points (postprocess lowest inf D false false false 2)) /\ (y < x)%Z.
Proof. exists (-1000)%Z, 1000%Z, (Diagram 0 [(-5, 1000); (-4, -3)]%Z), (-5)%Z, (-6)%Z. refine (conj _ (conj _ _)); [left; reflexivity|left; reflexivity|lia]. Qed.

Example C150_example :
  postprocess (-1000) 1000 (Diagram 1 [(1, 1000); (2, 5); (3, 3)]%Z) false false true 2 = Diagram 1 [(1, 10); (2, 5); (3, 3)]%Z /\
  postprocess (-1000) 1000 (Diagram 1 [(1, 1000); (2, 5); (3, 3)]%Z) true false true 2 = Diagram 1 [(2, 5)]%Z.
Proof. split; reflexivity. Qed.

(** With a value for invalid coordinates, exactly the points without it remain that are not on the
    diagonal. *)
Theorem C150_invalid : forall invalid D,
  filter_invalid invalid D = Diagram (dgm_dim D) (filter (fun p => negb (fst p =? invalid)%Z && negb (snd p =? invalid)%Z && negb (fst p =? snd p)%Z) (points D)).
Proof.
  intros invalid D. unfold filter_invalid, removeDiagonal. cbn [dgm_dim points]. f_equal. induction (points D) as [|p l IH]; [reflexivity|]. cbn [map filter]. destruct (fst p =? invalid)%Z; cbn [orb negb andb]; [cbn [fst snd Z.eqb negb]; exact IH|]. destruct (snd p =? invalid)%Z; cbn [orb negb andb]; [cbn [fst snd Z.eqb negb]; exact IH|]. destruct (fst p =? snd p)%Z; cbn [negb]; rewrite IH; reflexivity.
Qed.
Example C150_invalid_example : filter_invalid (-1) (Diagram 0 [(-1, 3); (0, 2); (2, 2); (4, -1)]%Z) = Diagram 0 [(0, 2)]%Z.
Proof. reflexivity. Qed.

(** ** names *)
Lemma prefix_same a : reStatisticsPrefix a = reDataSetPrefix (a ++ chars ".txt").
Proof. unfold reStatisticsPrefix, reDataSetPrefix. rewrite rev_app_distr. cbn [chars list_ascii_of_string rev app Ascii.eqb Bool.eqb andb]. reflexivity. Qed.

(** A file with the extension for text is described by its name without directories in the same
    way as for distances; otherwise, and for other files, the dimension is zero. *)
Theorem C150_parse : forall path,
  (extension path <> chars ".txt" -> parseFilename path = Ok (stem path, 0%N)) /\
  (extension path = chars ".txt" ->
    (forall p v, dataset_file (basename path) p v -> (v < 2 ^ 64)%N -> parseFilename path = Ok (p, v mod 2 ^ 32)%N) /\
    (forall p v, dataset_file (basename path) p v -> (2 ^ 64 <= v)%N -> parseFilename path = Throw OutOfRange) /\
    ((forall p v, ~ dataset_file (basename path) p v) -> parseFilename path = Ok (stem (stem path), 0%N))).
Proof.
  intro path. unfold parseFilename. destruct (list_eq_dec ascii_dec (extension path) (chars ".txt")) as [E|N]; [|split; [reflexivity|intro E; contradiction]]. split; [intro N; contradiction|]. intros _.
  destruct (C126_extension path) as [B _]. rewrite E in B. rewrite prefix_same, B. destruct (C148_name (basename path)) as (D1 & D2 & D3). unfold describe in D1, D2, D3. refine (conj _ (conj _ _)).
  - intros p v H Hv. specialize (D1 p v H Hv). destruct (reDataSetPrefix (basename path)) as [[q n]|]; [|injection D1 as D1 D1'; exfalso].
    + destruct (stoul n) as [w| | |]; cbn [bind] in *; try discriminate. assert (q = p) by congruence. assert (w mod 2 ^ 32 = v mod 2 ^ 32)%N by congruence. congruence.
    + destruct H as (c & n & F & _). rewrite F in D1. apply (f_equal (@length ascii)) in D1. rewrite app_length in D1. cbn [length] in D1. lia.
  - intros p v H Hv. specialize (D2 p v H Hv). destruct (reDataSetPrefix (basename path)) as [[q n]|]; [|discriminate]. destruct (stoul n) as [w|e| |]; cbn [bind] in *; try discriminate. injection D2 as ->. reflexivity.
  - intro H. destruct (reDataSetPrefix (basename path)) as [[q n]|] eqn:R; [|reflexivity]. exfalso. apply regex_spec in R. destruct R as (c & F & Hc & Hd & Hp). destruct (digits_numeral n Hd) as [v Hv]. apply (H q v). exists c, n. auto.
Qed.
Example C150_parse_example : parseFilename (chars "data/a_d2.txt") = Ok (chars "a", 2%N) /\ parseFilename (chars "data/b.txt") = Ok (chars "b", 0%N).
Proof. vm_compute. auto. Qed.

(** FINDING: the extension is removed twice from a name without a dimension. *)
Theorem C150_names_refuted : exists f g, f <> g /\ extension f = chars ".txt" /\ extension g = chars ".txt" /\ stem f <> stem g /\ parseFilename f = parseFilename g.
Proof. exists (chars "v1.0.txt"), (chars "v1.2.txt"). vm_compute. repeat split; discriminate. Qed.

Print Assumptions C150_maximum.
Print Assumptions C150_extremes.
Print Assumptions C150_clean.
Print Assumptions C150_factor.
Print Assumptions C150_duplicates.
Print Assumptions C150_normalize_refuted.
Print Assumptions C150_negative_refuted.
Print Assumptions C150_invalid.
Print Assumptions C150_parse.
Print Assumptions C150_names_refuted.
