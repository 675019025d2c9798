(** * C36, C58: Hausdorff and nearest neighbour distances. *)
From Coq Require Import List Arith Bool ZArith Lia Permutation.
From Verif Require Import Base BaseFacts Diagram Hausdorff.
Import ListNotations.
Local Open Scope Z_scope.

(** [r] is the distance of [p] to the nearest point of [M] *)
Definition nearest (d : point -> point -> Z) (p : point) (M : list point) (r : Z) : Prop :=
  (exists q, In q M /\ d p q = r) /\ forall q, In q M -> r <= d p q.

(** [h] is the Hausdorff distance of two non-empty finite sets: every point has a
    point of the other set within the distance [h], and some point has no point
    of the other set at a smaller distance. *)
Definition is_hausdorff (d : point -> point -> Z) (M N : list point) (h : Z) : Prop :=
  (forall p, In p M -> exists q, In q N /\ d p q <= h) /\
  (forall q, In q N -> exists p, In p M /\ d q p <= h) /\
  ((exists p, In p M /\ forall q, In q N -> h <= d p q) \/ (exists q, In q N /\ forall p, In p M -> h <= d q p)).

Definition metric (d : point -> point -> Z) : Prop :=
  (forall p q, 0 <= d p q) /\ (forall p q, d p q = d q p) /\ (forall p q, d p q = 0 <-> p = q) /\
  (forall p q r, d p r <= d p q + d q r).

Lemma infimum_spec (d : point -> point -> Z) p l : forall b,
  let r := fold_left (fun infimum q => Z.min infimum (d p q)) l b in
  r <= b /\ (forall q, In q l -> r <= d p q) /\ (r = b \/ exists q, In q l /\ d p q = r).
Proof.
  induction l as [|q l IH]; intros b r; cbn [fold_left] in r.
  - split; [lia|]. split; [intros q []|auto].
  - destruct (IH (Z.min b (d p q))) as (A & B & C). fold r in A, B, C. split; [lia|]. split.
    + intros q' [<-|H]; [lia|auto].
    + destruct C as [C|(q' & H & C)]; [|right; exists q'; simpl; auto]. destruct (Z.min_spec b (d p q)) as [[_ E]|[_ E]]; rewrite E in C; auto.
      right. exists q. simpl. auto.
Qed.

Lemma infimum_nearest highest d p D : points D <> [] -> (forall q, In q (points D) -> d p q <= highest) ->
  nearest d p (points D) (infimumDistance highest d p D).
Proof.
  intros Hn Hb. unfold infimumDistance. destruct (infimum_spec d p (points D) highest) as (A & B & C). split; auto.
  destruct C as [C|C]; auto. destruct (points D) as [|q l]; [easy|]. exists q. split; [simpl; auto|].
  specialize (B q (or_introl eq_refl)). specialize (Hb q (or_introl eq_refl)). rewrite C in *. lia.
Qed.

Lemma supremum_spec (f : point -> Z) l : forall b,
  let r := fold_left (fun s p => Z.max s (f p)) l b in
  b <= r /\ (forall q, In q l -> f q <= r) /\ (r = b \/ exists q, In q l /\ f q = r).
Proof.
  induction l as [|q l IH]; intros b r; cbn [fold_left] in r.
  - split; [lia|]. split; [intros q []|auto].
  - destruct (IH (Z.max b (f q))) as (A & B & C). fold r in A, B, C. split; [lia|]. split.
    + intros q' [<-|H]; [lia|auto].
    + destruct C as [C|(q' & H & C)]; [|right; exists q'; simpl; auto]. destruct (Z.max_spec b (f q)) as [[_ E]|[_ E]]; rewrite E in C; auto.
      right. exists q. simpl. auto.
Qed.

Lemma supremum_attained lowest highest d D1 D2 : points D1 <> [] -> points D2 <> [] ->
  (forall p q, In p (points D1) -> In q (points D2) -> lowest <= d p q <= highest) ->
  (forall p, In p (points D1) -> exists q, In q (points D2) /\ d p q <= supremumDistance lowest highest d D1 D2) /\
  (exists p, In p (points D1) /\ forall q, In q (points D2) -> supremumDistance lowest highest d D1 D2 <= d p q).
Proof.
  intros N1 N2 Hb. unfold supremumDistance.
  assert (Hnear : forall p, In p (points D1) -> nearest d p (points D2) (infimumDistance highest d p D2)).
  { intros p Hp. apply infimum_nearest; auto. intros q Hq. apply Hb; auto. }
  destruct (supremum_spec (fun p => infimumDistance highest d p D2) (points D1) lowest) as (A & B & C). split.
  - intros p Hp. destruct (Hnear p Hp) as [(q & Hq & E) _]. exists q. split; auto. rewrite E. apply B. auto.
  - destruct C as [C|(p & Hp & C)].
    + destruct (points D1) as [|p l] eqn:E1; [easy|]. exists p. split; [simpl; auto|]. intros q Hq. rewrite C. apply Hb; simpl; auto.
    + exists p. split; auto. intros q Hq. rewrite <- C. apply (Hnear p Hp). auto.
Qed.

Theorem C36_hausdorff : forall lowest highest top d D1 D2, points D1 <> [] -> points D2 <> [] ->
  (forall p q, lowest <= d p q) ->
  (forall p q, In p (points D1) -> In q (points D2) -> d p q <= highest /\ d q p <= highest) ->
  is_hausdorff d (points D1) (points D2) (hausdorffDistance lowest highest top d D1 D2).
Proof.
  intros lowest highest top d D1 D2 N1 N2 Hlo Hb. unfold hausdorffDistance.
  assert (E1 : d_isempty D1 = false) by (unfold d_isempty; destruct (points D1); easy).
  assert (E2 : d_isempty D2 = false) by (unfold d_isempty; destruct (points D2); easy). rewrite E1, E2. cbn [andb xorb].
  assert (H1 : forall p q, In p (points D1) -> In q (points D2) -> lowest <= d p q <= highest) by (intros p q Hp Hq; split; [apply Hlo|exact (proj1 (Hb p q Hp Hq))]).
  assert (H2 : forall p q, In p (points D2) -> In q (points D1) -> lowest <= d p q <= highest) by (intros p q Hp Hq; split; [apply Hlo|exact (proj2 (Hb q p Hq Hp))]).
  destruct (supremum_attained lowest highest d D1 D2 N1 N2 H1) as [A1 B1].
  destruct (supremum_attained lowest highest d D2 D1 N2 N1 H2) as [A2 B2].
  set (s1 := supremumDistance lowest highest d D1 D2) in *. set (s2 := supremumDistance lowest highest d D2 D1) in *. split; [|split].
  - intros p Hp. destruct (A1 p Hp) as (q & Hq & H). exists q. split; auto. lia.
  - intros q Hq. destruct (A2 q Hq) as (p & Hp & H). exists p. split; auto. lia.
  - destruct (Z.max_spec s1 s2) as [[_ ->]|[_ ->]]; auto.
Qed.

Theorem C36_empty : forall lowest highest top d D1 D2,
  (points D1 = [] -> points D2 = [] -> hausdorffDistance lowest highest top d D1 D2 = 0) /\
  (points D1 = [] -> points D2 <> [] -> hausdorffDistance lowest highest top d D1 D2 = top) /\
  (points D1 <> [] -> points D2 = [] -> hausdorffDistance lowest highest top d D1 D2 = top).
Proof.
  intros. unfold hausdorffDistance, d_isempty. destruct (points D1), (points D2); repeat split; intros; try easy.
Qed.

(** ** consequences for metrics *)
Theorem C36_symmetric : forall lowest highest top d D1 D2,
  hausdorffDistance lowest highest top d D1 D2 = hausdorffDistance lowest highest top d D2 D1.
Proof. intros. unfold hausdorffDistance. rewrite andb_comm, xorb_comm, Z.max_comm. reflexivity. Qed.

(** all distances between two points of the diagrams are representable *)
Definition representable (highest : Z) (d : point -> point -> Z) (D1 D2 : diagram) : Prop :=
  forall p q, In p (points D1) -> In q (points D2) -> d p q <= highest.

Lemma hausdorff_metric lowest highest top d D1 D2 : metric d -> lowest <= 0 -> points D1 <> [] -> points D2 <> [] -> representable highest d D1 D2 ->
  is_hausdorff d (points D1) (points D2) (hausdorffDistance lowest highest top d D1 D2).
Proof.
  intros (M1 & M2 & _) Hl N1 N2 Hr. apply C36_hausdorff; auto.
  - intros p q. specialize (M1 p q). lia.
  - intros p q Hp Hq. rewrite (M2 q p). split; apply Hr; auto.
Qed.

Theorem C36_zero : forall lowest highest top d D1 D2, metric d -> lowest <= 0 -> points D1 <> [] -> points D2 <> [] -> representable highest d D1 D2 ->
  0 <= hausdorffDistance lowest highest top d D1 D2 /\
  (hausdorffDistance lowest highest top d D1 D2 = 0 <-> forall p, In p (points D1) <-> In p (points D2)).
Proof.
  intros lowest highest top d D1 D2 M Hl N1 N2 Hr. destruct (hausdorff_metric lowest highest top d D1 D2 M Hl N1 N2 Hr) as (A & B & C).
  set (h := hausdorffDistance lowest highest top d D1 D2) in *. destruct M as (M1 & M2 & M3 & _).
  assert (Hh : 0 <= h).
  { destruct (points D1) as [|p l]; [easy|]. destruct (A p (or_introl eq_refl)) as (q & _ & H). specialize (M1 p q). lia. }
  split; auto. split.
  - intros E p. split; intro Hp.
    + destruct (A p Hp) as (q & Hq & H). assert (d p q = 0) by (specialize (M1 p q); lia). apply M3 in H0. subst q. auto.
    + destruct (B p Hp) as (q & Hq & H). assert (d p q = 0) by (specialize (M1 p q); lia). apply M3 in H0. subst q. auto.
  - intro E. destruct C as [(p & Hp & H)|(q & Hq & H)].
    + specialize (H p (proj1 (E p) Hp)). assert (d p p = 0) by (apply M3; auto). lia.
    + specialize (H q (proj2 (E q) Hq)). assert (d q q = 0) by (apply M3; auto). lia.
Qed.

Theorem C36_triangle : forall lowest highest top d D1 D2 D3, metric d -> lowest <= 0 ->
  points D1 <> [] -> points D2 <> [] -> points D3 <> [] ->
  representable highest d D1 D2 -> representable highest d D2 D3 -> representable highest d D1 D3 ->
  hausdorffDistance lowest highest top d D1 D3 <=
  hausdorffDistance lowest highest top d D1 D2 + hausdorffDistance lowest highest top d D2 D3.
Proof.
  intros lowest highest top d D1 D2 D3 M Hl N1 N2 N3 R12 R23 R13.
  destruct (hausdorff_metric lowest highest top d D1 D2 M Hl N1 N2 R12) as (A12 & B12 & _).
  destruct (hausdorff_metric lowest highest top d D2 D3 M Hl N2 N3 R23) as (A23 & B23 & _).
  destruct (hausdorff_metric lowest highest top d D1 D3 M Hl N1 N3 R13) as (_ & _ & C).
  destruct M as (_ & _ & _ & M4). destruct C as [(p & Hp & H)|(q & Hq & H)].
  - destruct (A12 p Hp) as (r & Hr & E1). destruct (A23 r Hr) as (s & Hs & E2). specialize (H s Hs). specialize (M4 p r s). lia.
  - destruct (B23 q Hq) as (r & Hr & E1). destruct (B12 r Hr) as (s & Hs & E2). specialize (H s Hs). specialize (M4 q r s). lia.
Qed.

Theorem C36_infinity_metric : metric infinityDistance.
Proof.
  unfold metric, infinityDistance. repeat match goal with |- _ /\ _ => split end.
  - intros [a b] [a' b']. cbn [fst snd]. destruct (Z.leb_spec a' a), (Z.leb_spec b' b); lia.
  - intros [a b] [a' b']. cbn [fst snd]. destruct (Z.leb_spec a' a), (Z.leb_spec a a'), (Z.leb_spec b' b), (Z.leb_spec b b'); lia.
  - intros [a b] [a' b']. cbn [fst snd]. split.
    + intro H. assert (a = a' /\ b = b') as [-> ->]; [|auto]. destruct (Z.leb_spec a' a), (Z.leb_spec b' b); lia.
    + intro E. injection E as -> ->. rewrite !Z.leb_refl. lia.
  - intros [a b] [a' b'] [a'' b'']. cbn [fst snd].
    destruct (Z.leb_spec a' a), (Z.leb_spec a'' a'), (Z.leb_spec a'' a), (Z.leb_spec b' b), (Z.leb_spec b'' b'), (Z.leb_spec b'' b); lia.
Qed.

Example C36_example : hausdorffDistance (-1000) 1000 1000 infinityDistance (Diagram 0 [(1, 4); (2, 3)]) (Diagram 0 [(1, 5); (0, 9)]) = 5.
Proof. vm_compute. reflexivity. Qed.

(** ** C58 *)
Lemma kahan_exact l : forall s, fold_left kahan_add l (s, 0) = (s + fold_right Z.add 0 l, 0).
Proof.
  induction l as [|x l IH]; intro s; cbn [fold_left fold_right]; [f_equal; lia|]. unfold kahan_add at 2. cbn [fst snd].
  replace (s + (x - 0) - s - (x - 0)) with 0 by lia. rewrite IH. f_equal. lia.
Qed.

Lemma sum_perm l m : Permutation l m -> fold_right Z.add 0 l = fold_right Z.add 0 m.
Proof. induction 1; cbn [fold_right]; lia. Qed.

(** [l] lists for every point of [M] the distance to the nearest point of [N] *)
Definition nearest_distances (d : point -> point -> Z) (M N : list point) (l : list Z) : Prop :=
  Forall2 (fun p r => nearest d p N r) M l.

Theorem C58_nearest : forall highest d half D1 D2, points D1 <> [] -> points D2 <> [] ->
  (forall p q, In p (points D1) -> In q (points D2) -> d p q <= highest /\ d q p <= highest) ->
  exists l1 l2, nearest_distances d (points D1) (points D2) l1 /\ nearest_distances d (points D2) (points D1) l2 /\
    nearestNeighbourDistance highest d half D1 D2 = half (fold_right Z.add 0 l1 + fold_right Z.add 0 l2).
Proof.
  intros highest d half D1 D2 N1 N2 Hb. exists (oneSidedDistances highest d D1 D2), (oneSidedDistances highest d D2 D1).
  assert (G : forall D' l, points D' <> [] -> (forall p q, In p l -> In q (points D') -> d p q <= highest) ->
     Forall2 (fun p r => nearest d p (points D') r) l (map (fun p => infimumDistance highest d p D') l)).
  { intros D' l Hn. induction l as [|p l IH]; intro H; cbn [map]; constructor.
    - apply infimum_nearest; auto. intros q Hq. apply H; simpl; auto.
    - apply IH. intros; apply H; simpl; auto. }
  split; [apply G; auto; intros p q Hp Hq; exact (proj1 (Hb p q Hp Hq))|]. split; [apply G; auto; intros p q Hp Hq; exact (proj2 (Hb q p Hq Hp))|].
  unfold nearestNeighbourDistance, accumulate_kahan_sorted, accumulate_kahan. rewrite !kahan_exact. cbn [fst]. f_equal. f_equal; (rewrite Z.add_0_l; apply sum_perm, cpp_sort_perm).
Qed.

(** the sum of the sorted values is the sum *)
Theorem C58_kahan : forall values init,
  accumulate_kahan values init = init + fold_right Z.add 0 values /\
  accumulate_kahan_sorted values init = init + fold_right Z.add 0 values.
Proof.
  intros. unfold accumulate_kahan_sorted, accumulate_kahan. rewrite !kahan_exact. cbn [fst]. split; auto. f_equal. apply sum_perm, cpp_sort_perm.
Qed.

Example C58_example : nearestNeighbourDistance 1000 infinityDistance (fun x => x / 2) (Diagram 0 [(1, 4); (2, 3)]) (Diagram 0 [(1, 5); (0, 9)]) = 4.
Proof. vm_compute. reflexivity. Qed.

(** An empty diagram makes every distance the largest number, so that the result depends on the number of points. *)
Theorem C58_empty : forall highest d D, nearestNeighbourDistance highest d (fun x => x) D (Diagram 0 []) =
  highest * Z.of_nat (length (points D)).
Proof.
  intros. unfold nearestNeighbourDistance. rewrite (proj2 (C58_kahan _ _)), (proj2 (C58_kahan _ _)). unfold oneSidedDistances. cbn [points map fold_right].
  induction (points D) as [|p l IH]; cbn [map fold_right length] in *; [lia|]. unfold infimumDistance at 1. cbn [points fold_left]. lia.
Qed.

Print Assumptions C36_hausdorff.
Print Assumptions C36_empty.
Print Assumptions C36_symmetric.
Print Assumptions C36_zero.
Print Assumptions C36_triangle.
Print Assumptions C36_infinity_metric.
Print Assumptions C58_nearest.
Print Assumptions C58_kahan.
Print Assumptions C58_empty.
