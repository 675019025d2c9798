(** * C82: the sum of minimum distances. *)
From Coq Require Import List Arith Bool ZArith Lia Permutation.
From Verif Require Import Base BaseFacts Diagram Hausdorff PropertiesHausdorff PointSet.
Import ListNotations.
Local Open Scope Z_scope.

Definition flip (d : point -> point -> Z) : point -> point -> Z := fun p q => d q p.

Lemma push_map {A B} (f : A -> B) l : forall acc, fold_left (fun acc x => acc ++ [f x]) l acc = acc ++ map f l.
Proof. induction l as [|a l IH]; intro acc; cbn [fold_left map]; [rewrite app_nil_r; reflexivity|]. rewrite IH, <- app_assoc. reflexivity. Qed.

Lemma distances1_one_sided highest d D1 D2 : distances1 highest d D1 D2 = oneSidedDistances highest d D1 D2.
Proof. unfold distances1, oneSidedDistances. rewrite push_map. reflexivity. Qed.
Lemma distances2_one_sided highest d D1 D2 : distances2 highest d D1 D2 = oneSidedDistances highest (flip d) D2 D1.
Proof. unfold distances2, oneSidedDistances. rewrite push_map. reflexivity. Qed.

Lemma one_sided_nearest highest d D' l : points D' <> [] -> (forall p q, In p l -> In q (points D') -> d p q <= highest) ->
  nearest_distances d l (points D') (map (fun p => infimumDistance highest d p D') l).
Proof.
  intros Hn. induction l as [|p l IH]; intro H; cbn [map]; constructor.
  - apply infimum_nearest; auto. intros q Hq. apply H; simpl; auto.
  - apply IH. intros; apply H; simpl; auto.
Qed.

Lemma not_empty D : points D <> [] -> d_isempty D = false.
Proof. unfold d_isempty. destruct (points D); easy. Qed.

(** Half of the sum of all distances to the nearest point of the other diagram. *)
Theorem C82_sum : forall highest top d half D1 D2, points D1 <> [] -> points D2 <> [] ->
  (forall p q, In p (points D1) -> In q (points D2) -> d p q <= highest) ->
  exists l1 l2, nearest_distances d (points D1) (points D2) l1 /\ nearest_distances (flip d) (points D2) (points D1) l2 /\
    sumOfMinimumDistances highest top d half D1 D2 = half (fold_right Z.add 0 l1 + fold_right Z.add 0 l2).
Proof.
  intros highest top d half D1 D2 N1 N2 Hb. exists (distances1 highest d D1 D2), (distances2 highest d D1 D2). refine (conj _ (conj _ _)).
  - rewrite distances1_one_sided. apply one_sided_nearest; auto.
  - rewrite distances2_one_sided. apply one_sided_nearest; auto. intros p q Hp Hq. apply Hb; auto.
  - unfold sumOfMinimumDistances. rewrite (not_empty _ N1), (not_empty _ N2). cbn [andb orb].
    rewrite !(proj2 (C58_kahan _ _)), !Z.add_0_l. reflexivity.
Qed.

(** Two empty diagrams have distance zero; an empty and a non-empty one are infinitely far apart. *)
Theorem C82_empty : forall highest top d half D1 D2,
  (points D1 = [] -> points D2 = [] -> sumOfMinimumDistances highest top d half D1 D2 = 0) /\
  (points D1 = [] -> points D2 <> [] -> sumOfMinimumDistances highest top d half D1 D2 = top) /\
  (points D1 <> [] -> points D2 = [] -> sumOfMinimumDistances highest top d half D1 D2 = top).
Proof.
  intros. unfold sumOfMinimumDistances, d_isempty. destruct (points D1), (points D2); repeat split; easy.
Qed.

Theorem C82_symmetric : forall highest top d half D1 D2, (forall p q, d p q = d q p) ->
  sumOfMinimumDistances highest top d half D1 D2 = sumOfMinimumDistances highest top d half D2 D1.
Proof.
  intros highest top d half D1 D2 Hs. unfold sumOfMinimumDistances. rewrite (andb_comm (d_isempty D1)), (orb_comm (d_isempty D1)).
  destruct (d_isempty D2 && d_isempty D1); [reflexivity|]. destruct (d_isempty D2 || d_isempty D1); [reflexivity|]. f_equal.
  assert (G : forall A B, distances1 highest d A B = distances2 highest d B A).
  { intros A B. rewrite distances1_one_sided, distances2_one_sided. unfold oneSidedDistances. apply map_ext. intro p. unfold infimumDistance, flip.
    generalize highest. induction (points B) as [|q l IH]; intro b; cbn [fold_left]; [reflexivity|]. rewrite (Hs p q). apply IH. }
  rewrite (G D1 D2), <- (G D2 D1). lia.
Qed.

Lemma nonneg_sum_zero l : (forall x, In x l -> 0 <= x) -> 0 <= fold_right Z.add 0 l /\ (fold_right Z.add 0 l = 0 -> forall x, In x l -> x = 0).
Proof.
  induction l as [|a l IH]; intro H; cbn [fold_right]; [split; [lia|easy]|].
  assert (Ha : 0 <= a) by (apply H; simpl; auto). destruct IH as [I1 I2]; [intros; apply H; simpl; auto|]. split; [lia|].
  intros E x [<-|Hx]; [lia|]. apply I2; [lia|exact Hx].
Qed.

Lemma sum_all_zero l : (forall x, In x l -> x = 0) -> fold_right Z.add 0 l = 0.
Proof. induction l as [|a l IH]; intro H; cbn [fold_right]; [reflexivity|]. rewrite (H a), IH; simpl; auto. intros; apply H; simpl; auto. Qed.

Lemma nearest_in d M N l x : nearest_distances d M N l -> In x l -> exists p, In p M /\ nearest d p N x.
Proof. induction 1 as [|p r M l H1 H2 IH]; [easy|]. intros [<-|Hx]; [exists p; simpl; auto|]. destruct (IH Hx) as (q & Hq & H). exists q. simpl. auto. Qed.
Lemma nearest_of d M N l p : nearest_distances d M N l -> In p M -> exists x, In x l /\ nearest d p N x.
Proof. induction 1 as [|q r M l H1 H2 IH]; [easy|]. intros [<-|Hp]; [exists r; simpl; auto|]. destruct (IH Hp) as (x & Hx & H). exists x. simpl. auto. Qed.

(** For a metric, non-empty diagrams have distance zero iff they have the same
    points; multiplicities are not taken into account. *)
Theorem C82_zero : forall highest top d half D1 D2, metric d -> points D1 <> [] -> points D2 <> [] ->
  (forall p q, In p (points D1) -> In q (points D2) -> d p q <= highest) -> (forall x, half x = 0 <-> x = 0) ->
  (sumOfMinimumDistances highest top d half D1 D2 = 0 <-> forall p, In p (points D1) <-> In p (points D2)).
Proof.
  intros highest top d half D1 D2 (M1 & M2 & M3 & M4) N1 N2 Hb Hh.
  destruct (C82_sum highest top d half D1 D2 N1 N2 Hb) as (l1 & l2 & L1 & L2 & ->). rewrite Hh.
  assert (P1 : forall x, In x l1 -> 0 <= x). { intros x Hx. destruct (nearest_in _ _ _ _ _ L1 Hx) as (p & _ & (q & _ & <-) & _). auto. }
  assert (P2 : forall x, In x l2 -> 0 <= x). { intros x Hx. destruct (nearest_in _ _ _ _ _ L2 Hx) as (p & _ & (q & _ & <-) & _). unfold flip. auto. }
  destruct (nonneg_sum_zero l1 P1) as [S1 Z1]. destruct (nonneg_sum_zero l2 P2) as [S2 Z2]. split.
  - intro E. intro p. split; intro Hp.
    + destruct (nearest_of _ _ _ _ _ L1 Hp) as (x & Hx & (q & Hq & Eq) & _). rewrite (Z1 ltac:(lia) x Hx) in Eq. apply M3 in Eq. subst q. exact Hq.
    + destruct (nearest_of _ _ _ _ _ L2 Hp) as (x & Hx & (q & Hq & Eq) & _). unfold flip in Eq. rewrite (Z2 ltac:(lia) x Hx) in Eq. apply M3 in Eq. subst q. exact Hq.
  - intro H. rewrite (sum_all_zero l1), (sum_all_zero l2); [reflexivity| |].
    + intros x Hx. destruct (nearest_in _ _ _ _ _ L2 Hx) as (p & Hp & _ & Q). specialize (Q p (proj2 (H p) Hp)). unfold flip in Q.
      rewrite (proj2 (M3 p p) eq_refl) in Q. specialize (P2 x Hx). lia.
    + intros x Hx. destruct (nearest_in _ _ _ _ _ L1 Hx) as (p & Hp & _ & Q). specialize (Q p (proj1 (H p) Hp)).
      rewrite (proj2 (M3 p p) eq_refl) in Q. specialize (P1 x Hx). lia.
Qed.

(** FINDING: the documentation speaks of a metric, but the triangle inequality
    does not hold (values are twice the distances). *)
Theorem C82_triangle_refuted : exists D1 D2 D3,
  sumOfMinimumDistances 1000 1000 infinityDistance (fun x => x) D1 D2 + sumOfMinimumDistances 1000 1000 infinityDistance (fun x => x) D2 D3 <
  sumOfMinimumDistances 1000 1000 infinityDistance (fun x => x) D1 D3.
Proof.
  exists (Diagram 0 [(0, 10); (0, 10); (0, 10)]), (Diagram 0 [(0, 10); (0, 20)]), (Diagram 0 [(0, 20); (0, 20); (0, 20)]). vm_compute. reflexivity.
Qed.

(** FINDING: [DataType(0.5)] is zero for integral types, so that all non-empty
    diagrams have distance zero. *)
Theorem C82_integral_refuted : forall highest top d D1 D2, points D1 <> [] -> points D2 <> [] ->
  sumOfMinimumDistances highest top d (fun x => 0 * x) D1 D2 = 0.
Proof.
  intros highest top d D1 D2 N1 N2. unfold sumOfMinimumDistances. rewrite (not_empty _ N1), (not_empty _ N2). reflexivity.
Qed.

Example C82_example :
  sumOfMinimumDistances 1000 1000 infinityDistance (fun x => x) (Diagram 0 [(1, 4); (2, 3)]) (Diagram 0 [(1, 5); (0, 9)]) = 9 /\
  sumOfMinimumDistances 1000 1000 (fun p q => 2 * fst p + fst q) (fun x => x) (Diagram 0 [(1, 4); (2, 3)]) (Diagram 0 [(1, 5); (0, 9)]) = 11.
Proof. split; vm_compute; reflexivity. Qed.

Print Assumptions C82_sum.
Print Assumptions C82_empty.
Print Assumptions C82_symmetric.
Print Assumptions C82_zero.
Print Assumptions C82_triangle_refuted.
Print Assumptions C82_integral_refuted.
