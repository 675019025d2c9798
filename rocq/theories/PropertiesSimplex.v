(** * C01, C02: simplices. *)

From Coq Require Import List Arith Lia Bool Sorted ZArith.
From Verif Require Import Base BaseFacts Simplex SimplexFacts.
Import ListNotations.

(** C01.  Two simplices built from ranges are equal exactly if the ranges have
    the same elements; membership and size are those of the set. *)
Theorem C01_equal_iff_same_vertices : forall l1 l2 d1 d2,
  s_eqb (simplex_of l1 d1) (simplex_of l2 d2) = true <-> (forall v, In v l1 <-> In v l2).
Proof.
  intros. rewrite s_eqb_eq. split.
  - intros E v. rewrite <- (simplex_of_In l1 d1), <- (simplex_of_In l2 d2), E. reflexivity.
  - intros H. apply wf_ext; try apply simplex_of_wf.
    intro v. rewrite !simplex_of_In. apply H.
Qed.

Theorem C01_contains : forall l d v, s_contains (simplex_of l d) v = true <-> In v l.
Proof. intros. rewrite s_contains_In. apply simplex_of_In. Qed.

Theorem C01_size_is_cardinality : forall l d,
  s_size (simplex_of l d) = length (nodup Nat.eq_dec l).
Proof.
  intros. apply NoDup_same_length.
  - apply SSgt_NoDup, simplex_of_wf.
  - apply NoDup_nodup.
  - intro v. rewrite simplex_of_In, nodup_In. reflexivity.
Qed.

(** operator< is a strict total order compatible with operator== (on all
    simplices, whatever their data). *)
Theorem C01_strict_total_order :
  (forall s, s_ltb s s = false) /\
  (forall s t u, s_ltb s t = true -> s_ltb t u = true -> s_ltb s u = true) /\
  (forall s t, s_ltb s t = true \/ s_eqb s t = true \/ s_ltb t s = true) /\
  (forall s t, s_eqb s t = true -> s_ltb s t = false /\ s_ltb t s = false) /\
  (forall s s' t t', s_eqb s s' = true -> s_eqb t t' = true -> s_ltb s t = s_ltb s' t').
Proof.
  unfold s_ltb. repeat split.
  - intro; apply lex_irrefl.
  - intros s t u; apply lex_trans.
  - intros s t. rewrite s_eqb_eq. apply lex_total.
  - apply s_eqb_eq in H. rewrite H. apply lex_irrefl.
  - apply s_eqb_eq in H. rewrite H. apply lex_irrefl.
  - intros s s' t t' E F. apply s_eqb_eq in E, F. congruence.
Qed.

(** The dimension query fails on the empty simplex only. *)
Theorem C01_dimension : forall l d,
  (l = [] -> s_dimension (simplex_of l d) = Throw RuntimeError) /\
  (l <> [] -> s_dimension (simplex_of l d) = Ok (length (nodup Nat.eq_dec l) - 1)).
Proof.
  intros l d. split.
  - intros ->. reflexivity.
  - intros H. rewrite <- (C01_size_is_cardinality l d). apply dimension_size.
    rewrite (C01_size_is_cardinality l d). destruct l as [|a l]; [easy|].
    intro E. apply length_zero_iff_nil in E.
    assert (In a (nodup Nat.eq_dec (a :: l))) by (apply nodup_In; simpl; auto).
    rewrite E in H0. easy.
Qed.

Example C01_example :
  verts (simplex_of [1;3;2;3] 7%Z) = [3;2;1] /\
  s_eqb (simplex_of [1;3;2;3] 7%Z) (simplex_of [3;1;2] 0%Z) = true /\
  s_ltb (simplex_of [2;1] 0%Z) (simplex_of [3] 0%Z) = true.
Proof. repeat split. Qed.

(** C02.  A simplex in the sense of the API: any result of a constructor. *)
Theorem C02_boundary_members : forall l d vs,
  2 <= length (nodup Nat.eq_dec l) ->
  let B := boundary (simplex_of l d) in
  length B = length (nodup Nat.eq_dec l) /\
  StronglySorted (fun f g => s_ltb f g = true) B /\
  NoDup (map verts B) /\
  (forall f, In f B -> s_dimension f = Ok (length (nodup Nat.eq_dec l) - 2)) /\
  ((exists f, In f B /\ s_eqb f (simplex_of vs 0%Z) = true) <->
   (exists v, In v l /\ forall u, In u vs <-> (In u l /\ u <> v))).
Proof.
  intros l d vs H2 B.
  pose proof (simplex_of_wf l d) as Hw.
  rewrite <- (C01_size_is_cardinality l d) in *.
  repeat split.
  - apply boundary_length; auto.
  - apply boundary_sorted; auto.
  - apply boundary_NoDup; auto.
  - intros f Hf. pose proof (boundary_size _ _ Hw Hf) as Hs.
    rewrite dimension_size by lia. f_equal. lia.
  - intros (f & Hf & E).
    assert (In (verts (simplex_of vs 0%Z)) (map verts (boundary (simplex_of l d)))).
    { apply in_map_iff. exists f. split; auto. apply s_eqb_eq; auto. }
    apply in_boundary_iff_set in H; auto using simplex_of_wf.
    destruct H as (v & Hv & Hu). exists v. rewrite simplex_of_In in Hv. split; auto.
    intro u. specialize (Hu u). rewrite !simplex_of_In in Hu. exact Hu.
  - intros (v & Hv & Hu).
    assert (In (verts (simplex_of vs 0%Z)) (map verts (boundary (simplex_of l d)))).
    { apply in_boundary_iff_set; auto using simplex_of_wf.
      exists v. rewrite simplex_of_In. split; auto. intro u. rewrite !simplex_of_In. apply Hu. }
    apply in_map_iff in H. destruct H as (f & E & Hf). exists f. split; auto. apply s_eqb_eq; auto.
Qed.

Theorem C02_boundary_empty : forall l d,
  length (nodup Nat.eq_dec l) <= 1 -> boundary (simplex_of l d) = [].
Proof. intros l d H. apply boundary_small. rewrite C01_size_is_cardinality. exact H. Qed.

(** Every codimension-two face occurs in exactly two members of the boundary. *)
Theorem C02_codimension_two : forall l d vs a b,
  3 <= length (nodup Nat.eq_dec l) ->
  In a l -> In b l -> a <> b ->
  (forall u, In u vs <-> In u l /\ u <> a /\ u <> b) ->
  length (filter (fun f => existsb (s_eqb (simplex_of vs 0%Z)) (boundary f))
                 (boundary (simplex_of l d))) = 2.
Proof.
  intros l d vs a b H3 Ha Hb Hab Hu.
  apply (boundary_two _ _ a b); auto using simplex_of_wf.
  - rewrite C01_size_is_cardinality. exact H3.
  - apply simplex_of_In; auto.
  - apply simplex_of_In; auto.
  - intro u. rewrite !simplex_of_In. apply Hu.
Qed.

Example C02_example :
  map verts (boundary (simplex_of [1;2;3] 5%Z)) = [[2;1];[3;1];[3;2]] /\
  length (filter (fun f => existsb (s_eqb (simplex_of [2] 0%Z)) (boundary f))
                 (boundary (simplex_of [1;2;3] 5%Z))) = 2.
Proof. split; reflexivity. Qed.

Print Assumptions C01_equal_iff_same_vertices.
Print Assumptions C01_contains.
Print Assumptions C01_size_is_cardinality.
Print Assumptions C01_strict_total_order.
Print Assumptions C01_dimension.
Print Assumptions C02_boundary_members.
Print Assumptions C02_boundary_empty.
Print Assumptions C02_codimension_two.
