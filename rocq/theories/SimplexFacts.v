(** * Proofs about the model of [topology/Simplex.hh]. *)

From Coq Require Import List Arith Lia Bool Permutation Sorted ZArith.
From Verif Require Import Base BaseFacts Simplex.
Import ListNotations.

(** What every constructor establishes. *)
Definition wf (s : simplex) : Prop := StronglySorted gt (verts s).

Lemma greater_gtb : greater = gtb.
Proof. reflexivity. Qed.

Lemma simplex_of_wf l d : wf (simplex_of l d).
Proof.
  unfold wf, simplex_of. simpl. apply cpp_unique_sorted_ge.
  rewrite greater_gtb. apply cpp_sort_ge.
Qed.

Lemma simplex_of_In l d v : In v (verts (simplex_of l d)) <-> In v l.
Proof.
  unfold simplex_of. simpl. rewrite cpp_unique_In by apply Nat.eqb_eq.
  apply cpp_sort_In.
Qed.

Lemma wf_ext s t : wf s -> wf t -> (forall v, In v (verts s) <-> In v (verts t)) -> verts s = verts t.
Proof. apply SSgt_ext. Qed.

Lemma simplex_of_id s d : wf s -> verts (simplex_of (verts s) d) = verts s.
Proof.
  intro H. apply wf_ext; auto. apply simplex_of_wf. intro; apply simplex_of_In.
Qed.

Lemma list_eqb_eq a b : list_eqb a b = true <-> a = b.
Proof.
  revert b; induction a; destruct b; simpl; split; intros; try discriminate; auto.
  - apply andb_true_iff in H. destruct H as [H1 H2].
    apply Nat.eqb_eq in H1. apply IHa in H2. congruence.
  - injection H as -> ->. rewrite Nat.eqb_refl. apply IHa. reflexivity.
Qed.

Lemma s_eqb_eq s t : s_eqb s t = true <-> verts s = verts t.
Proof. apply list_eqb_eq. Qed.

Lemma s_eqb_refl s : s_eqb s s = true.
Proof. now apply s_eqb_eq. Qed.

Lemma s_eqb_sym s t : s_eqb s t = s_eqb t s.
Proof.
  destruct (s_eqb s t) eqn:E, (s_eqb t s) eqn:F; auto.
  - apply s_eqb_eq in E. rewrite <- F. symmetry. apply s_eqb_eq. auto.
  - apply s_eqb_eq in F. rewrite <- E. apply s_eqb_eq. auto.
Qed.

Lemma s_eqb_neq s t : s_eqb s t = false <-> verts s <> verts t.
Proof.
  split.
  - intros E F. apply s_eqb_eq in F. congruence.
  - intro E. destruct (s_eqb s t) eqn:F; auto. apply s_eqb_eq in F. easy.
Qed.

Lemma s_contains_In s v : s_contains s v = true <-> In v (verts s).
Proof. apply mem_In. Qed.

(** ** the order *)
Lemma lex_irrefl a : lex_ltb a a = false.
Proof. induction a; simpl; auto. rewrite Nat.ltb_irrefl. auto. Qed.

Lemma lex_trans a b c : lex_ltb a b = true -> lex_ltb b c = true -> lex_ltb a c = true.
Proof.
  revert b c; induction a as [|x a IH]; intros [|y b] [|z c]; simpl; intros H1 H2; try discriminate; auto.
  destruct (Nat.ltb_spec x y), (Nat.ltb_spec y x), (Nat.ltb_spec y z), (Nat.ltb_spec z y),
    (Nat.ltb_spec x z), (Nat.ltb_spec z x); try lia; try discriminate; auto.
  eapply IH; eauto.
Qed.

Lemma lex_total a b : lex_ltb a b = true \/ a = b \/ lex_ltb b a = true.
Proof.
  revert b; induction a as [|x a IH]; intros [|y b]; simpl; auto.
  destruct (Nat.ltb_spec x y), (Nat.ltb_spec y x); auto.
  assert (x = y) as -> by lia. destruct (IH b) as [|[->|]]; auto.
Qed.

Lemma lex_asym a b : lex_ltb a b = true -> lex_ltb b a = false.
Proof.
  intro H. destruct (lex_ltb b a) eqn:E; auto.
  pose proof (lex_trans _ _ _ H E). rewrite lex_irrefl in H0. discriminate.
Qed.

Lemma lex_swo : swo lex_ltb.
Proof.
  split; [apply lex_asym|].
  intros x y z H1 H2. destruct (lex_ltb z x) eqn:E; auto.
  destruct (lex_total x y) as [H|[->|H]]; try congruence.
  pose proof (lex_trans _ _ _ E H). congruence.
Qed.

(** ** faces *)
Lemma filter_SSgt f l : StronglySorted gt l -> StronglySorted gt (filter f l).
Proof. apply StronglySorted_filter. Qed.

Lemma boundary_face_In s v u :
  In u (verts (boundary_face s v)) <-> In u (verts s) /\ u <> v.
Proof.
  unfold boundary_face. rewrite simplex_of_In, filter_In.
  rewrite negb_true_iff, Nat.eqb_neq. reflexivity.
Qed.

Lemma boundary_face_wf s v : wf (boundary_face s v).
Proof. apply simplex_of_wf. Qed.

Lemma boundary_face_verts s v : wf s ->
  verts (boundary_face s v) = filter (fun u => negb (u =? v)) (verts s).
Proof.
  intro H. apply SSgt_ext.
  - apply boundary_face_wf.
  - apply filter_SSgt, H.
  - intro u. rewrite boundary_face_In, filter_In, negb_true_iff, Nat.eqb_neq. reflexivity.
Qed.

Lemma filter_remove_length v l :
  NoDup l -> In v l -> S (length (filter (fun u => negb (u =? v)) l)) = length l.
Proof.
  induction l as [|a l IH]; intros Hn Hi; [easy|].
  inversion Hn; subst. simpl. destruct (Nat.eqb_spec a v); simpl.
  - subst. f_equal. rewrite filter_all; auto.
    intros x Hx. apply negb_true_iff, Nat.eqb_neq. intros ->; auto.
  - destruct Hi as [->|Hi]; [easy|]. f_equal. auto.
Qed.

Lemma boundary_face_size s v :
  wf s -> In v (verts s) -> S (s_size (boundary_face s v)) = s_size s.
Proof.
  intros H Hv. unfold s_size. rewrite boundary_face_verts by auto.
  apply filter_remove_length; auto. apply SSgt_NoDup, H.
Qed.

Lemma boundary_length s : 2 <= s_size s -> length (boundary s) = s_size s.
Proof.
  intro H. unfold boundary. destruct (Nat.leb_spec (s_size s) 1); [lia|].
  apply map_length.
Qed.

Lemma boundary_small s : s_size s <= 1 -> boundary s = [].
Proof. intro H. unfold boundary. destruct (Nat.leb_spec (s_size s) 1); [auto|lia]. Qed.

Lemma in_boundary s f :
  In f (boundary s) <-> 2 <= s_size s /\ exists v, In v (verts s) /\ f = boundary_face s v.
Proof.
  unfold boundary. destruct (Nat.leb_spec (s_size s) 1).
  - split; [easy|]. intros [H1 _]. lia.
  - rewrite in_map_iff. split.
    + intros (v & <- & Hv). split; [lia|]. eauto.
    + intros (_ & v & Hv & ->). eauto.
Qed.

Lemma boundary_wf s f : In f (boundary s) -> wf f.
Proof. intro H. apply in_boundary in H. destruct H as (_ & v & _ & ->). apply boundary_face_wf. Qed.

Lemma boundary_size s f : wf s -> In f (boundary s) -> S (s_size f) = s_size s.
Proof.
  intros Hw H. apply in_boundary in H. destruct H as (_ & v & Hv & ->).
  apply boundary_face_size; auto.
Qed.

Lemma boundary_incl s f v : In f (boundary s) -> In v (verts f) -> In v (verts s).
Proof.
  intros H Hv. apply in_boundary in H. destruct H as (_ & w & Hw & ->).
  apply boundary_face_In in Hv. tauto.
Qed.

Lemma boundary_data s f : In f (boundary s) -> data f = 0%Z.
Proof. intro H. apply in_boundary in H. destruct H as (_ & v & _ & ->). reflexivity. Qed.

Lemma dimension_size s : s_size s <> 0 -> s_dimension s = Ok (s_size s - 1).
Proof.
  unfold s_size, s_dimension. destruct (verts s); simpl; [easy|].
  intros _. f_equal. lia.
Qed.

Lemma lex_filter_lt a b l :
  StronglySorted gt l -> In a l -> In b l -> b < a ->
  lex_ltb (filter (fun u => negb (u =? a)) l) (filter (fun u => negb (u =? b)) l) = true.
Proof.
  induction l as [|x l IH]; intros Hs Ha Hb Hlt; [easy|].
  inversion Hs as [|? ? Hs' F]; subst. rewrite Forall_forall in F.
  simpl. destruct (Nat.eqb_spec x a) as [->|Hxa]; simpl.
  - destruct (Nat.eqb_spec a b); [lia|]. simpl.
    assert (E : filter (fun u => negb (u =? a)) l = l).
    { apply filter_all. intros y Hy.
      apply negb_true_iff, Nat.eqb_neq. apply F in Hy. lia. }
    rewrite E. destruct l as [|y l].
    + reflexivity.
    + simpl. assert (y < a) by (apply F; simpl; auto).
      destruct (Nat.ltb_spec y a); [auto|lia].
  - destruct Ha as [->|Ha]; [easy|].
    destruct (Nat.eqb_spec x b) as [->|Hxb]; simpl.
    + apply F in Ha. lia.
    + destruct Hb as [->|Hb]; [easy|].
      rewrite Nat.ltb_irrefl. auto.
Qed.

Lemma map_StronglySorted {A B} (f : A -> B) (R : A -> A -> Prop) (S : B -> B -> Prop) l :
  (forall x y, In x l -> In y l -> R x y -> S (f x) (f y)) ->
  StronglySorted R l -> StronglySorted S (map f l).
Proof.
  induction l; intros H Hs; simpl; constructor; inversion Hs; subst.
  - apply IHl; auto. intros; apply H; simpl; auto.
  - rewrite Forall_forall in *. intros y Hy. apply in_map_iff in Hy.
    destruct Hy as (z & <- & Hz). apply H; simpl; auto.
Qed.

Lemma boundary_sorted s : wf s -> StronglySorted (fun f g => s_ltb f g = true) (boundary s).
Proof.
  intro Hw. unfold boundary. destruct (s_size s <=? 1); [constructor|].
  eapply map_StronglySorted; [|exact Hw].
  simpl. intros x y Hx Hy Hxy. unfold s_ltb. rewrite !boundary_face_verts by auto.
  apply lex_filter_lt; auto.
Qed.

Lemma boundary_NoDup s : wf s -> NoDup (map verts (boundary s)).
Proof.
  intro Hw. apply boundary_sorted in Hw. induction Hw; simpl; constructor; auto.
  rewrite Forall_forall in H. rewrite in_map_iff. intros (g & E & Hg).
  apply H in Hg. unfold s_ltb in Hg. rewrite E in Hg. rewrite lex_irrefl in Hg. discriminate.
Qed.

(** ** membership as sets *)
Definition same_set (a b : list nat) : Prop := forall v, In v a <-> In v b.

Lemma in_boundary_iff_set s f :
  wf s -> wf f -> 2 <= s_size s ->
  (In (verts f) (map verts (boundary s)) <->
   exists v, In v (verts s) /\ forall u, In u (verts f) <-> (In u (verts s) /\ u <> v)).
Proof.
  intros Hs Hf H2. rewrite in_map_iff. split.
  - intros (g & E & Hg). apply in_boundary in Hg. destruct Hg as (_ & v & Hv & ->).
    exists v. split; auto. intro u. rewrite <- E. apply boundary_face_In.
  - intros (v & Hv & Hu). exists (boundary_face s v). split.
    + apply wf_ext; auto. apply boundary_face_wf.
      intro u. rewrite boundary_face_In, Hu. reflexivity.
    + apply in_boundary. split; eauto.
Qed.

Lemma existsb_seqb g l : existsb (s_eqb g) l = true <-> In (verts g) (map verts l).
Proof.
  rewrite existsb_exists, in_map_iff. split.
  - intros (x & Hx & E). apply s_eqb_eq in E. exists x. auto.
  - intros (x & E & Hx). exists x. split; auto. apply s_eqb_eq. auto.
Qed.

Lemma filter_map_length {A B} (p : B -> bool) (f : A -> B) l :
  length (filter p (map f l)) = length (filter (fun x => p (f x)) l).
Proof. induction l; simpl; auto. destruct (p (f a)); simpl; auto. Qed.

Lemma filter_two_length a b l :
  NoDup l -> In a l -> In b l -> a <> b ->
  length (filter (fun x => (x =? a) || (x =? b)) l) = 2.
Proof.
  intros Hn Ha Hb Hab.
  assert (P : Permutation (filter (fun x => (x =? a) || (x =? b)) l) [a; b]).
  { apply NoDup_Permutation.
    - apply NoDup_filter; auto.
    - constructor; [simpl; intros [|[]]; auto|]. constructor; auto. constructor.
    - intro x. rewrite filter_In, orb_true_iff, !Nat.eqb_eq. simpl.
      split; [intuition|]. intros [<-|[<-|[]]]; auto. }
  apply Permutation_length in P. exact P.
Qed.

(** every codimension-two face lies in exactly two members of the boundary *)
Lemma boundary_two s g a b :
  wf s -> wf g -> 3 <= s_size s ->
  In a (verts s) -> In b (verts s) -> a <> b ->
  (forall u, In u (verts g) <-> In u (verts s) /\ u <> a /\ u <> b) ->
  length (filter (fun f => existsb (s_eqb g) (boundary f)) (boundary s)) = 2.
Proof.
  intros Hs Hg H3 Ha Hb Hab Hu.
  unfold boundary at 2. destruct (Nat.leb_spec (s_size s) 1); [lia|].
  rewrite filter_map_length.
  erewrite filter_ext_in; [apply (filter_two_length a b (verts s)); auto; apply SSgt_NoDup, Hs|].
  intros v Hv. simpl.
  apply eq_true_iff_eq. rewrite existsb_seqb.
  pose proof (boundary_face_size s v Hs Hv).
  rewrite in_boundary_iff_set; auto using boundary_face_wf; [|lia].
  rewrite orb_true_iff, !Nat.eqb_eq. split.
  - intros (w & Hw & E).
    destruct (Nat.eq_dec v a); auto. destruct (Nat.eq_dec v b); auto. exfalso.
    assert (In v (verts g)) by (apply Hu; auto).
    apply E in H1. rewrite boundary_face_In in H1. tauto.
  - intros [->| ->].
    + exists b. split; [apply boundary_face_In; auto|].
      intro u. rewrite Hu, boundary_face_In. tauto.
    + exists a. split; [apply boundary_face_In; auto|].
      intro u. rewrite Hu, boundary_face_In. tauto.
Qed.

Lemma NoDup_same_length (l : list nat) (k : list nat) :
  NoDup l -> NoDup k -> same_set l k -> length l = length k.
Proof. intros. apply Permutation_length, NoDup_Permutation; auto. Qed.
