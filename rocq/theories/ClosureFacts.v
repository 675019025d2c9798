(** * Closure under faces: creation of missing faces and removal. *)

From Coq Require Import List Arith Lia Bool Permutation Sorted ZArith.
From Verif Require Import Base BaseFacts Simplex SimplexFacts Matrix SpecComplex Complex ComplexFacts.
Import ListNotations.

Definition closedB (L : list simplex) : Prop :=
  forall s f, In s L -> In f (boundary s) -> In (verts f) (map verts L).

Lemma subset_dec vs ws : {subset vs ws} + {exists v, In v vs /\ ~ In v ws}.
Proof.
  destruct (forallb (fun v => mem v ws) vs) eqn:E.
  - left. intros v Hv. rewrite forallb_forall in E. apply mem_In; auto.
  - right. induction vs as [|a vs IH]; [discriminate|]. simpl in E.
    destruct (mem a ws) eqn:F.
    + destruct (IH E) as (v & H1 & H2). exists v. simpl; auto.
    + exists a. split; [simpl; auto|]. apply mem_false; auto.
Qed.

(** below every simplex of a boundary-closed set all faces are stored; [P]
    restricts the faces considered *)
Lemma descend L vs s :
  (forall t, In t L -> good t) ->
  (forall t f, In t L -> In f (boundary t) -> subset vs (verts f) -> In (verts f) (map verts L)) ->
  In s L -> vs <> [] -> subset vs (verts s) -> has L vs.
Proof.
  intros Hg HB. remember (length (verts s)) as n eqn:En. revert s En.
  induction n as [n IH] using lt_wf_ind. intros s -> Hs Hne Hsub.
  destruct (subset_dec (verts s) vs) as [H|(v & Hv & Hnv)].
  - exists s. split; auto. intro u. split; auto.
  - assert (H2 : 2 <= s_size s).
    { destruct vs as [|u vs]; [easy|]. assert (Hu : In u (verts s)) by (apply Hsub; simpl; auto).
      assert (u <> v) by (intros ->; apply Hnv; simpl; auto).
      unfold s_size. clear - Hu Hv H. destruct (verts s) as [|a [|b l]]; simpl in *; [easy| |lia].
      destruct Hu as [->|[]], Hv as [->|[]]. easy. }
    assert (Hf : In (boundary_face s v) (boundary s)) by (apply in_boundary; eauto).
    assert (Hsf : subset vs (verts (boundary_face s v))).
    { intros u Hu. apply boundary_face_In. split; [apply Hsub; auto|]. intros ->; easy. }
    pose proof (HB s _ Hs Hf Hsf) as Hin. apply in_map_iff in Hin. destruct Hin as (t & Et & Ht).
    apply (IH (length (verts t))) with (s := t); auto.
    + rewrite Et. destruct (Hg s Hs) as [Hw _]. pose proof (boundary_size s _ Hw Hf). unfold s_size in *. lia.
    + rewrite Et; auto.
Qed.

Lemma closedB_closed K : kwf K -> (closedB (by_index K) <-> closed (by_index K)).
Proof.
  intro HK. split.
  - intros H s vs Hs Hne Hsub. eapply descend; eauto.
    + apply (kwf_good K HK).
  - intros H s f Hs Hf. pose proof (boundary_good s f (kwf_good K HK s Hs) Hf) as [Hw Hn].
    apply (has_In K (verts f) f HK Hw); [intro; tauto|].
    apply (H s (verts f)); auto. intros v Hv. eapply boundary_incl; eauto.
Qed.

(** ** createMissingFaces *)
Lemma restore_face_spec d K f : kwf K -> good f ->
  exists new, by_index (restore_face d K f) = by_index K ++ new /\
    (forall t, In t new -> t = simplex_with_data f d) /\
    In (verts f) (map verts (by_index (restore_face d K f))).
Proof.
  intros HK Hf. unfold restore_face. destruct (k_contains K f) eqn:C.
  - exists []. rewrite app_nil_r. split; auto. split; [easy|]. apply contains_In; auto.
  - destruct (push_back_new K (simplex_with_data f d)) as [-> _]; auto.
    exists [simplex_with_data f d]. simpl. split; auto. split; [intros t [<-|[]]; auto|].
    rewrite map_app. apply in_or_app. simpl. auto.
Qed.

Lemma restore_fold_spec d l K : kwf K -> (forall f, In f l -> good f) ->
  exists added, by_index (fold_left (restore_face d) l K) = by_index K ++ added /\
    (forall t, In t added -> exists f, In f l /\ t = simplex_with_data f d) /\
    (forall f, In f l -> In (verts f) (map verts (by_index (fold_left (restore_face d) l K)))).
Proof.
  revert K. induction l as [|f l IH]; intros K HK Hb; simpl.
  - exists []. rewrite app_nil_r. repeat split; auto; easy.
  - assert (Hf : good f) by (apply Hb; simpl; auto).
    assert (HK' : kwf (restore_face d K f)) by (apply restore_face_kwf; auto; apply Hf).
    destruct (restore_face_spec d K f HK Hf) as (new & E1 & N1 & N2).
    destruct (IH (restore_face d K f)) as (added & E & H1 & H2); auto.
    { intros; apply Hb; simpl; auto. }
    exists (new ++ added). split; [rewrite E, E1, app_assoc; auto|]. split.
    + intros t Ht. apply in_app_or in Ht. destruct Ht as [Ht|Ht].
      * exists f. split; [simpl; auto|auto].
      * destruct (H1 t Ht) as (g & Hg & Eg). exists g. simpl; auto.
    + intros g [<-|Hg]; auto. rewrite E, map_app. apply in_or_app. auto.
Qed.

(** all sublists of a list *)
Fixpoint sublists (l : list nat) : list (list nat) :=
  match l with
  | [] => [[]]
  | x :: t => map (cons x) (sublists t) ++ sublists t
  end.

Lemma sublists_length l : length (sublists l) = 2 ^ length l.
Proof. induction l; simpl; auto. rewrite app_length, map_length, IHl. lia. Qed.

Lemma sorted_subset_sublist l l' :
  StronglySorted gt l -> StronglySorted gt l' -> subset l' l -> In l' (sublists l).
Proof.
  intro H. revert l'. induction H as [|a l Hl IH Ha]; intros l' H' Hs; simpl.
  - destruct l'; auto. exfalso. apply (Hs n). simpl; auto.
  - rewrite Forall_forall in Ha. apply in_or_app.
    destruct H' as [|b l' Hl' Hb].
    + right. apply IH; [constructor|]. intros v [].
    + rewrite Forall_forall in Hb. destruct (Nat.eq_dec a b) as [->|Hne].
      * left. apply in_map. apply IH; auto. intros v Hv.
        destruct (Hs v (or_intror Hv)) as [->|]; auto. apply Hb in Hv. lia.
      * right. apply IH; [constructor; auto; apply Forall_forall; auto|].
        assert (Hbl : In b l) by (destruct (Hs b (or_introl eq_refl)); [easy|auto]).
        intros v [<-|Hv]; auto. destruct (Hs v (or_intror Hv)) as [<-|]; auto.
        apply Hb in Hv. apply Ha in Hbl. lia.
Qed.

Lemma face_bound_length K0 K : kwf K0 -> kwf K ->
  (forall t, In t (by_index K) -> exists s, In s (by_index K0) /\ subset (verts t) (verts s)) ->
  length (by_index K) <= face_bound K0.
Proof.
  intros HK0 HK H. rewrite <- (map_length verts).
  assert (E : face_bound K0 = length (flat_map sublists (map verts (by_index K0)))).
  { unfold face_bound. generalize (by_index K0) as L. induction L as [|a L IHL]; auto.
    cbn [fold_right map flat_map]. rewrite app_length, sublists_length, IHL. auto. }
  rewrite E. apply NoDup_incl_length; [apply kwf_nodup; auto|].
  intros vs Hvs. apply in_map_iff in Hvs. destruct Hvs as (t & <- & Ht).
  destruct (H t Ht) as (s & Hs & Hsub). apply in_flat_map. exists (verts s). split; [apply in_map; auto|].
  apply sorted_subset_sublist; auto; [apply (kwf_good K0 HK0 s Hs)|apply (kwf_good K HK t Ht)].
Qed.

Definition missing_inv (K0 : complex) (i : nat) (K : complex) : Prop :=
  kwf K /\ i <= length (by_index K) /\
  (exists added, by_index K = by_index K0 ++ added /\
     forall t, In t added -> exists s, In s (by_index K0) /\ proper_face t s /\ data t = data s) /\
  (forall k s f, k < i -> nth_error (by_index K) k = Some s -> In f (boundary s) ->
     In (verts f) (map verts (by_index K))).

Lemma boundary_proper s f : wf s -> In f (boundary s) -> proper_face f s.
Proof.
  intros Hw H. split.
  - intros v Hv. eapply boundary_incl; eauto.
  - apply in_boundary in H. destruct H as (_ & v & Hv & ->). intro Hs.
    apply Hs in Hv. apply boundary_face_In in Hv. tauto.
Qed.

Lemma missing_step K0 i K s :
  missing_inv K0 i K -> nth_error (by_index K) i = Some s ->
  missing_inv K0 (S i) (checkAndRestoreValidity K s).
Proof.
  intros (HK & Hi & (added & Ea & Ha) & Hb) Hs.
  assert (Hin : In s (by_index K)) by (eapply nth_error_In; eauto).
  assert (Hg : good s) by (apply (kwf_good K HK); auto).
  destruct (restore_fold_spec (data s) (boundary s) K HK) as (new & En & N1 & N2).
  { intros; eapply boundary_good; eauto. }
  fold (checkAndRestoreValidity K s) in En, N2.
  assert (Hanc : exists s0, In s0 (by_index K0) /\ subset (verts s) (verts s0) /\ data s = data s0).
  { rewrite Ea in Hin. apply in_app_or in Hin. destruct Hin as [Hin|Hin].
    - exists s. repeat split; auto. intro; auto.
    - destruct (Ha s Hin) as (s0 & H1 & [H2 _] & H3). eauto. }
  refine (conj _ (conj _ (conj _ _))).
  - apply restore_kwf; auto. apply Hg.
  - rewrite En, app_length. apply nth_error_lt in Hs. lia.
  - exists (added ++ new). split; [rewrite En, Ea, app_assoc; auto|].
    intros t Ht. apply in_app_or in Ht. destruct Ht as [Ht|Ht]; auto.
    destruct (N1 t Ht) as (f & Hf & ->). destruct Hanc as (s0 & H1 & H2 & H3).
    exists s0. split; auto. split; [|simpl; auto].
    destruct (boundary_proper s f (proj1 Hg) Hf) as [P1 P2]. split.
    + intros v Hv. apply H2, P1. exact Hv.
    + intro C. apply P2. intros v Hv. apply C, H2; auto.
  - intros k s' f Hk Hs' Hf. rewrite En in Hs'.
    assert (Hlt : i < length (by_index K)) by (eapply nth_error_lt; eauto).
    rewrite nth_error_app1 in Hs' by lia.
    destruct (Nat.eq_dec k i) as [->|].
    + rewrite Hs in Hs'. injection Hs' as <-. auto.
    + rewrite En, map_app. apply in_or_app. left. apply (Hb k s'); auto. lia.
Qed.

Lemma missing_loop_ok K0 fuel i K :
  kwf K0 -> missing_inv K0 i K -> face_bound K0 <= fuel + i ->
  exists K', missing_faces_loop fuel i K = Ok K' /\ missing_inv K0 (length (by_index K')) K'.
Proof.
  intro HK0. revert i K. induction fuel as [|f IH]; intros i K HI Hf; simpl;
    destruct (nth_error (by_index K) i) as [s|] eqn:E.
  - exfalso. destruct HI as (HK & Hi & (added & Ea & Ha) & Hb).
    apply nth_error_lt in E.
    assert (length (by_index K) <= face_bound K0); [|lia].
    apply face_bound_length; auto. intros t Ht. rewrite Ea in Ht. apply in_app_or in Ht.
    destruct Ht as [Ht|Ht]; [exists t; split; auto; intro; auto|].
    destruct (Ha t Ht) as (s0 & H1 & [H2 _] & _). eauto.
  - exists K. split; auto. destruct HI as (HK & Hi & Ha & Hb).
    apply nth_error_None in E. assert (i = length (by_index K)) as <- by lia.
    refine (conj HK (conj Hi (conj Ha Hb))).
  - apply IH; [|lia]. apply missing_step; auto.
  - exists K. split; auto. destruct HI as (HK & Hi & Ha & Hb).
    apply nth_error_None in E. assert (i = length (by_index K)) as <- by lia.
    refine (conj HK (conj Hi (conj Ha Hb))).
Qed.

Theorem missing_faces_correct K : kwf K ->
  exists K' added, createMissingFaces K = Ok K' /\ kwf K' /\
    by_index K' = by_index K ++ added /\
    (forall t, In t added -> exists s, In s (by_index K) /\ proper_face t s /\ data t = data s) /\
    closed (by_index K') /\
    (forall vs, has (by_index K') vs <-> vs <> [] /\ exists s, In s (by_index K) /\ subset vs (verts s)).
Proof.
  intro HK. destruct (missing_loop_ok K (face_bound K) 0 K HK) as (K' & E & HI); [|lia|].
  - refine (conj HK (conj (Nat.le_0_l _) (conj _ _))).
    + exists []. rewrite app_nil_r. split; auto. easy.
    + lia.
  - destruct HI as (HK' & _ & (added & Ea & Ha) & Hb).
    assert (HC : closed (by_index K')).
    { apply closedB_closed; auto. intros s f Hs Hf. destruct (In_nth_error _ _ Hs) as [k Hk].
      apply (Hb k s f); auto. eapply nth_error_lt; eauto. }
    exists K', added. refine (conj E (conj HK' (conj Ea (conj Ha (conj HC _))))).
    intro vs. split.
    + intros (t & Ht & Et). split.
      * intros ->. destruct (kwf_good K' HK' t Ht) as [_ Hn]. destruct (verts t) as [|v l]; [easy|].
        apply (Et v). simpl; auto.
      * rewrite Ea in Ht. apply in_app_or in Ht. destruct Ht as [Ht|Ht].
        -- exists t. split; auto. intros v Hv. apply Et; auto.
        -- destruct (Ha t Ht) as (s & Hs & [Hsub _] & _). exists s. split; auto.
           intros v Hv. apply Hsub, Et; auto.
    + intros (Hne & s & Hs & Hsub). apply (HC s vs); auto. rewrite Ea. apply in_or_app; auto.
Qed.

(** ** removal *)
Definition keeps (K : complex) (g : simplex -> bool) : complex :=
  Complex (filter g (by_index K)) (filter g (by_dim K)).

Lemma filter_filter {A} (f g : A -> bool) l : filter f (filter g l) = filter (fun x => g x && f x) l.
Proof. induction l as [|a l IH]; simpl; auto. destruct (g a); simpl; [destruct (f a)|]; rewrite IH; auto. Qed.

Lemma keeps_remove K g s :
  k_remove_without_validation (keeps K g) s = keeps K (fun t => g t && negb (s_eqb t s)).
Proof. unfold k_remove_without_validation, keeps. simpl. rewrite !filter_filter. auto. Qed.

Lemma checkValidity_true K s :
  checkValidity K s = true <-> forall f, In f (boundary s) -> In (verts f) (map verts (by_index K)).
Proof.
  unfold checkValidity. rewrite forallb_forall. split; intros H f Hf.
  - apply contains_In; auto.
  - apply contains_In; auto.
Qed.

Lemma checkValidity_false K s : checkValidity K s = false ->
  exists f, In f (boundary s) /\ ~ In (verts f) (map verts (by_index K)).
Proof.
  unfold checkValidity. induction (boundary s) as [|f l IH]; simpl; [discriminate|].
  destruct (k_contains K f) eqn:E; simpl.
  - intro H. destruct (IH H) as (g & H1 & H2). eauto.
  - intros _. exists f. split; auto. apply contains_false; auto.
Qed.

(** one sweep: simplices that are kept are unaffected by [P] *)
Lemma sweep_spec K0 (P : simplex -> Prop) l g b :
  kwf K0 ->
  (forall s, In s l -> In s (by_index K0)) ->
  (* a stored simplex with a missing face satisfies P, whatever was removed *)
  (forall g s, (forall t, In t (by_index K0) -> g t = false -> P t) -> In s (by_index K0) ->
     checkValidity (keeps K0 g) s = false -> P s) ->
  (forall t, In t (by_index K0) -> g t = false -> P t) ->
  exists g' b', fold_left sweep_step l (keeps K0 g, b) = (keeps K0 g', b') /\
    (forall t, In t (by_index K0) -> g' t = false -> P t) /\
    (forall t, g' t = true -> g t = true) /\
    (b' = false -> b = false /\ (forall t, g' t = g t) /\
                   forall s, In s l -> checkValidity (keeps K0 g) s = true) /\
    (b' = true -> b = true \/ length (by_index (keeps K0 g')) < length (by_index (keeps K0 g)) \/
                  exists s, In s l /\ g s = false).
Proof.
  intros HK. revert g b. induction l as [|s l IH]; intros g b Hl HP Hg; simpl.
  - exists g, b. repeat split; auto; easy.
  - unfold sweep_step at 2. simpl. destruct (checkValidity (keeps K0 g) s) eqn:C.
    + destruct (IH g b) as (g' & b' & E & H1 & H2 & H3 & H4); auto.
      { intros; apply Hl; simpl; auto. }
      exists g', b'. rewrite E. repeat split; auto.
      * apply H3; auto. * apply H3; auto.
      * intros s' [<-|Hs']; auto. apply H3; auto.
      * intro Hb. destruct (H4 Hb) as [|[|(s' & Hs' & H')]]; auto. right. right. exists s'. simpl; auto.
    + rewrite keeps_remove.
      destruct (IH (fun t => g t && negb (s_eqb t s)) true) as (g' & b' & E & H1 & H2 & H3 & H4); auto.
      { intros; apply Hl; simpl; auto. }
      { intros t Ht. rewrite andb_false_iff, negb_false_iff. intros [H|H]; auto.
        apply s_eqb_eq in H. assert (t = s).
        { apply (nodup_verts_eq K0); auto. apply Hl; simpl; auto. }
        subst. apply (HP g); auto. }
      exists g', b'. rewrite E. split; auto. split; auto. split; [|split].
      * intros t Ht. apply H2 in Ht. apply andb_true_iff in Ht. tauto.
      * intro Hb. destruct (H3 Hb) as (H & _). discriminate.
      * intros _. destruct (g s) eqn:G; [|right; right; exists s; simpl; auto].
        right. left. unfold keeps. simpl.
        assert (Hs : In s (by_index K0)) by (apply Hl; simpl; auto).
        clear - H2 G Hs. revert Hs. induction (by_index K0) as [|a m IHm]; [easy|].
        assert (Hle : forall m, length (filter g' m) <= length (filter g m)).
        { clear - H2. induction m as [|a m IH]; simpl; auto. specialize (H2 a).
          destruct (g' a); simpl.
          - apply andb_true_iff in H2; auto. destruct H2 as [-> _]. simpl. lia.
          - destruct (g a); simpl; lia. }
        intros [->|Hs]; simpl.
        -- rewrite G. assert (g' s = false).
           { destruct (g' s) eqn:G'; auto. apply H2 in G'. rewrite G, s_eqb_refl in G'. discriminate. }
           rewrite H. simpl. specialize (Hle m). lia.
        -- specialize (IHm Hs). specialize (H2 a). destruct (g' a); simpl.
           ++ apply andb_true_iff in H2; auto. destruct H2 as [-> _]. simpl. lia.
           ++ destruct (g a); simpl; lia.
Qed.

Lemma sweep_loop_spec K0 (P : simplex -> Prop) fuel g :
  kwf K0 ->
  (forall g s, (forall t, In t (by_index K0) -> g t = false -> P t) -> In s (by_index K0) ->
     checkValidity (keeps K0 g) s = false -> P s) ->
  (forall t, In t (by_index K0) -> g t = false -> P t) ->
  length (by_index (keeps K0 g)) < fuel ->
  exists g', sweep_loop fuel (keeps K0 g) = Ok (keeps K0 g') /\
    (forall t, In t (by_index K0) -> g' t = false -> P t) /\
    (forall t, g' t = true -> g t = true) /\
    (forall s, In s (by_index (keeps K0 g')) -> checkValidity (keeps K0 g') s = true).
Proof.
  intros HK HP. revert g. induction fuel as [|f IH]; intros g Hg Hlt; [lia|].
  simpl. unfold sweep.
  destruct (sweep_spec K0 P (by_index (keeps K0 g)) g false HK) as (g' & b' & E & H1 & H2 & H3 & H4); auto.
  { simpl. intros s Hs. apply filter_In in Hs. tauto. }
  rewrite E. destruct b'.
  - destruct (IH g') as (g2 & E2 & A1 & A2 & A3); auto.
    { destruct (H4 eq_refl) as [|[|(s & Hs & Gs)]]; [discriminate|lia|].
      simpl in Hs. apply filter_In in Hs. destruct Hs. congruence. }
    exists g2. refine (conj E2 (conj A1 (conj (fun t H => H2 t (A2 t H)) A3))).
  - destruct (H3 eq_refl) as (_ & Eg & Hv). exists g'. split; auto. split; auto. split; auto.
    intros s Hs.
    assert (Ek : keeps K0 g' = keeps K0 g).
    { unfold keeps. rewrite (filter_ext _ _ Eg (by_index K0)), (filter_ext _ _ Eg (by_dim K0)). auto. }
    rewrite Ek. apply Hv. simpl. rewrite <- (filter_ext _ _ Eg). exact Hs.
Qed.

Definition supersetb (t : simplex) (vs : list nat) : bool := forallb (fun v => mem v (verts t)) vs.

Lemma supersetb_spec t vs : supersetb t vs = true <-> subset vs (verts t).
Proof.
  unfold supersetb. rewrite forallb_forall. split; intros H v Hv.
  - apply mem_In; auto.
  - apply mem_In; auto.
Qed.

Theorem remove_correct K s : kwf K -> closed (by_index K) -> wf s ->
  exists K', k_remove K s = Ok K' /\ kwf K' /\
    by_index K' = (if k_contains K s then filter (fun t => negb (supersetb t (verts s))) (by_index K)
                   else by_index K) /\
    closed (by_index K').
Proof.
  intros HK HC Hs.
  assert (HB : closedB (by_index K)) by (apply closedB_closed; auto).
  set (P := fun t => k_contains K s = true /\ subset (verts s) (verts t)).
  set (g0 := fun t => negb (s_eqb t s)).
  assert (E0 : k_remove_without_validation K s = keeps K g0) by reflexivity.
  unfold k_remove. rewrite E0.
  destruct (sweep_loop_spec K P (S (k_size (keeps K g0))) g0 HK) as (g & E & A1 & A2 & A3).
  - (* missing faces only above s *)
    intros g t Hg Ht Hv. apply checkValidity_false in Hv. destruct Hv as (f & Hf & Hn).
    pose proof (HB t f Ht Hf) as Hin. apply in_map_iff in Hin. destruct Hin as (u & Eu & Hu).
    destruct (g u) eqn:G.
    + exfalso. apply Hn. rewrite <- Eu. apply in_map. apply filter_In. auto.
    + destruct (Hg u Hu G) as [P1 P2]. split; auto.
      intros v Hv. eapply boundary_incl; eauto. rewrite <- Eu. auto.
  - intros t Ht G. unfold g0 in G. apply negb_false_iff, s_eqb_eq in G. split.
    + apply contains_In. rewrite <- G. apply in_map; auto.
    + rewrite G. intro; auto.
  - unfold k_size. simpl. lia.
  - rewrite E. exists (keeps K g). assert (HKg : kwf (keeps K g)) by (apply filter_kwf; auto).
    assert (HBg : closedB (by_index (keeps K g))).
    { intros t f Ht Hf. apply A3 in Ht. apply checkValidity_true with (s := t); auto. }
    split; auto. split; auto. split; [|apply closedB_closed; auto].
    unfold keeps. simpl. destruct (k_contains K s) eqn:C.
    + apply filter_ext_in. intros t Ht. destruct (g t) eqn:G.
      * symmetry. apply negb_true_iff. destruct (supersetb t (verts s)) eqn:Sp; auto. exfalso.
        apply supersetb_spec in Sp.
        assert (Hh : has (by_index (keeps K g)) (verts s)).
        { apply (proj1 (closedB_closed _ HKg) HBg t); auto.
          - apply filter_In. auto.
          - apply contains_In, in_map_iff in C. destruct C as (u & <- & Hu). apply (kwf_good K HK u Hu). }
        apply (has_In (keeps K g) (verts s) s HKg Hs) in Hh; [|intro; tauto].
        apply in_map_iff in Hh. destruct Hh as (u & Eu & Hu). simpl in Hu. apply filter_In in Hu.
        destruct Hu as [_ Gu]. apply A2 in Gu. unfold g0 in Gu. apply negb_true_iff, s_eqb_neq in Gu. easy.
      * symmetry. apply negb_false_iff. apply supersetb_spec. apply (A1 t Ht G).
    + rewrite filter_all; auto. intros t Ht. destruct (g t) eqn:G; auto.
      destruct (A1 t Ht G) as [X _]. congruence.
Qed.
