(** * Recalculation of weights. *)

From Coq Require Import List Arith Lia Bool Permutation Sorted ZArith.
From Verif Require Import Base BaseFacts Simplex SimplexFacts Matrix SpecComplex Complex ComplexFacts ClosureFacts.
Import ListNotations.

Lemma in_dim K s : kwf K -> (In s (by_dim K) <-> In s (by_index K)).
Proof.
  intro HK. pose proof (kwf_perm K HK) as P.
  split; apply Permutation_in; [apply Permutation_sym|]; auto.
Qed.

Lemma dim_nodup K : kwf K -> NoDup (map verts (by_dim K)).
Proof.
  intro HK. eapply Permutation_NoDup; [apply Permutation_map, (kwf_perm K HK)|apply (kwf_nodup K HK)].
Qed.

(** the complex with the data given by a function of the vertices *)
Definition redata1 (g : list nat -> Z) (s : simplex) : simplex := set_data s (g (verts s)).
Definition redata (g : list nat -> Z) (K : complex) : complex :=
  Complex (map (redata1 g) (by_index K)) (map (redata1 g) (by_dim K)).

Definition stored_data (K : complex) (vs : list nat) : Z :=
  match find (fun t => list_eqb vs (verts t)) (by_index K) with Some t => data t | None => 0%Z end.

Lemma stored_data_spec K s : kwf K -> In s (by_index K) -> stored_data K (verts s) = data s.
Proof.
  intros HK Hs. unfold stored_data. change (fun t => list_eqb (verts s) (verts t)) with (s_eqb s).
  destruct (find (s_eqb s) (by_index K)) as [t|] eqn:E.
  - apply find_some in E. destruct E as [Ht Hv]. apply s_eqb_eq in Hv.
    rewrite (nodup_verts_eq K s t); auto.
  - exfalso. apply (find_none _ _ E s) in Hs. rewrite s_eqb_refl in Hs. discriminate.
Qed.

Lemma set_data_id s : set_data s (data s) = s.
Proof. destruct s; auto. Qed.

Lemma redata_id K : kwf K -> redata (stored_data K) K = K.
Proof.
  intro HK. destruct K as [L D]. unfold redata. f_equal.
  - erewrite map_ext_in; [apply map_id|]. intros s Hs. unfold redata1.
    rewrite stored_data_spec by auto. apply set_data_id.
  - erewrite map_ext_in; [apply map_id|]. intros s Hs. unfold redata1.
    rewrite stored_data_spec; auto; [apply set_data_id|]. apply in_dim; auto.
Qed.

Lemma redata_verts g l : map verts (map (redata1 g) l) = map verts l.
Proof. rewrite map_map. apply map_ext. auto. Qed.

Lemma redata_sdim g s : sdim (redata1 g s) = sdim s.
Proof. auto. Qed.

Lemma redata_good g s : good s -> good (redata1 g s).
Proof. apply set_data_good. Qed.

Lemma redata_kwf g K : kwf K -> kwf (redata g K).
Proof.
  intros [H1 H2 H3 H4]. split; simpl.
  - intros s Hs. apply in_map_iff in Hs. destruct Hs as (t & <- & Ht). apply redata_good; auto.
  - rewrite redata_verts; auto.
  - apply Permutation_map; auto.
  - apply (map_StronglySorted _ dim_le); auto.
Qed.

Lemma redata_ext g h K : kwf K ->
  (forall s, In s (by_index K) -> g (verts s) = h (verts s)) -> redata g K = redata h K.
Proof.
  intros HK H. unfold redata. f_equal; apply map_ext_in; intros s Hs; unfold redata1; rewrite H; auto.
  apply in_dim; auto.
Qed.

Definition updg (g : list nat -> Z) (vs : list nat) (w : Z) : list nat -> Z :=
  fun us => if list_eqb us vs then w else g us.

Lemma updg_eq g vs w : updg g vs w vs = w.
Proof. unfold updg. destruct (list_eqb vs vs) eqn:E; auto. assert (list_eqb vs vs = true) by (apply list_eqb_eq; auto). congruence. Qed.

Lemma updg_neq g vs w us : us <> vs -> updg g vs w us = g us.
Proof. intro H. unfold updg. destruct (list_eqb us vs) eqn:E; auto. apply list_eqb_eq in E. easy. Qed.

Lemma contains_redata g K s : k_contains (redata g K) s = k_contains K s.
Proof. apply eq_true_iff_eq. rewrite !contains_In. simpl. rewrite redata_verts. tauto. Qed.

Lemma find_redata g K s : k_find (redata g K) s = k_find K s.
Proof.
  unfold k_find. simpl. induction (by_index K) as [|t l IH]; simpl; auto.
  change (s_eqb s (redata1 g t)) with (s_eqb s t). destruct (s_eqb s t); auto. rewrite IH; auto.
Qed.

Lemma upd_map_redata g l i old s w :
  NoDup (map verts l) -> nth_error l i = Some old -> verts old = verts s ->
  upd (map (redata1 g) l) i (set_data s w) = map (redata1 (updg g (verts s) w)) l.
Proof.
  revert i. induction l as [|t l IH]; intros i Hn Hi Hv; [destruct i; discriminate|].
  simpl in Hn. inversion Hn as [|x y Hni Hn']; subst. destruct i; simpl in *.
  - injection Hi as ->. f_equal.
    + unfold redata1. rewrite Hv, updg_eq. unfold set_data. rewrite Hv; auto.
    + apply map_ext_in. intros u Hu. unfold redata1. rewrite updg_neq; auto.
      intro E. apply Hni. rewrite Hv, <- E. apply in_map; auto.
  - f_equal.
    + unfold redata1. rewrite updg_neq; auto. intro E. apply Hni. rewrite E, <- Hv.
      apply in_map. eapply nth_error_In; eauto.
    + apply IH; auto.
Qed.

Lemma dim_replace_redata g l old s w :
  StronglySorted dim_le l -> NoDup (map verts l) -> In (verts s) (map verts l) -> verts old = verts s ->
  dim_replace old (set_data s w) (map (redata1 g) l) = map (redata1 (updg g (verts s) w)) l.
Proof.
  intros Hso Hn Hin Hv. unfold dim_replace.
  assert (Hsp : exists pre post t, l = pre ++ t :: post /\ verts t = verts s /\
     split_at old (map (redata1 g) l) = (map (redata1 g) pre, map (redata1 g) post)).
  { clear Hso Hn. induction l as [|a l IH]; [easy|]. simpl.
    change (s_eqb old (redata1 g a)) with (s_eqb old a). destruct (s_eqb old a) eqn:E.
    - apply s_eqb_eq in E. exists [], l, a. simpl. split; auto. split; auto. congruence.
    - apply s_eqb_neq in E. destruct Hin as [Hin|Hin]; [congruence|].
      destruct (IH Hin) as (pre & post & t & -> & Ht & Es). exists (a :: pre), post, t.
      rewrite Es. auto. }
  destruct Hsp as (pre & post & t & -> & Ht & ->).
  assert (Hd : sdim (set_data s w) = sdim t) by (unfold sdim; simpl; rewrite Ht; auto).
  assert (C1 : match last_opt (map (redata1 g) pre) with
               | Some y => sdim y <=? sdim (set_data s w) | None => true end = true).
  { destruct (last_opt (map (redata1 g) pre)) as [y|] eqn:E; auto.
    apply last_opt_In, in_map_iff in E. destruct E as (u & <- & Hu).
    apply Nat.leb_le. rewrite Hd, redata_sdim.
    apply StronglySorted_app in Hso. destruct Hso as (_ & _ & Hso).
    apply (Hso u t); simpl; auto. }
  assert (C2 : match map (redata1 g) post with
               | z :: _ => sdim (set_data s w) <=? sdim z | [] => true end = true).
  { destruct post as [|z post]; auto. simpl. apply Nat.leb_le.
    change (sdim (set_data s w) <= sdim z). rewrite Hd.
    apply StronglySorted_app in Hso. destruct Hso as (_ & Hso & _).
    inversion Hso as [|x y Hs' Hf]; subst. rewrite Forall_forall in Hf. apply Hf. simpl; auto. }
  rewrite C1, C2. simpl. rewrite map_app. simpl.
  rewrite map_app in Hn. simpl in Hn. apply NoDup_remove_2 in Hn. rewrite <- map_app in Hn.
  assert (Hother : forall u, In u (pre ++ post) -> redata1 g u = redata1 (updg g (verts s) w) u).
  { intros u Hu. unfold redata1. rewrite updg_neq; auto. intro E. apply Hn. rewrite Ht, <- E. apply in_map; auto. }
  f_equal; [apply map_ext_in; intros; apply Hother; apply in_or_app; auto|]. f_equal.
  - unfold redata1, set_data. rewrite Ht, updg_eq. auto.
  - apply map_ext_in; intros; apply Hother; apply in_or_app; auto.
Qed.

Lemma replace_at_redata g K s w : kwf K -> In (verts s) (map verts (by_index K)) ->
  k_replace_at (redata g K) s (set_data s w) = redata (updg g (verts s) w) K.
Proof.
  intros HK Hin. unfold k_replace_at. rewrite find_redata.
  assert (Hc : k_contains K s = true) by (apply contains_In; auto).
  destruct (k_find K s) as [i|] eqn:E; [|apply find_pos_none in E; congruence].
  apply find_pos_spec in E; auto. destruct E as (t & Et & Hv).
  unfold k_replace. simpl. rewrite nth_error_map, Et. simpl.
  assert (Heq : s_eqb (redata1 g t) (set_data s w) = true) by (apply s_eqb_eq; simpl; auto).
  rewrite Heq. simpl.
  assert (Hg : good t) by (apply (kwf_good K HK); eapply nth_error_In; eauto).
  assert (Hgs : good (set_data s w)) by (destruct Hg as [G1 G2]; split; unfold wf in *; simpl; rewrite <- Hv; auto).
  rewrite (good_dimension _ Hgs). simpl. unfold redata. f_equal.
  - eapply upd_map_redata; eauto. apply kwf_nodup; auto.
  - apply dim_replace_redata; auto.
    + apply kwf_sorted; auto.
    + apply dim_nodup; auto.
    + apply (Permutation_in (l := map verts (by_index K))); auto. apply Permutation_map, kwf_perm; auto.
Qed.

Lemma lookup_redata g K f : kwf K ->
  k_lookup (redata g K) f = if k_contains K f then Some (redata1 g (simplex_with_data f 0)) else None.
Proof.
  intro HK. destruct (k_lookup (redata g K) f) as [t|] eqn:E.
  - apply lookup_some in E; [|apply redata_kwf; auto]. destruct E as [Hin Hv]. simpl in Hin.
    apply in_map_iff in Hin. destruct Hin as (u & <- & Hu).
    assert (C : k_contains K f = true) by (apply contains_In; rewrite <- Hv; apply (in_map verts _ _ Hu)).
    rewrite C. f_equal. unfold redata1, set_data in *. simpl in *. rewrite Hv. auto.
  - apply lookup_none in E. rewrite contains_redata in E. rewrite E. auto.
Qed.

(** ** the loop over the dimension index *)
Section Recalculate.
  Variables (lowest highest : Z) (um sk : bool) (K : complex).
  Hypothesis HK : kwf K.

  Definition opz (a b : Z) : Z := if um then Z.max a b else Z.min a b.
  Definition lez (a b : Z) : Prop := if um then (a <= b)%Z else (b <= a)%Z.
  Definition startz : Z := if um then lowest else highest.
  Definition skipped (s : simplex) : bool := (sdim s =? 0) || (sk && (sdim s =? 1)).
  Definition fw (g : list nat -> Z) (s : simplex) : Z :=
    fold_left (fun w f => if k_contains K f then opz w (g (verts f)) else w) (boundary s) startz.
  Definition gstep (g : list nat -> Z) (s : simplex) : list nat -> Z :=
    if skipped s then g else updg g (verts s) (fw g s).

  Lemma face_weight_redata g s : face_weight lowest highest um (redata g K) s = fw g s.
  Proof.
    unfold face_weight, fw, startz. generalize (if um then lowest else highest) as w.
    induction (boundary s) as [|f l IH]; intro w; simpl; auto.
    rewrite lookup_redata by auto. destruct (k_contains K f); auto.
  Qed.

  Lemma fold_redata l g : (forall s, In s l -> In (verts s) (map verts (by_index K))) ->
    fold_left (recalculate_step lowest highest um sk) l (redata g K) = redata (fold_left gstep l g) K.
  Proof.
    revert g. induction l as [|s l IH]; intros g Hl; simpl; auto.
    unfold recalculate_step at 2, gstep at 2. fold (skipped s).
    destruct (skipped s).
    - apply IH. intros; apply Hl; simpl; auto.
    - rewrite face_weight_redata, replace_at_redata; auto; [|apply Hl; simpl; auto].
      apply IH. intros; apply Hl; simpl; auto.
  Qed.

  Lemma fw_ext g h s : (forall f, In f (boundary s) -> g (verts f) = h (verts f)) -> fw g s = fw h s.
  Proof.
    unfold fw. generalize startz as w. induction (boundary s) as [|f l IH]; intros w H; simpl; auto.
    rewrite (H f) by (simpl; auto). apply IH. intros; apply H; simpl; auto.
  Qed.

  (** the resulting function solves the recursion *)
  Lemma gfold_spec pre l g :
    StronglySorted dim_le (pre ++ l) -> NoDup (map verts (pre ++ l)) ->
    (forall s, In s (pre ++ l) -> wf s) ->
    (forall s, In s pre -> skipped s = false -> g (verts s) = fw g s) ->
    let g' := fold_left gstep l g in
    (forall s, In s (pre ++ l) -> skipped s = false -> g' (verts s) = fw g' s) /\
    (forall vs, (forall s, In s l -> verts s = vs -> skipped s = true) -> g' vs = g vs).
  Proof.
    revert pre g. induction l as [|s l IH]; intros pre g Hso Hnd Hwf Hpre; simpl.
    - rewrite app_nil_r in *. split; auto.
    - assert (Ea : pre ++ s :: l = (pre ++ [s]) ++ l) by (rewrite <- app_assoc; auto).
      assert (Hs0 : wf s) by (apply Hwf; apply in_or_app; simpl; auto).
      rewrite Ea in Hso, Hnd, Hwf.
      destruct (IH (pre ++ [s]) (gstep g s) Hso Hnd Hwf) as [A1 A2].
      + intros t Ht Hsk. unfold gstep. destruct (skipped s) eqn:Ss.
        * apply in_app_or in Ht. destruct Ht as [Ht|[->|[]]]; auto. congruence.
        * assert (Hnf : forall f, In f (boundary t) -> verts f <> verts s).
          { intros f Hf E. assert (Hwt : wf t) by (apply Hwf; apply in_or_app; auto).
            pose proof (boundary_sdim t f Hwt Hf) as Hd.
            assert (sdim f = sdim s) by (unfold sdim; rewrite E; auto).
            apply in_app_or in Ht. destruct Ht as [Ht|[->|[]]]; [|lia].
            apply StronglySorted_app in Hso. destruct Hso as (Hso & _ & _).
            apply StronglySorted_app in Hso. destruct Hso as (_ & _ & Hso).
            assert (dim_le t s) by (apply Hso; simpl; auto). unfold dim_le in *. lia. }
          assert (Efw : fw (updg g (verts s) (fw g s)) t = fw g t).
          { apply fw_ext. intros f Hf. apply updg_neq. auto. }
          rewrite Efw. apply in_app_or in Ht. destruct Ht as [Ht|[->|[]]].
          -- rewrite updg_neq; auto. intro E.
             rewrite map_app, map_app in Hnd. simpl in Hnd.
             rewrite <- app_assoc in Hnd. simpl in Hnd. apply NoDup_remove_2 in Hnd. apply Hnd.
             apply in_or_app. left. rewrite <- E. apply in_map; auto.
          -- rewrite updg_eq. auto.
      + rewrite Ea. split; auto. intros vs Hvs. rewrite A2.
        * unfold gstep. destruct (skipped s) eqn:Ss; auto. rewrite updg_neq; auto.
          intros ->. rewrite (Hvs s) in Ss; [discriminate|simpl; auto|auto].
        * intros t Ht. apply Hvs. simpl; auto.
  Qed.

  Lemma recalculate_redata : exists g,
    recalculateWeights lowest highest um sk K = redata g K /\
    (forall s, In s (by_index K) -> skipped s = true -> g (verts s) = data s) /\
    (forall s, In s (by_index K) -> skipped s = false -> g (verts s) = fw g s).
  Proof.
    assert (Hp : forall s, In s (by_dim K) <-> In s (by_index K)).
    { intro s. apply in_dim; auto. }
    assert (Hnd : NoDup (map verts (by_dim K))) by (apply dim_nodup; auto).
    exists (fold_left gstep (by_dim K) (stored_data K)).
    destruct (gfold_spec [] (by_dim K) (stored_data K)) as [A1 A2]; simpl; auto.
    - apply kwf_sorted; auto.
    - intros s Hs. apply (kwf_good K HK). apply Hp; auto.
    - easy.
    - split; [|split].
      + unfold recalculateWeights. rewrite <- (redata_id K HK) at 2. apply fold_redata.
        intros s Hs. apply in_map. apply Hp; auto.
      + intros s Hs Hsk. rewrite A2; [apply stored_data_spec; auto|].
        intros t Ht E. apply Hp in Ht. rewrite (nodup_verts_eq K t s); auto.
      + intros s Hs Hsk. apply A1; auto. apply Hp; auto.
  Qed.

  (** the fold over the faces is an extremum *)
  Lemma fold_opz (g : list nat -> Z) l w :
    (forall f, In f l -> k_contains K f = true) ->
    let m := fold_left (fun w f => if k_contains K f then opz w (g (verts f)) else w) l w in
    (m = w \/ exists f, In f l /\ g (verts f) = m) /\ lez w m /\ (forall f, In f l -> lez (g (verts f)) m).
  Proof.
    assert (Hle : forall a, lez a a) by (intro; unfold lez; destruct um; lia).
    assert (Htr : forall a b c, lez a b -> lez b c -> lez a c) by (unfold lez; destruct um; intros; lia).
    assert (Hop1 : forall a b, lez a (opz a b)) by (unfold lez, opz; destruct um; intros; lia).
    assert (Hop2 : forall a b, lez b (opz a b)) by (unfold lez, opz; destruct um; intros; lia).
    assert (Hop3 : forall a b, opz a b = a \/ opz a b = b) by (unfold opz; destruct um; intros; lia).
    revert w. induction l as [|f l IH]; intros w Hc; simpl.
    - split; [|split]; auto. easy.
    - rewrite (Hc f) by (simpl; auto).
      destruct (IH (opz w (g (verts f)))) as (A1 & A2 & A3); [intros; apply Hc; simpl; auto|].
      split; [|split].
      + destruct A1 as [A1|(f' & Hf' & A1)]; [|right; exists f'; simpl; auto].
        rewrite A1. destruct (Hop3 w (g (verts f))) as [E|E]; rewrite E; auto.
        right. exists f. simpl; auto.
      + eapply Htr; eauto.
      + intros f' [<-|Hf']; eauto.
  Qed.

  Definition is_ext (L : list simplex) (b : nat) (s : simplex) (m : Z) : Prop :=
    (exists t, In t L /\ subset (verts t) (verts s) /\ length (verts t) = S b /\ data t = m) /\
    (forall t, In t L -> subset (verts t) (verts s) -> length (verts t) = S b -> lez (data t) m).

  Definition base : nat := if sk then 1 else 0.

  (** closed complexes: the extremum over the faces of the base dimension *)
  Theorem recalculate_extremum :
    closed (by_index K) ->
    (forall s, In s (by_index K) -> sdim s = base -> lez startz (data s)) ->
    exists g, recalculateWeights lowest highest um sk K = redata g K /\
      (forall s, In s (by_index K) -> sdim s <= base -> g (verts s) = data s) /\
      (forall s, In s (by_index K) -> base <= sdim s -> is_ext (by_index K) base s (g (verts s))).
  Proof.
    intros HC Hstart. destruct recalculate_redata as (g & E & G1 & G2). exists g. split; auto.
    assert (Hskip : forall s, skipped s = (sdim s <=? base)).
    { intro s. unfold skipped, base. destruct sk; simpl.
      - destruct (sdim s) as [|[|n]]; auto.
      - rewrite orb_false_r. destruct (sdim s); auto. }
    split; [intros s Hs Hd; apply G1; auto; rewrite Hskip; apply Nat.leb_le; auto|].
    intro s. remember (sdim s) as n eqn:En. revert s En.
    induction n as [n IH] using lt_wf_ind. intros s -> Hs Hb.
    assert (Hgs : good s) by (apply (kwf_good K HK); auto).
    assert (Hlen : length (verts s) = S (sdim s)).
    { destruct Hgs as [_ Hn]. unfold sdim. destruct (verts s); [easy|simpl; lia]. }
    destruct (Nat.eq_dec (sdim s) base) as [Eb|Nb].
    - rewrite G1 by (auto; rewrite Hskip; apply Nat.leb_le; lia).
      split.
      + exists s. split; auto. split; [intro; auto|]. split; [lia|auto].
      + intros t Ht Hsub Hl. assert (Et : t = s).
        { apply (nodup_verts_eq K); auto. apply wf_ext; [apply (kwf_good K HK); auto|apply Hgs|].
          intro v. split; auto. intro Hv.
          assert (Hi : incl (verts s) (verts t)); [|apply Hi; auto].
          apply NoDup_length_incl; [|lia|exact Hsub].
          apply SSgt_NoDup. apply (kwf_good K HK); auto. }
        subst. unfold lez. destruct um; lia.
    - assert (HB : closedB (by_index K)) by (apply closedB_closed; auto).
      assert (Hc : forall f, In f (boundary s) -> k_contains K f = true).
      { intros f Hf. apply contains_In. eapply HB; eauto. }
      rewrite G2 by (auto; rewrite Hskip; apply Nat.leb_gt; lia).
      assert (Hface : forall f, In f (boundary s) -> is_ext (by_index K) base f (g (verts f))).
      { intros f Hf. pose proof (HB s f Hs Hf) as Hin. apply in_map_iff in Hin. destruct Hin as (u & Eu & Hu).
        pose proof (boundary_sdim s f (proj1 Hgs) Hf) as Hd.
        assert (Hdu : sdim u = sdim f) by (unfold sdim; rewrite Eu; auto).
        assert (X : is_ext (by_index K) base u (g (verts u))) by (apply (IH (sdim u)); auto; lia).
        unfold is_ext in *. rewrite Eu in X. exact X. }
      destruct (fold_opz g (boundary s) startz Hc) as (A1 & A2 & A3). fold (fw g s) in A1, A2, A3.
      assert (Htr : forall a b c, lez a b -> lez b c -> lez a c) by (unfold lez; destruct um; intros; lia).
      assert (Hanti : forall a b, lez a b -> lez b a -> a = b) by (unfold lez; destruct um; intros; lia).
      assert (Hup : forall t, In t (by_index K) -> subset (verts t) (verts s) -> length (verts t) = S base ->
                    lez (data t) (fw g s)).
      { intros t Ht Hsub Hl. destruct (subset_dec (verts s) (verts t)) as [Hss|(v & Hv & Hnv)].
        - exfalso. assert (length (verts s) <= length (verts t)); [|lia].
          apply NoDup_incl_length; auto. apply SSgt_NoDup. apply Hgs.
        - assert (Hf : In (boundary_face s v) (boundary s)).
          { apply in_boundary. split; [unfold s_size; lia|eauto]. }
          eapply Htr; [|apply (A3 _ Hf)]. apply Hface; auto.
          intros u Hu. apply boundary_face_In. split; auto. intros ->; easy. }
      split; auto. destruct A1 as [A1|(f & Hf & A1)].
      + (* the start value: a face of the base dimension attains it *)
        assert (Hne : exists f, In f (boundary s)).
        { destruct (boundary s) as [|f l] eqn:Eb; [|exists f; simpl; auto].
          assert (length (boundary s) = s_size s) by (apply boundary_length; unfold s_size; lia).
          rewrite Eb in H. simpl in H. unfold s_size in *. lia. }
        destruct Hne as (f & Hf). destruct (Hface f Hf) as [(t & Ht & Hsub & Hl & Hd) _].
        exists t. split; auto. assert (Hst : subset (verts t) (verts s)).
        { intros v Hv. eapply boundary_incl; eauto. }
        split; auto. split; auto. apply Hanti; auto.
        rewrite A1. apply Hstart; auto. unfold sdim. lia.
      + destruct (Hface f Hf) as [(t & Ht & Hsub & Hl & Hd) _]. exists t. split; auto.
        split; [intros v Hv; eapply boundary_incl; eauto|]. split; auto. congruence.
  Qed.
End Recalculate.

(** ** the range version *)
Lemma reset_redata highest l K g : kwf K ->
  (forall s, In s l -> In (verts s) (map verts (by_index K))) ->
  exists g', fold_left (fun K s => k_replace_at K s (set_data s highest)) l (redata g K) = redata g' K.
Proof.
  intro HK. revert g. induction l as [|s l IH]; intros g Hl; simpl; [eauto|].
  rewrite replace_at_redata; auto; [|apply Hl; simpl; auto]. apply IH. intros; apply Hl; simpl; auto.
Qed.

Lemma assign_redata weights K g l : kwf K ->
  (forall s, In s l -> In (verts s) (map verts (by_index K)) /\ good s) ->
  StronglySorted dim_le l -> NoDup (map verts l) ->
  exists g' r, assign_vertex_weights weights l (redata g K) = (redata g' K, r) /\
   ((r = Ok tt /\
     (forall s v, In s l -> verts s = [v] -> nth_error weights v = Some (g' [v])) /\
     (forall vs, (forall s, In s l -> verts s <> vs) -> g' vs = g vs)) \/
    (r = Throw OutOfRange /\
     exists s v, In s l /\ verts s = [v] /\ nth_error weights v = None)).
Proof.
  intro HK. revert g. induction l as [|s l IH]; intros g Hl Hso Hnd; simpl.
  - exists g, (Ok tt). split; auto. left. repeat split; auto; easy.
  - destruct (Hl s (or_introl eq_refl)) as [Hin Hg].
    inversion Hso as [|x y Hso' Hf]; subst. inversion Hnd as [|x y Hni Hnd']; subst.
    destruct (sdim s =? 0) eqn:E.
    + apply Nat.eqb_eq in E. destruct Hg as [_ Hn]. unfold sdim in E.
      destruct (verts s) as [|v [|u r]] eqn:Ev; [easy| |simpl in E; lia].
      unfold at_. destruct (nth_error weights v) as [w|] eqn:Ew; simpl.
      * rewrite replace_at_redata; auto; [|rewrite Ev; auto]. rewrite Ev.
        destruct (IH (updg g [v] w)) as (g' & r & E1 & D); auto.
        { intros; apply Hl; simpl; auto. }
        exists g', r. split; auto. destruct D as [(-> & E2 & E3)|(-> & t & u & H1 & H2 & H3)].
        -- left. split; auto. split.
           ++ intros t u [<-|Ht] Hu; [|eapply E2; eauto]. rewrite Ev in Hu. injection Hu as <-.
              rewrite E3, updg_eq; auto. intros t Ht Et. apply Hni. rewrite <- Et. apply in_map; auto.
           ++ intros vs Hvs. rewrite E3, updg_neq; auto. intros ->. apply (Hvs s); auto.
        -- right. split; auto. exists t, u. auto.
      * exists g, (Throw OutOfRange). split; auto. right. split; auto. exists s, v. auto.
    + exists g, (Ok tt). split; auto. left. split; auto. split; auto.
      intros t v Ht Hv. exfalso. apply Nat.eqb_neq in E. destruct Ht as [<-|Ht].
      * unfold sdim in E. rewrite Hv in E. simpl in E. lia.
      * rewrite Forall_forall in Hf. specialize (Hf t Ht). unfold dim_le in Hf. unfold sdim in Hf at 2.
        rewrite Hv in Hf. simpl in Hf. lia.
Qed.

Lemma redata_redata g h K : redata h (redata g K) = redata h K.
Proof. unfold redata. simpl. rewrite !map_map. auto. Qed.

(** closed complexes: the maximum of the vertex weights *)
Theorem range_correct lo hi w K : kwf K -> closed (by_index K) ->
  (forall v x, nth_error w v = Some x -> (lo <= x)%Z) ->
  exists g r, recalculateWeights_range lo hi w K = (redata g K, r) /\
   ((r = Ok tt /\ forall s, In s (by_index K) ->
       is_max_over (fun v => nth v w 0%Z) (verts s) (g (verts s)) /\
       forall v, In v (verts s) -> v < length w) \/
    (r = Throw OutOfRange /\ exists s v, In s (by_index K) /\ In v (verts s) /\ length w <= v)).
Proof.
  intros HK HC Hlo. unfold recalculateWeights_range.
  assert (R : exists g0, reset_weights hi K = redata g0 K).
  { destruct (reset_redata hi (by_index K) K (stored_data K) HK) as (g0 & E).
    - intros s Hs. apply in_map; auto.
    - exists g0. rewrite redata_id in E by auto. exact E. }
  destruct R as (g0 & R). rewrite R.
  assert (HR : kwf (redata g0 K)) by (apply redata_kwf; auto).
  destruct (assign_redata w K g0 (by_dim (redata g0 K)) HK) as (g1 & r & E & D).
  { intros s Hs. apply in_dim in Hs; auto. split; [|apply (kwf_good _ HR); auto].
    rewrite <- (redata_verts g0). apply in_map. exact Hs. }
  { apply kwf_sorted; auto. } { apply dim_nodup; auto. }
  rewrite E. clear R. destruct D as [(-> & D1 & D2)|(-> & s & v & H1 & H2 & H3)].
  - assert (H1 : kwf (redata g1 K)) by (apply redata_kwf; auto).
    assert (HC1 : closed (by_index (redata g1 K))).
    { intros s vs Hs Hne Hsub. simpl in Hs. apply in_map_iff in Hs. destruct Hs as (s0 & <- & Hs0).
      destruct (HC s0 vs Hs0 Hne Hsub) as (t & Ht & Et). exists (redata1 g1 t). split; auto.
      simpl. apply in_map; auto. }
    assert (Hvert : forall s v, In s (by_index K) -> verts s = [v] -> nth_error w v = Some (g1 [v])).
    { intros s v Hs Hv. apply (D1 (redata1 g0 s) v); auto. apply in_dim; auto. simpl. apply in_map; auto. }
    destruct (recalculate_extremum lo hi true false (redata g1 K) H1 HC1) as (g2 & E2 & G1 & G2).
    { intros s Hs Hd. unfold lez, startz. simpl in *. apply in_map_iff in Hs. destruct Hs as (s0 & <- & Hs0).
      destruct (kwf_good K HK s0 Hs0) as [_ Hn]. unfold sdim in Hd. simpl in Hd.
      destruct (verts s0) as [|v [|u l]] eqn:Ev; [easy| |simpl in Hd; lia].
      simpl. rewrite Ev. eapply Hlo. eapply Hvert; eauto. }
    rewrite redata_redata in E2. exists g2, (Ok tt). split; [rewrite E2; auto|]. left. split; auto.
    intros s Hs. assert (Hin : In (redata1 g1 s) (by_index (redata g1 K))) by (simpl; apply in_map; auto).
    destruct (G2 (redata1 g1 s) Hin) as [(t & Ht & Hsub & Hl & Hd) Hup]; [simpl; lia|].
    change (verts (redata1 g1 s)) with (verts s) in *.
    assert (Hvs : forall v, In v (verts s) -> exists t, In t (by_index K) /\ verts t = [v]).
    { intros v Hv. destruct (HC s [v] Hs) as (u & Hu & Eu); [easy|intros ? [<-|[]]; auto|].
      exists u. split; auto. apply (wf_ext u (simplex_vertex v 0)); auto.
      - apply (kwf_good K HK); auto.
      - repeat constructor. }
    split; [split|].
    + simpl in Ht. apply in_map_iff in Ht. destruct Ht as (t0 & <- & Ht0). simpl in Hsub, Hl, Hd.
      destruct (verts t0) as [|v [|u l]] eqn:Ev; simpl in Hl; try lia.
      exists v. split; [apply Hsub; simpl; auto|].
      rewrite <- Hd. apply nth_error_nth. apply (Hvert t0 v); auto.
    + intros v Hv. destruct (Hvs v Hv) as (u & Hu & Eu).
      rewrite (nth_error_nth w v 0%Z (Hvert u v Hu Eu)).
      specialize (Hup (redata1 g1 u)). simpl in Hup. rewrite Eu in Hup. apply Hup; auto.
      * apply in_map; auto.
      * intros ? [<-|[]]; auto.
    + intros v Hv. destruct (Hvs v Hv) as (u & Hu & Eu).
      eapply nth_error_lt. apply (Hvert u v); auto.
  - exists g1, (Throw OutOfRange). split; auto. right. split; auto.
    apply in_dim in H1; auto. simpl in H1. apply in_map_iff in H1. destruct H1 as (s0 & <- & Hs0).
    exists s0, v. split; auto. simpl in H2. rewrite H2. split; [simpl; auto|]. apply nth_error_None; auto.
Qed.
