(** * The extended persistence hierarchy.

    The specification is in [ExtendedFacts.v]: it refers to the list of vertices and edges
    of the filtration only. *)
From Coq Require Import List Arith Bool ZArith Lia Sorted Permutation Relations.
From Verif Require Import Base BaseFacts Matrix Simplex SimplexFacts SpecComplex Complex ComplexFacts History SubcomplexFacts RepFacts
  RipsFacts PropertiesRips UnionFind UnionFindFacts Components ComponentFacts FloydFacts Barycentric PropertiesComponents
  PropertiesComplex Function PropertiesFunction ExtendedHierarchy SearchFacts ExtendedFacts InterlevelFacts PathFacts HierarchyFacts.
Import ListNotations.

Lemma SS_app_last l j : StronglySorted lt l -> (forall k, In k l -> k < j) -> StronglySorted lt (l ++ [j]).
Proof.
  induction 1 as [|x l H IH HF]; intro Hl; [constructor; constructor|]. cbn [app]. constructor; [apply IH; intros; apply Hl; simpl; auto|].
  apply Forall_forall. intros y Hy. apply in_app_or in Hy. rewrite Forall_forall in HF. destruct Hy as [Hy|[<-|[]]]; [apply HF; exact Hy|apply Hl; simpl; auto].
Qed.

Section Loop.
  Variable S : complex.
  Hypothesis HR : reachable S.
  Hypothesis HC : closed (by_index S).
  Hypothesis HD : forall s, In s (by_index S) -> sdim s <= 1.
  Let L := by_index S.
  Let HK : kwf S := reachable_kwf S HR.
  Let V := k_vertices S.
  Variable tags : tag_map.
  Hypothesis HT : forall k s u v, nth_error L k = Some s -> verts s = [u; v] -> exists t, tag_at tags s = Ok t /\ tagged L k t.

  Definition reps (j : nat) (rep : nat -> nat) : Prop :=
    (forall u, In u V -> In (rep u) V /\ rep (rep u) = rep u) /\
    (forall u v, In u V -> In v V -> (rep u = rep v <-> joined_before L j u v)) /\ (forall u, In u V -> idx S (rep u) <= idx S u).
  Lemma eldest_rep j rep u : reps j rep -> In u V -> forall r, eldest L j u r <-> r = rep u.
  Proof.
    intros (R0 & R1 & R2) Hu r. destruct (R0 u Hu) as [HrV Hrr].
    assert (E : eldest L j u (rep u)).
    { refine (conj _ (conj (ex_intro _ _ (born_idx S HR (rep u) HrV)) _)); [apply R1; auto|]. intros w Hw.
      assert (HwV : In w V) by (apply (joined_V S HR HC j u w Hw); exact Hu). apply R1 in Hw; auto. destruct (Nat.eq_dec w (rep u)) as [|Hne]; [auto|]. right. apply (older_idx S HR). refine (conj HrV (conj HwV _)).
      pose proof (R2 w HwV) as X. rewrite <- Hw in X. assert (idx S (rep u) <> idx S w) by (intro E; apply Hne; symmetry; apply (idx_inj S HR); auto). lia. }
    split; [|intros ->; exact E]. intros (H1 & _ & H2). destruct E as (E1 & _ & E2). destruct (E2 r H1) as [->|O1]; [reflexivity|]. destruct (H2 (rep u) E1) as [->|O2]; [reflexivity|].
    apply (older_idx S HR) in O1. apply (older_idx S HR) in O2. lia.
  Qed.
  Lemma merges_rep j rep y o d : reps j rep -> (merges L j y o d <-> exists u v, edge L j u v d /\ y = rep u /\ o = rep v /\ idx S o < idx S y).
  Proof.
    intro R. split; intros (u & v & H1 & H2 & H3 & H4); destruct (edge_inv S HR HC j u v d H1) as (s & _ & _ & _ & _ & Hu & Hv & _); exists u, v; refine (conj H1 (conj _ (conj _ _))).
    - apply (eldest_rep j rep u R Hu). exact H2.
    - apply (eldest_rep j rep v R Hv). exact H3.
    - apply (older_idx S HR) in H4. apply H4.
    - apply (eldest_rep j rep u R Hu). exact H2.
    - apply (eldest_rep j rep v R Hv). exact H3.
    - apply (older_idx S HR). subst y o. refine (conj _ (conj _ H4)); apply R; assumption.
  Qed.

  Lemma pairs_skip j pp : (forall y o d, ~ merges L j y o d) -> elder_pairs L j pp -> elder_pairs L (Datatypes.S j) pp.
  Proof.
    intros Hn (js & H1 & H2 & H3). exists js. refine (conj H1 (conj _ H3)). intro k. rewrite H2. split; [intros [? ?]; split; [lia|assumption]|].
    intros [Hk (y & o & d & Hm)]. split; [|eauto]. destruct (Nat.eq_dec k j) as [->|]; [|lia]. exfalso. apply (Hn y o d Hm).
  Qed.
  Lemma pairs_add j pp y o d i : merges L j y o d -> born L y i -> elder_pairs L j pp -> elder_pairs L (Datatypes.S j) (pp ++ [(i, Some j)]).
  Proof.
    intros Hm Hi (js & H1 & H2 & H3). exists (js ++ [j]). refine (conj _ (conj _ _)).
    - apply SS_app_last; [exact H1|]. intros k Hk. apply H2. exact Hk.
    - intro k. rewrite in_app_iff, H2. simpl. split.
      + intros [[Hk H]|[<-|[]]]; [split; [lia|exact H]|split; [lia|eauto]].
      + intros [Hk H]. destruct (Nat.eq_dec k j) as [->|]; [auto|left; split; [lia|exact H]].
    - apply Forall2_app; [exact H3|]. constructor; [|constructor]. exists y, o, d, i. auto.
  Qed.
  Lemma edges_skip j es : (forall y o, ~ lasting L j y o) -> elder_edges L j es -> elder_edges L (Datatypes.S j) es.
  Proof.
    intros Hn (js & H1 & H2 & H3). exists js. refine (conj H1 (conj _ H3)). intro k. rewrite H2. split; [intros [? ?]; split; [lia|assumption]|].
    intros [Hk (y & o & Hm)]. split; [|eauto]. destruct (Nat.eq_dec k j) as [->|]; [|lia]. exfalso. apply (Hn y o Hm).
  Qed.
  Lemma edges_add j es y o p : lasting L j y o -> hierarchy_parent L j y o p -> elder_edges L j es -> elder_edges L (Datatypes.S j) (es ++ [(p, y)]).
  Proof.
    intros Hm Hp (js & H1 & H2 & H3). exists (js ++ [j]). refine (conj _ (conj _ _)).
    - apply SS_app_last; [exact H1|]. intros k Hk. apply H2. exact Hk.
    - intro k. rewrite in_app_iff, H2. simpl. split.
      + intros [[Hk H]|[<-|[]]]; [split; [lia|exact H]|split; [lia|eauto]].
      + intros [Hk H]. destruct (Nat.eq_dec k j) as [->|]; [auto|left; split; [lia|exact H]].
    - apply Forall2_app; [exact H3|]. constructor; [|constructor]. exists o. auto.
  Qed.
  Lemma critical_skip j r c : (forall y, ~ lasting L j y r) -> critical L j r c -> critical L (Datatypes.S j) r c.
  Proof.
    intros Hn [(k & H1 & H2 & H3)|[-> H]].
    - left. exists k. refine (conj _ (conj H2 _)); [lia|]. intros k' y K1 K2. destruct (Nat.eq_dec k' j) as [->|]; [apply Hn|apply H3; lia].
    - right. split; [reflexivity|]. intros k y Hk. destruct (Nat.eq_dec k j) as [->|]; [apply Hn|apply H; lia].
  Qed.

  Definition hinv (j : nat) (st : hstate) : Prop := exists Lu rep, inv V (h_uf st) Lu rep /\ reps j rep /\
    (forall r, In r V -> rep r = r -> critical L j r (h_crit st r)) /\ (forall r, In r V -> In (h_crit st r) V) /\
    (forall r, In r V -> rep (h_crit st r) = rep r) /\
    elder_pairs L j (h_pairing st) /\ elder_edges L j (h_edges st).

  Lemma reps_skip j rep : (forall u v d, edge L j u v d -> rep u = rep v) -> reps j rep -> reps (Datatypes.S j) rep.
  Proof.
    intros Hs (R0 & R1 & R2). refine (conj R0 (conj _ R2)). intros u v Hu Hv. rewrite (R1 u v Hu Hv). split; [apply joined_mono|].
    intro H. assert (G : forall u v, joined_before L (Datatypes.S j) u v -> joined_before L j u v); [|apply G; exact H]. clear u v Hu Hv H.
    induction 1 as [u v (k & d & Hk & H)| | |]; [|apply rst_refl|apply rst_sym; assumption|eapply rst_trans; eassumption].
    destruct (Nat.eq_dec k j) as [->|]; [|apply rst_step; exists k, d; split; [lia|exact H]]. destruct (edge_inv S HR HC j u v d H) as (_ & _ & _ & _ & _ & Hu & Hv & _). apply R1; auto. apply (Hs u v d H).
  Qed.
  Lemma hinv_skip j st uf Lu rep : inv V uf Lu rep -> reps j rep -> (forall u v d, edge L j u v d -> rep u = rep v) ->
    (forall r, In r V -> rep r = r -> critical L j r (h_crit st r)) -> (forall r, In r V -> In (h_crit st r) V) -> (forall r, In r V -> rep (h_crit st r) = rep r) ->
    elder_pairs L j (h_pairing st) -> elder_edges L j (h_edges st) -> hinv (Datatypes.S j) (HState uf (h_pairing st) (h_edges st) (h_crit st)).
  Proof.
    intros Hi R Hs H1 H2 H3 H4 H5. assert (Nm : forall y o d, ~ merges L j y o d).
    { intros y o d Hm. apply (merges_rep j rep y o d R) in Hm. destruct Hm as (u & v & He & -> & -> & Hlt). rewrite (Hs u v d He) in Hlt. lia. }
    assert (Nl : forall y o, ~ lasting L j y o) by (intros y o (d & e & Hm & _); apply (Nm y o d Hm)).
    exists Lu, rep. cbn [h_uf h_pairing h_edges h_crit]. refine (conj Hi (conj (reps_skip j rep Hs R) (conj _ (conj H2 (conj H3 (conj (pairs_skip j _ Nm H4) (edges_skip j _ Nl H5))))))).
    intros r Hr Er. apply critical_skip; [intro y; apply Nl|apply H1; assumption].
  Qed.

  Lemma reps_merge j rep u v y o d : edge L j u v d -> (rep u = y /\ rep v = o) \/ (rep u = o /\ rep v = y) -> idx S o < idx S y ->
    reps j rep -> reps (Datatypes.S j) (merged rep y o).
  Proof.
    intros He Hyo Hlt (R0 & R1 & R2). destruct (edge_inv S HR HC j u v d He) as (s & _ & _ & _ & _ & Hu & Hv & _).
    destruct (R0 u Hu) as [RuV Ruu]. destruct (R0 v Hv) as [RvV Rvv].
    assert (Y : In y V /\ rep y = y) by (destruct Hyo as [[<- <-]|[<- <-]]; auto). assert (O : In o V /\ rep o = o) by (destruct Hyo as [[<- <-]|[<- <-]]; auto). destruct Y as [HyV Ry]. destruct O as [HoV Ro].
    assert (Em : forall w, merged rep y o w = if rep w =? y then o else rep w) by (intro w; unfold merged; rewrite Ry, Ro; reflexivity).
    refine (conj _ (conj _ _)).
    - intros w Hw. rewrite !Em. destruct (R0 w Hw) as [HwV Hww]. destruct (Nat.eqb_spec (rep w) y) as [E|E].
      + split; [exact HoV|]. rewrite Ro. destruct (Nat.eqb_spec o y); congruence.
      + split; [exact HwV|]. rewrite Hww. destruct (Nat.eqb_spec (rep w) y); congruence.
    - assert (Huv : joined_before L (Datatypes.S j) u v) by (apply rst_step; exists j, d; split; [lia|exact He]).
      assert (Self : forall a, In a V -> joined_before L (Datatypes.S j) a (rep a)) by (intros a Ha; apply joined_mono; apply R1; [exact Ha|apply R0; exact Ha|symmetry; apply R0; exact Ha]).
      assert (Hruv : joined_before L (Datatypes.S j) (rep u) (rep v)) by (apply rst_trans with u; [apply rst_sym; apply Self; exact Hu|apply rst_trans with v; [exact Huv|apply Self; exact Hv]]).
      assert (Hyo3 : joined_before L (Datatypes.S j) y o) by (destruct Hyo as [[<- <-]|[<- <-]]; [exact Hruv|apply rst_sym; exact Hruv]).
      assert (Hm : forall a, In a V -> joined_before L (Datatypes.S j) a (merged rep y o a)).
      { intros a Ha. rewrite Em. destruct (Nat.eqb_spec (rep a) y) as [E|E]; [|apply Self; exact Ha]. apply rst_trans with y; [rewrite <- E; apply Self; exact Ha|exact Hyo3]. }
      intros a b Ha Hb. split.
      + intro E. apply rst_trans with (merged rep y o a); [apply Hm; exact Ha|rewrite E; apply rst_sym; apply Hm; exact Hb].
      + intro H. assert (G : forall a b, joined_before L (Datatypes.S j) a b -> (In a V <-> In b V) /\ (In a V -> merged rep y o a = merged rep y o b)).
        { clear a b Ha Hb H. induction 1 as [a b (k & d' & Hk & H)|a|a b _ [IH1 IH2]|a b c _ [IH1 IH2] _ [IH3 IH4]].
          - destruct (edge_inv S HR HC k a b d' H) as (_ & _ & _ & _ & _ & Ha & Hb & _). split; [tauto|]. intros _. destruct (Nat.eq_dec k j) as [->|].
            + assert (X : merged rep y o u = merged rep y o v) by (rewrite !Em; destruct Hyo as [[-> ->]|[-> ->]]; rewrite Nat.eqb_refl; destruct (Nat.eqb_spec o y); congruence).
              destruct (edge_unique S HR HC j a b d' u v d H He) as [_ [[-> ->]|[-> ->]]]; [exact X|symmetry; exact X].
            + rewrite !Em. assert (E : rep a = rep b) by (apply R1; auto; apply rst_step; exists k, d'; split; [lia|exact H]). rewrite E. reflexivity.
          - split; [tauto|reflexivity].
          - split; [tauto|]. intro Hx. symmetry. apply IH2. apply IH1. exact Hx.
          - split; [tauto|]. intro Hx. rewrite IH2 by exact Hx. apply IH4. apply IH1. exact Hx. }
        apply (G a b H). exact Ha.
    - intros w Hw. rewrite Em. pose proof (R2 w Hw). destruct (Nat.eqb_spec (rep w) y) as [E|E]; [rewrite E in H; lia|exact H].
  Qed.

  Lemma two_length c ts : NoDup c -> (forall t, In t c <-> In t ts) -> ((length c =? 2) = true <-> two_points ts).
  Proof.
    intros Hn Hc. rewrite Nat.eqb_eq. split.
    - intro Hl. destruct c as [|s [|t [|r c]]]; try discriminate. exists s, t. split; [inversion Hn as [|? ? X]; subst; intros ->; apply X; simpl; auto|]. intro r. rewrite <- Hc. simpl. split; [intros [<-|[<-|[]]]; auto|intros [-> | ->]; auto].
    - intros (s & t & Hst & H). assert (I1 : incl c [s; t]) by (intros x Hx; apply Hc in Hx; apply H in Hx; simpl; destruct Hx; auto).
      assert (I2 : incl [s; t] c) by (intros x [<-|[<-|[]]]; apply Hc; apply H; auto).
      assert (N2 : NoDup [s; t]) by (constructor; [intros [E|[]]; congruence|constructor; [intros []|constructor]]).
      pose proof (NoDup_incl_length Hn I1). pose proof (NoDup_incl_length N2 I2). simpl in *. lia.
  Qed.

  Lemma hierarchy_step_ok j s st : nth_error L j = Some s -> hinv j st -> exists st', hierarchy_step S tags st s = Ok st' /\ hinv (Datatypes.S j) st'.
  Proof.
    intros Hj (Lu & rep & Hi & R & C1 & C2 & C3 & P & E). assert (Hs : In s L) by (eapply nth_error_In; eauto). unfold hierarchy_step.
    destruct (Nat.eqb_spec (sdim s) 1) as [Hd|Hd]; cbn [negb].
    2:{ exists st. split; [reflexivity|]. replace st with (HState (h_uf st) (h_pairing st) (h_edges st) (h_crit st)) by (destruct st; reflexivity).
      apply (hinv_skip j st (h_uf st) Lu rep); auto. intros u v d He. exfalso. apply (edge_inv S HR HC) in He. destruct He as (t & H1 & _ & _ & H2 & _). unfold L in *. congruence. }
    destruct (edge_form S s Hd Hs) as (u & v & Es). destruct (edge_of S HR HC j s u v Hj Es) as (He & Hu & Hv & Hne). rewrite Es. unfold get_ at 1 2. cbn [nth_error bind].
    destruct (find_spec V (h_uf st) Lu rep u Hi Hu) as (uf1 & -> & Hi1). cbn [bind]. destruct (find_spec V uf1 Lu rep v Hi1 Hv) as (uf2 & -> & Hi2). cbn [bind].
    destruct (Nat.eqb_spec (rep u) (rep v)) as [Er|Er].
    { eexists. split; [reflexivity|]. apply (hinv_skip j st uf2 Lu rep); auto. intros a b d Hab. destruct (edge_unique S HR HC j a b d u v _ Hab He) as [_ [[-> ->]|[-> ->]]]; congruence. }
    pose proof R as (R0 & R1 & R2). destruct (R0 u Hu) as [RuV Ruu]. destruct (R0 v Hv) as [RvV Rvv].
    destruct (by_age_spec S HR (rep u) (rep v) RuV RvV Er) as (y & o & -> & Hyo & Hlt). cbn [bind].
    assert (Y : In y V /\ rep y = y) by (destruct Hyo as [[-> ->]|[-> ->]]; auto). assert (O : In o V /\ rep o = o) by (destruct Hyo as [[-> ->]|[-> ->]]; auto). destruct Y as [HyV Ry]. destruct O as [HoV Ro].
    assert (Hyo' : y <> o) by (intros ->; lia).
    destruct (deref_vertex S HR y HyV) as (cy & -> & Hcy & Vcy & Icy & Valy). cbn [bind]. destruct (deref_vertex S HR o HoV) as (co & -> & _ & _ & _ & _). cbn [bind].
    pose proof (C2 y HyV) as Cy. pose proof (C2 o HoV) as Co.
    destruct (deref_vertex S HR (h_crit st y) Cy) as (ky & -> & Hky & Vky & Iky & Valky). cbn [bind]. destruct (deref_vertex S HR (h_crit st o) Co) as (ko & -> & Hko & Vko & Iko & Valko). cbn [bind].
    assert (Hm : merges L j y o (data s)).
    { apply (merges_rep j rep y o (data s) R). destruct Hyo as [[-> ->]|[-> ->]]; [exists u, v; auto|exists v, u; refine (conj (edge_sym S j u v _ He) _); auto]. }
    assert (Um : forall y' o' d', merges L j y' o' d' -> y' = y /\ o' = o /\ d' = data s).
    { intros y' o' d' H. apply (merges_rep j rep y' o' d' R) in H. destruct H as (a & b & Hab & -> & -> & Hl).
      destruct (edge_unique S HR HC j a b d' u v _ Hab He) as [-> [[-> ->]|[-> ->]]]; destruct Hyo as [[-> ->]|[-> ->]]; try (exfalso; lia); auto. }
    assert (Ul : forall y' o', lasting L j y' o' -> y' = y /\ o' = o /\ data cy <> data s).
    { intros y' o' (d' & e & H1 & H2 & H3). destruct (Um y' o' d' H1) as (-> & -> & ->). refine (conj eq_refl (conj eq_refl _)). rewrite (value_unique S HR y _ _ Valy H2). exact H3. }
    destruct (merge_spec V uf2 Lu rep y o Hi2 HyV HoV) as (uf3 & Lu3 & Eu & Hi3).
    assert (R' : reps (Datatypes.S j) (merged rep y o)) by (apply (reps_merge j rep u v y o (data s)); auto; destruct Hyo as [[-> ->]|[-> ->]]; auto).
    assert (Em : forall w, merged rep y o w = if rep w =? y then o else rep w) by (intro w; unfold merged; rewrite Ry, Ro; reflexivity).
    assert (P' : elder_pairs L (Datatypes.S j) (h_pairing st ++ [(idx S y, Some j)])) by (apply (pairs_add j _ y o (data s)); [exact Hm|apply (born_idx S HR y HyV)|exact P]).
    assert (Root' : forall r, In r V -> merged rep y o r = r -> rep r = r /\ r <> y).
    { intros r Hr. rewrite Em. destruct (Nat.eqb_spec (rep r) y) as [X|X]; intro Z0; [subst r; exfalso; congruence|]. split; [exact Z0|]. intros ->. congruence. }
    destruct (Z.eqb_spec (data cy) (data s)) as [Ed|Ed]; cbn [bind].
    - rewrite Icy. cbn [bind]. rewrite (index_edge S HR j s Hj). cbn [bind]. rewrite Eu. cbn [bind]. eexists. split; [reflexivity|].
      assert (Nl : forall y' o', ~ lasting L j y' o') by (intros y' o' H; apply Ul in H; tauto).
      exists Lu3, (merged rep y o). cbn [h_uf h_pairing h_edges h_crit]. refine (conj Hi3 (conj R' (conj _ (conj _ (conj _ (conj P' (edges_skip j _ Nl E))))))).
      + intros r Hr Er'. destruct (Root' r Hr Er') as [X1 X2]. rewrite vm_other by exact X2. apply critical_skip; [intro; apply Nl|apply C1; assumption].
      + intros r Hr. destruct (Nat.eq_dec r y) as [->|N]; [rewrite vm_same; exact HoV|rewrite vm_other by exact N; apply C2; exact Hr].
      + intros r Hr. destruct (Nat.eq_dec r y) as [->|N]; [rewrite vm_same, !Em, Ry, Ro, Nat.eqb_refl; destruct (Nat.eqb_spec o y); congruence|]. rewrite vm_other by exact N. rewrite !Em, C3 by exact Hr. reflexivity.
    - rewrite Iky. cbn [bind]. rewrite Iko. cbn [bind].
      assert (Hck : h_crit st y <> h_crit st o) by (intro X; apply Hyo'; rewrite <- Ry, <- Ro, <- (C3 y HyV), <- (C3 o HoV), X; reflexivity).
      assert (Hl : lasting L j y o) by (exists (data s), (data cy); auto).
      assert (Par : exists c, (let '(youngerCritical, olderCritical) := if idx S (h_crit st y) <? idx S (h_crit st o) then (ko, ky) else (ky, ko) in criticalPoints_between S tags olderCritical youngerCritical s) = Ok c /\
        hierarchy_parent L j y o (match c with Some points => if length points =? 2 then h_crit st o else o | None => o end)).
      { assert (G : forall a b ka kb, verts ka = [a] -> verts kb = [b] -> In a V -> In b V -> a <> b -> ((a = h_crit st o /\ b = h_crit st y) \/ (a = h_crit st y /\ b = h_crit st o)) -> idx S a < idx S b -> value L a (data ka) ->
          exists c, criticalPoints_between S tags ka kb s = Ok c /\ hierarchy_parent L j y o (match c with Some points => if length points =? 2 then h_crit st o else o | None => o end)).
        { intros a b ka kb Ea Eb HaV HbV Hab Habc Hidx Hval. destruct (between_ok S HR HC HD tags HT ka kb s a b Ea Eb HaV HbV Hab) as (c & -> & Hc). exists c. split; [reflexivity|].
          exists (h_crit st y), (h_crit st o), a, b, (data ka), (data s). refine (conj Hm (conj (C1 y HyV Ry) (conj (C1 o HoV Ro) (conj Habc (conj (proj2 (older_idx S HR a b) (conj HaV (conj HbV Hidx))) (conj Hval _)))))).
          destruct c as [c|]; [|right; auto]. destruct Hc as (Hn & vs & ts & Hp & Ht). pose proof (two_length c ts Hn Ht) as T. destruct (length c =? 2).
          - left. split; [reflexivity|]. exists vs, ts. split; [exact Hp|apply T; reflexivity].
          - right. split; [reflexivity|]. right. exists vs, ts. split; [exact Hp|]. intro X. apply T in X. discriminate. }
        destruct (Nat.ltb_spec (idx S (h_crit st y)) (idx S (h_crit st o))) as [Hlt'|Hge].
        - apply (G (h_crit st y) (h_crit st o)); auto.
        - apply (G (h_crit st o) (h_crit st y)); auto. assert (idx S (h_crit st o) <> idx S (h_crit st y)) by (intro X; apply Hck; symmetry; apply (idx_inj S HR); auto). lia. }
      destruct Par as (c & Ec & Hpar).
      destruct (if idx S (h_crit st y) <? idx S (h_crit st o) then (ko, ky) else (ky, ko)) as [k1 k2]. rewrite Ec. cbn [bind]. rewrite Icy. cbn [bind]. rewrite (index_edge S HR j s Hj). cbn [bind]. rewrite Eu. cbn [bind]. eexists. split; [reflexivity|].
      exists Lu3, (merged rep y o). cbn [h_uf h_pairing h_edges h_crit]. refine (conj Hi3 (conj R' (conj _ (conj _ (conj _ (conj P' (edges_add j _ y o _ Hl Hpar E))))))).
      + intros r Hr Er'. destruct (Root' r Hr Er') as [X1 X2]. destruct (Nat.eq_dec r o) as [->|N].
        * rewrite vm_same. left. exists j. refine (conj _ (conj Hl _)); [lia|]. intros; lia.
        * rewrite vm_other by exact N. apply critical_skip; [|apply C1; assumption]. intros y' X. apply Ul in X. tauto.
      + intros r Hr. destruct (Nat.eq_dec r o) as [->|N]; [rewrite vm_same; exact HyV|rewrite vm_other by exact N; apply C2; exact Hr].
      + intros r Hr. destruct (Nat.eq_dec r o) as [->|N]; [rewrite vm_same, !Em, Ry, Ro, Nat.eqb_refl; destruct (Nat.eqb_spec o y); congruence|]. rewrite vm_other by exact N. rewrite !Em, C3 by exact Hr. reflexivity.
  Qed.
End Loop.

(** the list of unpaired vertices *)
Definition unpaired_vertices (L : list simplex) (pairs : list (nat * option nat)) : Prop :=
  exists roots, StronglySorted lt roots /\ (forall r, In r roots <-> eldest L (length L) r r) /\
    Forall2 (fun r q => exists i, born L r i /\ q = (i, None)) roots pairs.

(** Every component dies at the edge that merges it into an older one; the pairs are
    listed in the order of these edges, followed by the eldest vertices of the components. *)
Theorem C91_hierarchy : forall order K, (forall l, Permutation (order l) l) -> reachable K -> closed (by_index K) ->
  exists pairs unpaired edges, extendedPersistenceHierarchy order K = Ok (pairs ++ unpaired, edges) /\
    let L := filter (fun s => length (verts s) <=? 2) (by_index K) in
    elder_pairs L (length L) pairs /\ unpaired_vertices L unpaired /\ elder_edges L (length L) edges.
Proof.
  intros order K Ho HRK HCK. pose proof (reachable_kwf K HRK) as HKK.
  assert (EL : filter (fun s => sdim s <=? 1) (by_index K) = filter (fun s => length (verts s) <=? 2) (by_index K)).
  { apply filter_ext. intro s. unfold sdim. destruct (verts s) as [|a [|b [|c l]]]; reflexivity. }
  unfold extendedPersistenceHierarchy. rewrite EL. set (L := filter (fun s => length (verts s) <=? 2) (by_index K)).
  assert (LIn : forall s, In s L <-> In s (by_index K) /\ length (verts s) <= 2) by (intro s; unfold L; rewrite filter_In, Nat.leb_le; tauto).
  destruct (of_range_new L) as (S1 & E1 & HS1 & EB).
  - intros s Hs. apply (kwf_good K HKK). apply LIn. exact Hs.
  - unfold L. pose proof (kwf_nodup K HKK) as Hn. clear - Hn. induction (by_index K) as [|s l IH]; [constructor|]. inversion Hn as [|? ? H1 H2]; subst. cbn [filter map]. specialize (IH H2).
    destruct (length (verts s) <=? 2); [|exact IH]. cbn [map]. constructor; [|exact IH]. intro X. apply H1. apply in_map_iff in X. destruct X as (t & <- & Ht). apply in_map. apply filter_In in Ht. apply Ht.
  - rewrite E1. cbn [bind]. assert (HR : reachable S1) by (apply (of_range_reachable L S1); [intros s Hs; apply (kwf_good K HKK); apply LIn; exact Hs|exact E1]).
    assert (HC : closed (by_index S1)).
    { rewrite EB. intros s vs Hs Hne Hsub. apply LIn in Hs. destruct Hs as [Hs Hl]. destruct (HCK s vs Hs Hne Hsub) as (t & Ht & Et). exists t. split; [|exact Et]. apply LIn. split; [exact Ht|].
      assert (Nt : NoDup (verts t)) by (apply SSgt_NoDup; apply (kwf_good K HKK t Ht)). assert (I : incl (verts t) (verts s)) by (intros x Hx; apply Hsub; apply Et; exact Hx). apply (NoDup_incl_length Nt) in I. lia. }
    assert (HD : forall s, In s (by_index S1) -> sdim s <= 1) by (intros s Hs; rewrite EB in Hs; apply LIn in Hs; unfold sdim; lia).
    destruct (tagEdges_ok S1 HR HC) as (tags & -> & HT). cbn [bind].
    destruct (foldM_ind (hierarchy_step S1 tags) (hinv S1) (by_index S1) (HState (uf_init (k_vertices S1)) [] [] (vm_init (k_vertices S1)))) as (st & -> & Hst).
    + exists [], (fun u => u). cbn [h_uf h_pairing h_edges h_crit]. refine (conj (init_inv _) (conj _ (conj _ (conj _ (conj _ (conj _ _)))))).
      * refine (conj _ (conj _ _)); [auto| |auto]. intros u v _ _. split; [intros ->; apply rst_refl|]. induction 1 as [u v (k & d & Hk & _)| | |]; [lia|congruence..].
      * intros r Hr _. right. split; [apply (vm_init_V S1 r Hr)|intros; lia].
      * intros r Hr. rewrite (vm_init_V S1 r Hr). exact Hr.
      * intros r Hr. apply (vm_init_V S1 r Hr).
      * exists []. refine (conj (SSorted_nil _) (conj _ (Forall2_nil _))). intro k. split; [intros []|intros [? _]; lia].
      * exists []. refine (conj (SSorted_nil _) (conj _ (Forall2_nil _))). intro k. split; [intros []|intros [? _]; lia].
    + intros i s st Hi Hst. apply (hierarchy_step_ok S1 HR HC HD tags HT i s st Hi Hst).
    + destruct Hst as (Lu & rep & Hi & R & _ & _ & _ & P & E). cbn [bind]. destruct (roots_spec (k_vertices S1) order (h_uf st) Lu rep Hi) as (uf' & -> & _). cbn [bind].
      set (roots := set_insert_range (order (filter (fun u => rep u =? u) (map fst (h_uf st)))) []).
      assert (Rin : forall r, In r roots <-> In r (k_vertices S1) /\ rep r = r).
      { intro r. unfold roots. rewrite set_range_In. rewrite <- (inv_keys _ _ _ _ Hi r). split.
        - intros [H|[]]. apply (Permutation_in _ (Ho _)) in H. apply filter_In in H. rewrite Nat.eqb_eq in H. exact H.
        - intro H. left. apply (Permutation_in _ (Permutation_sym (Ho _))). apply filter_In. rewrite Nat.eqb_eq. exact H. }
      assert (F : forall l acc, (forall r, In r l -> In r (k_vertices S1)) -> foldM (hierarchy_root S1) l acc = Ok (acc ++ map (fun r => (idx S1 r, None)) l)).
      { induction l as [|r l IH]; intros acc Hl; cbn [foldM map]; [rewrite app_nil_r; reflexivity|]. unfold hierarchy_root at 1. destruct (idx_spec S1 HR r) as (_ & _ & _ & ->); [apply Hl; simpl; auto|]. cbn [bind].
        rewrite IH by (intros; apply Hl; simpl; auto). rewrite <- app_assoc. reflexivity. }
      rewrite F by (intros r Hr; apply Rin; exact Hr). cbn [bind]. rewrite EB in P, E. exists (h_pairing st), (map (fun r => (idx S1 r, None)) roots), (h_edges st). cbv zeta. refine (conj eq_refl (conj P (conj _ E))).
      exists roots. refine (conj _ (conj _ _)).
      * unfold roots. apply set_range_sorted. constructor.
      * intro r. rewrite Rin. rewrite <- EB. split.
        -- intros [H1 H2]. apply (eldest_rep S1 HR HC _ rep r R H1). symmetry. exact H2.
        -- intro H. assert (HrV : In r (k_vertices S1)) by (destruct H as (_ & (i & Hb) & _); apply (born_inv S1 HR r i Hb)). split; [exact HrV|]. symmetry. apply (eldest_rep S1 HR HC _ rep r R HrV). exact H.
      * assert (Rv : forall r, In r roots -> In r (k_vertices S1)) by (intros r Hr; apply Rin; exact Hr). clear - Rv EB HR. induction roots as [|r l IH]; cbn [map]; constructor; [|apply IH; intros; apply Rv; simpl; auto].
        exists (idx S1 r). split; [|reflexivity]. rewrite <- EB. apply (born_idx S1 HR). apply Rv. simpl. auto.
Qed.

Section Forest.
  Variable L : list simplex.
  Hypothesis HN : NoDup (map verts L).
  Lemma born_unique w i k : born L w i -> born L w k -> i = k.
  Proof.
    intros (s & H1 & H2) (t & H3 & H4). rewrite NoDup_nth_error in HN. apply HN; [rewrite map_length; apply nth_error_Some; congruence|]. rewrite !nth_error_map, H1, H3. simpl. congruence.
  Qed.
  Lemma older_asym a b : older L a b -> ~ older L b a.
  Proof.
    intros (i & k & H1 & H2 & H3) (i' & k' & H1' & H2' & H3'). rewrite (born_unique a i k' H1 H2') in H3. rewrite (born_unique b k i' H2 H1') in H3. lia.
  Qed.
  Lemma merges_apart j y o d : merges L j y o d -> ~ joined_before L j y o /\ exists u v, edge L j u v d /\ joined_before L j u y /\ joined_before L j v o.
  Proof.
    intros (u & v & H1 & (H2 & H3 & H4) & (H5 & H6 & H7) & H8). split; [|exists u, v; auto]. intro J. destruct (H4 o (rst_trans _ _ _ _ _ H2 J)) as [-> |H]; [|apply (older_asym o y H8 H)].
    destruct H8 as (i & k & B1 & B2 & Hl). rewrite (born_unique y i k B1 B2) in Hl. lia.
  Qed.
  Lemma joined_le j k u v : j <= k -> joined_before L j u v -> joined_before L k u v.
  Proof.
    intros Hjk. induction 1 as [u v (i & d & Hi & H)| | |]; [apply rst_step; exists i, d; split; [lia|exact H]|apply rst_refl|apply rst_sym; assumption|eapply rst_trans; eassumption].
  Qed.
  Lemma critical_joined j r c : critical L j r c -> joined_before L j r c.
  Proof.
    intros [(k & Hk & (d & e & Hm & _) & _)|[-> _]]; [|apply rst_refl]. destruct (merges_apart k c r d Hm) as (_ & u & v & He & Hu & Hv).
    apply rst_sym. apply rst_trans with u; [apply rst_sym; apply (joined_le k j); [lia|exact Hu]|]. apply rst_trans with v; [apply rst_step; exists k, d; auto|apply (joined_le k j); [lia|exact Hv]].
  Qed.
  Lemma parent_apart j y o p : hierarchy_parent L j y o p -> joined_before L j o p /\ ~ joined_before L j y p.
  Proof.
    intros (cy & co & a & b & la & d & Hm & Hcy & Hco & _ & _ & _ & Hp). destruct (merges_apart j y o d Hm) as [Hn _].
    assert (J : joined_before L j o p) by (destruct Hp as [[-> _]|[-> _]]; [apply critical_joined; exact Hco|apply rst_refl]).
    split; [exact J|]. intro X. apply Hn. apply rst_trans with p; [exact X|apply rst_sym; exact J].
  Qed.
End Forest.

(** Every edge of the hierarchy attaches a component to a vertex of the older component:
    the hierarchy is a forest. *)
Theorem C91_forest : forall K, reachable K ->
  let L := filter (fun s => length (verts s) <=? 2) (by_index K) in
  forall j y o p, hierarchy_parent L j y o p -> joined_before L j o p /\ ~ joined_before L j y p.
Proof.
  intros K HR L. apply parent_apart. unfold L. pose proof (kwf_nodup K (reachable_kwf K HR)) as Hn. clear - Hn. induction (by_index K) as [|s l IH]; [constructor|]. inversion Hn as [|? ? H1 H2]; subst. cbn [filter map]. specialize (IH H2).
  destruct (length (verts s) <=? 2); [|exact IH]. cbn [map]. constructor; [|exact IH]. intro X. apply H1. apply in_map_iff in X. destruct X as (t & <- & Ht). apply in_map. apply filter_In in Ht. apply Ht.
Qed.

(** The functions of the test of the project: the same pairing, but other hierarchies *)
Example C91_example1 : extendedPersistenceHierarchy (fun l => l) (k_sort data_cmp (functionComplex Z.max [1; 2; 0; 4; 3]%Z)) =
  Ok ([(2, Some 3); (1, Some 4); (6, Some 7); (5, Some 8); (0, None)], [(2, 0); (2, 4)]).
Proof. vm_compute. reflexivity. Qed.
Example C91_example2 : extendedPersistenceHierarchy (fun l => l) (k_sort data_cmp (functionComplex Z.max [0; 2; 1; 4; 3]%Z)) =
  Ok ([(2, Some 3); (1, Some 4); (6, Some 7); (5, Some 8); (0, None)], [(0, 2); (2, 4)]).
Proof. vm_compute. reflexivity. Qed.

(** The indices of the pairing are those of the one-skeleton *)
Definition filled : complex := mk [PushBack [0] 0; PushBack [1] 0; PushBack [2] 0; PushBack [0; 1] 1; PushBack [0; 2] 1; PushBack [1; 2] 1; PushBack [0; 1; 2] 1; PushBack [3] 2].
Theorem C91_indices_refuted : exists K pp es, reachable K /\ closed (by_index K) /\ filtration_order (by_index K) /\
  extendedPersistenceHierarchy (fun l => l) K = Ok (pp, es) /\ In (6, None) pp /\ nth_error (map verts (by_index K)) 6 = Some [2; 1; 0].
Proof.
  exists filled, [(1, Some 3); (2, Some 4); (0, None); (6, None)], [(0, 1); (0, 2)]. refine (conj (mk_reachable _) (conj _ (conj _ (conj _ (conj _ _))))).
  - apply closed_check; [apply mk_reachable|vm_compute; reflexivity].
  - apply filtration_check. vm_compute. reflexivity.
  - vm_compute. reflexivity.
  - simpl. auto.
  - vm_compute. reflexivity.
Qed.
(** and the edges contain vertices rather than indices *)
Theorem C91_edges_refuted : exists K pp p y, reachable K /\ closed (by_index K) /\ filtration_order (by_index K) /\
  extendedPersistenceHierarchy (fun l => l) K = Ok (pp, [(p, y)]) /\ k_size K <= p.
Proof.
  exists (mk [PushBack [10] 0; PushBack [20] 1; PushBack [10; 20] 2]), [(1, Some 2); (0, None)], 10, 20. refine (conj (mk_reachable _) (conj _ (conj _ (conj _ _)))).
  - apply closed_check; [apply mk_reachable|vm_compute; reflexivity].
  - apply filtration_check. vm_compute. reflexivity.
  - vm_compute. reflexivity.
  - vm_compute. lia.
Qed.

Print Assumptions C91_hierarchy.
Print Assumptions C91_forest.
Print Assumptions C91_indices_refuted.
Print Assumptions C91_edges_refuted.
