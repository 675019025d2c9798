(** * The pairing read off a reduced matrix. *)

From Coq Require Import List Arith Lia Bool Permutation Sorted.
From Verif Require Import Base BaseFacts SpecMatrix Matrix ReductionFacts AlgorithmFacts.
Import ListNotations.

(** ** order on pairs *)
Lemma pair_ltb_lt p q : pair_ltb p q = true <-> pair_lt p q.
Proof.
  destruct p as [a b], q as [c d]. unfold pair_ltb, pair_lt. simpl.
  destruct (Nat.ltb_spec a c); [split; auto|].
  destruct (Nat.ltb_spec c a); [split; [discriminate|lia]|].
  assert (a = c) by lia. destruct b, d; try rewrite Nat.ltb_lt;
    split; intros; try lia; try discriminate; auto; try (destruct H2 as [|[]]; [lia|easy]).
Qed.

Lemma pair_lt_irrefl p : ~ pair_lt p p.
Proof. destruct p as [a [b|]]; unfold pair_lt; simpl; lia. Qed.

Lemma pair_lt_asym p q : pair_lt p q -> ~ pair_lt q p.
Proof. destruct p as [a [b|]], q as [c [d|]]; unfold pair_lt; simpl; lia. Qed.

Lemma pair_lt_trans p q r : pair_lt p q -> pair_lt q r -> pair_lt p r.
Proof. destruct p as [a [b|]], q as [c [d|]], r as [e [f|]]; unfold pair_lt; simpl; lia. Qed.

Lemma pair_lt_total p q : pair_lt p q \/ p = q \/ pair_lt q p.
Proof.
  destruct p as [a b], q as [c d]. unfold pair_lt. simpl.
  destruct (lt_eq_lt_dec a c) as [[H| ->]|H]; auto.
  destruct b as [b|], d as [d|]; auto.
  - destruct (lt_eq_lt_dec b d) as [[H| ->]|H]; auto.
Qed.

Lemma pair_ltb_swo : swo pair_ltb.
Proof.
  split.
  - intros x y H. apply pair_ltb_lt in H. destruct (pair_ltb y x) eqn:E; auto.
    apply pair_ltb_lt in E. exfalso. eapply pair_lt_asym; eauto.
  - intros x y z H1 H2. destruct (pair_ltb z x) eqn:E; auto. apply pair_ltb_lt in E.
    destruct (pair_lt_total x y) as [H|[->|H]].
    + pose proof (pair_lt_trans _ _ _ E H). apply pair_ltb_lt in H0. congruence.
    + apply pair_ltb_lt in E. congruence.
    + apply pair_ltb_lt in H. congruence.
Qed.

Lemma sort_pairs_sorted l : NoDup l -> StronglySorted pair_lt (cpp_sort pair_ltb l).
Proof.
  intro Hn.
  assert (Hn' : NoDup (cpp_sort pair_ltb l)).
  { eapply Permutation_NoDup; [symmetry; apply cpp_sort_perm|auto]. }
  pose proof (cpp_sort_sorted pair_ltb l pair_ltb_swo) as Hs.
  induction Hs as [|a l' Hs IH F]; constructor.
  - inversion Hn'; auto.
  - inversion Hn'; subst. rewrite Forall_forall in *. intros b Hb.
    destruct (pair_lt_total a b) as [H|[->|H]]; auto; [easy|].
    apply pair_ltb_lt in H. rewrite F in H by auto. discriminate.
Qed.

Lemma sorted_pairs_ext p q :
  StronglySorted pair_lt p -> StronglySorted pair_lt q -> (forall x, In x p <-> In x q) -> p = q.
Proof. apply SS_ext. apply pair_lt_irrefl. apply pair_lt_asym. Qed.

(** ** reading off *)
Lemma uset_insert_In x y l : In y (uset_insert x l) <-> y = x \/ In y l.
Proof.
  unfold uset_insert. destruct (mem x l) eqn:E; simpl; [|intuition].
  apply mem_In in E. split; auto. intros [->|]; auto.
Qed.

Lemma uset_insert_NoDup x l : NoDup l -> NoDup (uset_insert x l).
Proof.
  intro H. unfold uset_insert. destruct (mem x l) eqn:E; auto.
  constructor; auto. apply mem_false; auto.
Qed.

Lemma uset_erase_In x y l : In y (uset_erase x l) <-> In y l /\ y <> x.
Proof. unfold uset_erase. rewrite filter_In, negb_true_iff, Nat.eqb_neq. reflexivity. Qed.

Definition tr (du : bool) (n i j : nat) : nat * nat :=
  if du then (n - 1 - j, n - 1 - i) else (i, j).
Definition tr1 (du : bool) (n c : nat) : nat := if du then n - 1 - c else c.

Definition top_ok (R : matrix) (all : bool) (k : nat) : Prop :=
  all = true \/ (if dualized R then dimof R k <> 0 else dimof R k <> getMaxDimension R).

Lemma NoDup_app_intro {A} (l1 l2 : list A) :
  NoDup l1 -> NoDup l2 -> (forall x, In x l1 -> ~ In x l2) -> NoDup (l1 ++ l2).
Proof.
  induction l1 as [|a l1 IH]; simpl; intros H1 H2 H; [auto|].
  inversion H1 as [|? ? Ha Hn]; subst. constructor.
  - rewrite in_app_iff. intros [Hi|Hi]; [exact (Ha Hi)|]. exact (H a (or_introl eq_refl) Hi).
  - apply IH; auto.
Qed.

Definition pair_inv (R : matrix) (all : bool) (mx : option nat) (m : nat) (st : pair_state) : Prop :=
  let n := length (cols R) in
  NoDup (p_pairs st) /\
  (forall u o, In (u, o) (p_pairs st) <->
     exists i j, j < m /\ lowof (cols R) j = Some i /\
       u = fst (tr (dualized R) n i j) /\ o = Some (snd (tr (dualized R) n i j)) /\
       allowed mx n u = true) /\
  NoDup (p_creators st) /\
  (forall c, In c (p_creators st) <->
     c < m /\ lowof (cols R) c = None /\ top_ok R all c /\
     forall j, j < m -> lowof (cols R) j <> Some c) /\
  (forall v, In v (p_destroyers st) <->
     exists i j, j < m /\ lowof (cols R) j = Some i /\ v = snd (tr (dualized R) n i j)).

Lemma getMaximumIndex_lowof R j : j < length (cols R) -> getMaximumIndex R j = Ok (lowof (cols R) j).
Proof.
  intro H. unfold getMaximumIndex, at_. destruct (nth_error_ex (cols R) j H) as [c E]. rewrite E.
  simpl. unfold lowof. rewrite (nth_error_nth_default _ _ _ E). auto.
Qed.

Lemma pairing_step_spec R all mx m st :
  length (dims R) = length (cols R) ->
  square (cols R) ->
  (forall j i, lowof (cols R) j = Some i -> i < j) ->
  (forall j k i, lowof (cols R) j = Some i -> lowof (cols R) k = Some i -> j = k) ->
  m < length (cols R) -> pair_inv R all mx m st ->
  exists st', pairing_step R all mx st m = Ok st' /\ pair_inv R all mx (S m) st'.
Proof.
  intros HLd Hq Hup Hinj Hm (P1 & P2 & P3 & P4 & P5). unfold pairing_step.
  rewrite getMaximumIndex_lowof by auto. unfold getNumColumns. simpl.
  set (n := length (cols R)) in *.
  destruct (lowof (cols R) m) as [i|] eqn:El.
  - assert (Him : i < m) by auto.
    assert (Etr : (if dualized R then (n - 1 - m, n - 1 - i) else (i, m)) = tr (dualized R) n i m) by reflexivity.
    rewrite Etr. destruct (tr (dualized R) n i m) as [u v] eqn:Euv.
    eexists. split; [reflexivity|]. unfold pair_inv. simpl. fold n.
    assert (Hnew : ~ In (u, Some v) (p_pairs st)).
    { intro H. apply P2 in H. destruct H as (i' & j' & Hj' & L & Eu & Ev & _).
      injection Ev as Ev. clear - Euv Eu Ev Hj' Hm Him L Hup El Hinj.
      unfold tr in *. pose proof (Hup _ _ L). destruct (dualized R); simpl in *; injection Euv as <- <-.
      - assert (j' = m) by lia. lia.
      - subst. lia. }
    refine (conj _ (conj _ (conj _ (conj _ _)))).
    + destruct (allowed mx n u); auto.
      apply NoDup_app_intro; auto; [repeat constructor; easy|].
      intros x Hx [<-|[]]; auto.
    + intros u' o. split.
      * intro H. assert (H' : In (u', o) (p_pairs st) \/ (u', o) = (u, Some v) /\ allowed mx n u = true).
        { destruct (allowed mx n u) eqn:Ea; auto. apply in_app_or in H. destruct H as [H|[H|[]]]; auto. }
        destruct H' as [H'|[[= -> ->] Ha]].
        -- apply P2 in H'. destruct H' as (i' & j' & Hj' & H'). exists i', j'. split; [lia|auto].
        -- exists i, m. rewrite Euv. simpl. auto.
      * intros (i' & j' & Hj' & L & Eu & Eo & Ha).
        destruct (Nat.eq_dec j' m) as [->|Hne].
        -- rewrite El in L. injection L as <-. rewrite Euv in *. simpl in *. subst.
           rewrite Ha. apply in_or_app. right. simpl. auto.
        -- assert (In (u', o) (p_pairs st)).
           { apply P2. exists i', j'. split; [lia|auto]. }
           destruct (allowed mx n u); auto. apply in_or_app; auto.
    + apply NoDup_filter; auto.
    + intro c. rewrite uset_erase_In, P4. split.
      * intros [(H1 & H2 & H3 & H4) H5]. repeat split; auto.
        intros j Hj. destruct (Nat.eq_dec j m) as [->|]; [congruence|]. apply H4. lia.
      * intros (H1 & H2 & H3 & H4). destruct (Nat.eq_dec c m) as [->|]; [congruence|].
        repeat split; auto; try lia. intros ->. apply (H4 m); auto.
    + intro v'. rewrite uset_insert_In, P5. split.
      * intros [->|(i' & j' & Hj' & H)].
        -- exists i, m. rewrite Euv. auto.
        -- exists i', j'. split; [lia|auto].
      * intros (i' & j' & Hj' & L & E). destruct (Nat.eq_dec j' m) as [->|].
        -- rewrite El in L. injection L as <-. rewrite Euv in E. auto.
        -- right. exists i', j'. split; [lia|auto].
  - unfold getDimension, at_. destruct (nth_error_ex (dims R) m) as [dm Ed]; [lia|]. rewrite Ed.
    cbn [bind].
    assert (Hdm : dimof R m = dm) by (apply nth_error_nth; auto).
    assert (Hcond : (negb (dualized R) && negb (dm =? getMaxDimension R)
                     || dualized R && negb (dm =? 0) || all = true) <-> top_ok R all m).
    { unfold top_ok. rewrite Hdm. destruct (dualized R), all; simpl;
        rewrite ?orb_true_r, ?orb_false_r, ?negb_true_iff, ?Nat.eqb_neq; intuition congruence. }
    assert (Hpairs : forall u o, In (u, o) (p_pairs st) <->
       exists i j, j < S m /\ lowof (cols R) j = Some i /\
       u = fst (tr (dualized R) n i j) /\ o = Some (snd (tr (dualized R) n i j)) /\
       allowed mx n u = true).
    { intros u o. rewrite P2. split; intros (i' & j' & Hj' & L & H).
      - exists i', j'. split; [lia|auto].
      - exists i', j'. split; [|auto]. assert (j' <> m) by (intros ->; congruence). lia. }
    assert (Hdes : forall v, In v (p_destroyers st) <->
       exists i j, j < S m /\ lowof (cols R) j = Some i /\ v = snd (tr (dualized R) n i j)).
    { intros v. rewrite P5. split; intros (i' & j' & Hj' & L & H).
      - exists i', j'. split; [lia|auto].
      - exists i', j'. split; [|auto]. assert (j' <> m) by (intros ->; congruence). lia. }
    assert (Hlows : forall c, (forall j, j < m -> lowof (cols R) j <> Some c) ->
                              forall j, j < S m -> lowof (cols R) j <> Some c).
    { intros c H j Hj. destruct (Nat.eq_dec j m) as [->|]; [congruence|]. apply H. lia. }
    destruct (_ || all) eqn:Ec.
    + pose proof (proj1 Hcond eq_refl) as Htop.
      eexists. split; [reflexivity|]. unfold pair_inv. simpl. fold n.
      refine (conj P1 (conj Hpairs (conj _ (conj _ Hdes)))).
      * apply uset_insert_NoDup; auto.
      * intro c. rewrite uset_insert_In, P4. split.
        -- intros [->|(H1 & H2 & H3 & H4)].
           ++ repeat split; auto. intros j Hj E. pose proof (Hup _ _ E). lia.
           ++ repeat split; auto.
        -- intros (H1 & H2 & H3 & H4). destruct (Nat.eq_dec c m); auto. right.
           repeat split; auto. lia.
    + eexists. split; [reflexivity|]. unfold pair_inv. fold n.
      refine (conj P1 (conj Hpairs (conj P3 (conj _ Hdes)))).
      intro c. rewrite P4. split.
      * intros (H1 & H2 & H3 & H4). repeat split; auto.
      * intros (H1 & H2 & H3 & H4). destruct (Nat.eq_dec c m) as [->|].
        -- apply Hcond in H3. discriminate.
        -- repeat split; auto. lia.
Qed.

Lemma NoDup_flat_map_single {A B} (f : A -> list B) (g : A -> B) l :
  NoDup l -> (forall x, In x l -> f x = [] \/ f x = [g x]) ->
  (forall x y, In x l -> In y l -> g x = g y -> x = y) -> NoDup (flat_map f l).
Proof.
  induction l as [|a l IH]; intros Hn Hf Hg; simpl; [constructor|].
  inversion Hn; subst. apply NoDup_app_intro.
  - destruct (Hf a) as [->| ->]; simpl; auto; repeat constructor; easy.
  - apply IH; auto.
    + intros; apply Hf; simpl; auto.
    + intros; apply Hg; simpl; auto.
  - intros b Hb H. apply in_flat_map in H. destruct H as (x & Hx & Hbx).
    assert (b = g a) by (destruct (Hf a (or_introl eq_refl)) as [E|E]; rewrite E in Hb; [easy|destruct Hb as [|[]]; auto]).
    assert (b = g x) by (destruct (Hf x (or_intror Hx)) as [E|E]; rewrite E in Hbx; [easy|destruct Hbx as [|[]]; auto]).
    assert (a = x) by (apply Hg; simpl; auto; congruence). congruence.
Qed.

(** The pairing as a set, with the iteration order of the hash set arbitrary. *)
Theorem pairing_of_reduced_spec order R all mx :
  (forall l, Permutation (order l) l) ->
  length (dims R) = length (cols R) ->
  square (cols R) ->
  (forall j i, lowof (cols R) j = Some i -> i < j) ->
  (forall j k i, lowof (cols R) j = Some i -> lowof (cols R) k = Some i -> j = k) ->
  exists p, pairing_of_reduced order R all mx = Ok p /\
    StronglySorted pair_lt p /\
    let n := length (cols R) in
    (forall u v, In (u, Some v) p <->
       exists i j, j < n /\ lowof (cols R) j = Some i /\ (u, v) = tr (dualized R) n i j /\
                   allowed mx n u = true) /\
    (forall c, In (c, None) p <->
       exists k, k < n /\ lowof (cols R) k = None /\ top_ok R all k /\
         (forall j, j < n -> lowof (cols R) j <> Some k) /\ c = tr1 (dualized R) n k /\
         allowed mx n c = true).
Proof.
  intros Hord HLd Hq Hup Hinj. unfold pairing_of_reduced, getNumColumns.
  set (n := length (cols R)).
  destruct (foldM_seq_inv (pairing_step R all mx) (pair_inv R all mx) n 0 (PairState [] [] []))
    as (st & E & Inv).
  { intros m st Hm. apply pairing_step_spec; auto. fold n. lia. }
  { unfold pair_inv. simpl. repeat split; try constructor; try easy;
      intros; repeat match goal with H : exists _, _ |- _ => destruct H end; lia. }
  rewrite E. simpl in *. destruct Inv as (P1 & P2 & P3 & P4 & P5). fold n in P2, P4, P5.
  eexists. split; [reflexivity|].
  assert (Hcre : forall k, In k (order (p_creators st)) <-> In k (p_creators st)).
  { intro k. split; apply Permutation_in; [|symmetry]; apply Hord. }
  assert (Htr1 : forall k, (if dualized R then n - 1 - k else k) = tr1 (dualized R) n k) by reflexivity.
  (* creators are never recorded as destroyers *)
  assert (Hnd : forall k, In k (p_creators st) -> mem (tr1 (dualized R) n k) (p_destroyers st) = false).
  { intros k Hk. apply mem_false. intro H. apply P5 in H.
    destruct H as (i & j & Hj & L & Ev). apply P4 in Hk. destruct Hk as (Hk & Lk & _ & Hno).
    unfold tr, tr1 in Ev. destruct (dualized R); simpl in Ev.
    - apply (Hno j Hj). rewrite L. f_equal. pose proof (Hup _ _ L). lia.
    - subst. congruence. }
  assert (Hun : forall c, In (c, None) (unpaired_of R mx (p_destroyers st) (order (p_creators st))) <->
            exists k, In k (p_creators st) /\ c = tr1 (dualized R) n k /\ allowed mx n c = true).
  { intro c. unfold unpaired_of, getNumColumns. fold n. rewrite in_flat_map. split.
    - intros (k & Hk & H). apply Hcre in Hk. rewrite Htr1, Hnd in H by auto.
      destruct (allowed mx n (tr1 (dualized R) n k)) eqn:Ea; [|easy].
      destruct H as [H|[]]. injection H as <-. exists k. auto.
    - intros (k & Hk & -> & Ha). exists k. split; [apply Hcre; auto|].
      rewrite Htr1, Hnd, Ha by auto. simpl. auto. }
  assert (Hun' : forall u v, ~ In (u, Some v) (unpaired_of R mx (p_destroyers st) (order (p_creators st)))).
  { intros u v H. unfold unpaired_of, getNumColumns in H. apply in_flat_map in H.
    destruct H as (k & Hk & H).
    destruct (mem _ _); [easy|]. destruct (allowed _ _ _); [|easy]. destruct H as [H|[]]. discriminate. }
  split; [|split].
  - apply sort_pairs_sorted. apply NoDup_app_intro; auto.
    + unfold unpaired_of, getNumColumns. fold n.
      apply NoDup_flat_map_single with (g := fun k => (tr1 (dualized R) n k, None)).
      * eapply Permutation_NoDup; [symmetry; apply Hord|auto].
      * intros k _. rewrite Htr1. destruct (mem _ _); auto. destruct (allowed _ _ _); auto.
      * intros x y Hx Hy Exy. injection Exy as Exy. apply Hcre, P4 in Hx, Hy.
        unfold tr1 in Exy. destruct (dualized R); lia.
    + intros [u [v|]] H; [apply Hun'|]. apply P2 in H.
      destruct H as (i & j & _ & _ & _ & H & _). discriminate.
  - intros u v. rewrite cpp_sort_In, in_app_iff, P2. split.
    + intros [(i & j & Hj & L & Eu & Ev & Ha)|H]; [|exfalso; eapply Hun'; eauto].
      exists i, j. repeat split; auto. injection Ev as Ev. destruct (tr (dualized R) n i j). simpl in *. congruence.
    + intros (i & j & Hj & L & Euv & Ha). left. exists i, j. rewrite <- Euv. auto.
  - intro c. rewrite cpp_sort_In, in_app_iff, P2, Hun. split.
    + intros [(i & j & Hj & L & Eu & Ev & Ha)|(k & Hk & Ec & Ha)]; [discriminate|].
      apply P4 in Hk. destruct Hk as (Hk & Lk & Ht & Hno). exists k. repeat split; auto.
    + intros (k & Hk & Lk & Ht & Hno & Ec & Ha). right. exists k. repeat split; auto.
      apply P4. auto.
Qed.

Definition ok_of (mx : option nat) (n u : nat) : Prop :=
  match mx with None => True | Some m => n < m \/ u < m end.

Lemma allowed_ok mx n u : allowed mx n u = true <-> ok_of mx n u.
Proof.
  unfold allowed, ok_of. destruct mx; [|tauto]. rewrite orb_true_iff, !Nat.ltb_lt. tauto.
Qed.

(** lows of a reduction of a valid boundary matrix are above the diagonal *)
Lemma coset_upper C j x r :
  (forall j r, entry C r j = true -> r < j) -> coset C j x -> x r = true -> r < j.
Proof.
  intros Hg (S & HS & E) Hx. rewrite E in Hx.
  destruct (entry C r j) eqn:Er; [apply Hg in Er; auto|].
  rewrite xorb_false_l in Hx. apply bigx_true in Hx. destruct Hx as (k & Hk & Hr).
  apply Hg in Hr. apply HS in Hk. lia.
Qed.

Lemma reduction_facts M R :
  valid_boundary (cols M) (dims M) -> reduction_of M R ->
  length (dims R) = length (cols R) /\ square (cols R) /\
  (forall j i, lowof (cols R) j = Some i -> i < j) /\
  (forall j k i, lowof (cols R) j = Some i -> lowof (cols R) k = Some i -> j = k) /\
  length (cols R) = length (cols M) /\
  (forall j, j < length (cols M) -> min_low (cols M) j (lowof (cols R) j)).
Proof.
  intros (HLd & HsC & Hg & Hz) (Hd & Hdu & Hs & Hq & HE & HR).
  pose proof HE as [HL HC].
  refine (conj _ (conj Hq (conj _ (conj _ (conj HL _))))).
  - rewrite Hd. lia.
  - intros j i L. pose proof (lowof_lt _ _ _ L) as Hj. rewrite HL in Hj.
    apply lowof_some in L; auto. destruct L as [H _].
    apply (coset_upper (cols M) j (fun r => entry (cols R) r j) i); auto.
    intros j' r Hr. apply Hg in Hr. tauto.
  - intros j k i L1 L2. destruct (Nat.eq_dec j k); auto. exfalso.
    pose proof (lowof_lt _ _ _ L1). pose proof (lowof_lt _ _ _ L2).
    apply lowof_some in L1, L2; auto. apply (HR j k i); auto.
  - apply lowof_min_low; auto.
Qed.

Lemma min_low_iff_lowof M R j o :
  valid_boundary (cols M) (dims M) -> reduction_of M R -> j < length (cols M) ->
  (min_low (cols M) j o <-> lowof (cols R) j = o).
Proof.
  intros HV HR Hj. destruct (reduction_facts M R HV HR) as (_ & _ & _ & _ & _ & H).
  split.
  - intro H'. eapply min_low_unique; eauto.
  - intros <-. auto.
Qed.

Theorem pairing_primal order M R all mx :
  (forall l, Permutation (order l) l) ->
  valid_boundary (cols M) (dims M) -> dualized M = false -> reduction_of M R ->
  exists p, pairing_of_reduced order R all mx = Ok p /\
    is_pairing (cols M) (dims M) all (ok_of mx (length (cols M))) p.
Proof.
  intros Hord HV Hdu HR.
  destruct (reduction_facts M R HV HR) as (H1 & H2 & H3 & H4 & H5 & H6).
  destruct (pairing_of_reduced_spec order R all mx Hord H1 H2 H3 H4) as (p & E & Hs & Hp & Hu).
  exists p. split; auto. split; auto. rewrite H5 in Hp, Hu.
  pose proof HR as (Hd & Hdu' & _). rewrite Hdu', Hdu in Hp, Hu.
  split.
  - intros u v. rewrite Hp. simpl. split.
    + intros (i & j & Hj & L & [= -> ->] & Ha). repeat split; auto.
      * apply (proj2 (min_low_iff_lowof M R j (Some i) HV HR Hj)) in L. apply L.
      * apply (proj2 (min_low_iff_lowof M R j (Some i) HV HR Hj)) in L. apply L.
      * apply allowed_ok; auto.
    + intros (Hv & Hm & Ha). exists u, v. repeat split; auto.
      * eapply min_low_iff_lowof; eauto.
      * apply allowed_ok; auto.
  - intro c. rewrite Hu. unfold tr1, top_ok, dimof, getMaxDimension. rewrite Hd, Hdu', Hdu. split.
    + intros (k & Hk & Lk & Ht & Hno & -> & Ha). split; [auto|]. split; [eapply min_low_iff_lowof; eauto|].
      split; [|split; [auto|apply allowed_ok; auto]].
      intros v Hv Hm. apply (Hno v Hv). eapply min_low_iff_lowof; eauto.
    + intros (Hc & Hm & Hno & Ht & Ha). exists c. repeat split; auto.
      * eapply min_low_iff_lowof; eauto.
      * intros j Hj L. apply (Hno j Hj). eapply min_low_iff_lowof; eauto.
      * apply allowed_ok; auto.
Qed.

Lemma is_pairing_unique C dims all ok p q :
  is_pairing C dims all ok p -> is_pairing C dims all ok q -> p = q.
Proof.
  intros (S1 & P1 & U1) (S2 & P2 & U2). apply sorted_pairs_ext; auto.
  intros [u [v|]].
  - rewrite P1, P2. reflexivity.
  - rewrite U1, U2. reflexivity.
Qed.
