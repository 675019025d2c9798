(** * Correctness of the reduction algorithms. *)

From Coq Require Import List Arith Lia Bool Permutation Sorted.
From Verif Require Import Base BaseFacts SpecMatrix Matrix ReductionFacts.
Import ListNotations.

Lemma foldM_seq_inv {St} (f : St -> nat -> outcome St) (P : nat -> St -> Prop) n :
  forall s st,
  (forall m st, s <= m < s + n -> P m st -> exists st', f st m = Ok st' /\ P (S m) st') ->
  P s st -> exists st', foldM f (seq s n) st = Ok st' /\ P (s + n) st'.
Proof.
  induction n; intros s st Hf Hp; simpl.
  - exists st. rewrite Nat.add_0_r. auto.
  - destruct (Hf s st) as (st1 & E & Hp1); auto; [lia|]. rewrite E. simpl.
    destruct (IHn (S s) st1) as (st2 & E2 & Hp2); auto.
    + intros; apply Hf; auto; lia.
    + exists st2. rewrite E2. replace (s + S n) with (S s + n) by lia. auto.
Qed.

(** downward loops *)
Lemma foldM_rev_seq_inv {St} (f : St -> nat -> outcome St) (P : nat -> St -> Prop) n :
  forall st,
  (forall m st, 1 <= m <= n -> P m st -> exists st', f st m = Ok st' /\ P (m - 1) st') ->
  P n st -> exists st', foldM f (rev (seq 1 n)) st = Ok st' /\ P 0 st'.
Proof.
  induction n; intros st Hf Hp.
  - exists st. auto.
  - rewrite seq_S, rev_app_distr. simpl.
    destruct (Hf (S n) st) as (st1 & E & Hp1); auto; [lia|]. rewrite E. simpl.
    replace (S n - 1) with n in Hp1 by lia.
    apply IHn; auto. intros; apply Hf; auto; lia.
Qed.

Lemma upd_upd {A} (l : list A) j a b : upd (upd l j a) j b = upd l j b.
Proof. revert j; induction l; destruct j; simpl; auto. f_equal; auto. Qed.

Lemma with_cols_cols M : with_cols M (cols M) = M.
Proof. destruct M; reflexivity. Qed.

Lemma upd_self {A} (l : list A) j a : nth_error l j = Some a -> upd l j a = l.
Proof.
  revert j; induction l; destruct j; simpl; intros H; try discriminate.
  - injection H as ->. auto.
  - f_equal; auto.
Qed.

Lemma lowof_lt R k i : lowof R k = Some i -> k < length R.
Proof.
  unfold lowof. intro H. destruct (lt_dec k (length R)); auto.
  rewrite nth_overflow in H by lia. discriminate.
Qed.

Lemma entry_square C r j : square C -> entry C r j = true -> r < length C /\ j < length C.
Proof.
  intros Hq H. destruct (lt_dec j (length C)).
  - split; auto. unfold entry in H. apply mem_In in H. eapply Hq; eauto. apply nth_In; auto.
  - rewrite entry_oob in H by lia. discriminate.
Qed.

Lemma sum_cols_ext C D S r : (forall k, In k S -> entry C r k = entry D r k) -> sum_cols C S r = sum_cols D S r.
Proof.
  induction S; simpl; intro H; auto. rewrite IHS, H; auto.
Qed.

Lemma lowof_upd_neq C j c k : k <> j -> lowof (upd C j c) k = lowof C k.
Proof.
  intro H. unfold lowof. f_equal.
  destruct (nth_error C k) eqn:E.
  - rewrite (nth_error_nth_default _ _ _ E).
    apply nth_error_nth_default. rewrite nth_error_upd_neq; auto.
  - apply nth_error_None in E. rewrite !nth_overflow; auto. rewrite upd_length; auto.
Qed.

Lemma lowof_upd_eq C j c : j < length C -> lowof (upd C j c) j = last_opt c.
Proof.
  intro H. unfold lowof. f_equal. apply nth_error_nth_default. apply nth_error_upd_eq; auto.
Qed.

Lemma sym_diff_low a b i :
  StronglySorted lt a -> StronglySorted lt b ->
  last_opt a = Some i -> last_opt b = Some i ->
  forall i', last_opt (sym_diff a b) = Some i' -> i' < i.
Proof.
  intros Ha Hb La Lb i' L.
  apply last_is_low in La; auto. apply last_is_low in Lb; auto.
  apply last_is_low in L; [|apply sym_diff_sorted; auto].
  destruct La as [A1 A2], Lb as [B1 B2], L as [L1 _].
  rewrite mem_sym_diff in L1 by auto.
  destruct (lt_eq_lt_dec i' i) as [[H|H]|H]; auto.
  - subst. rewrite A1, B1 in L1. discriminate.
  - rewrite A2, B2 in L1 by auto. discriminate.
Qed.

(** ** one column *)
Lemma reduce_column_spec (Q : nat -> Prop) :
  forall fuel M t j,
  sorted_cols (cols M) -> square (cols M) -> length t = length (cols M) -> j < length (cols M) ->
  (forall i k, nth_error t i = Some (Some k) -> k <> j /\ lowof (cols M) k = Some i) ->
  (forall r, entry (cols M) r j = true -> Q r) ->
  (forall i k r, Q i -> nth_error t i = Some (Some k) -> entry (cols M) r k = true -> Q r) ->
  1 <= fuel -> (forall i, lowof (cols M) j = Some i -> i + 2 <= fuel) ->
  exists c S m,
    reduce_column fuel M t j = Ok (with_cols M (upd (cols M) j c), m) /\
    StronglySorted lt c /\ (forall r, In r c -> r < length (cols M) /\ Q r) /\
    last_opt c = m /\
    (forall i, m = Some i -> nth_error t i = Some None) /\
    (forall k, In k S -> exists i, Q i /\ nth_error t i = Some (Some k)) /\
    (forall r, mem r c = xorb (entry (cols M) r j) (sum_cols (cols M) S r)).
Proof.
  induction fuel as [|f IH]; intros M t j Hs Hq Hlt Hj Ht HQj HQ H1 Hf; [lia|].
  simpl. unfold getMaximumIndex, at_.
  destruct (nth_error_ex (cols M) j Hj) as [cj Ej]. rewrite Ej. simpl.
  assert (Hcj : StronglySorted lt cj) by (apply Hs; eapply nth_error_In; eauto).
  assert (Hent : forall r, entry (cols M) r j = mem r cj) by (intro; apply entry_nth; auto).
  assert (Hlow : lowof (cols M) j = last_opt cj).
  { unfold lowof. f_equal. apply nth_error_nth_default; auto. }
  destruct (last_opt cj) as [i|] eqn:El.
  - assert (Hi : i < length (cols M)).
    { eapply Hq; [eapply nth_error_In; eauto|]. apply last_opt_In; auto. }
    unfold get_. destruct (nth_error_ex t i) as [e Ee]; [lia|]. rewrite Ee. simpl.
    destruct e as [k|].
    + destruct (Ht _ _ Ee) as [Hkj Lk]. pose proof (lowof_lt _ _ _ Lk) as Hk.
      destruct (nth_error_ex (cols M) k Hk) as [ck Ek].
      assert (Hck : StronglySorted lt ck) by (apply Hs; eapply nth_error_In; eauto).
      assert (Lck : last_opt ck = Some i).
      { unfold lowof in Lk. rewrite (nth_error_nth_default _ _ _ Ek) in Lk. auto. }
      assert (HQi : Q i).
      { apply HQj. rewrite Hent. apply mem_In, last_opt_In; auto. }
      unfold addColumns, at_. rewrite Ek, Ej. simpl.
      set (M' := with_cols M (upd (cols M) j (sym_diff ck cj))).
      assert (Hs' : StronglySorted lt (sym_diff ck cj)) by (apply sym_diff_sorted; auto).
      assert (Hent' : forall r, entry (cols M') r j = xorb (mem r ck) (mem r cj)).
      { intro r. unfold M'. simpl. rewrite entry_upd, Nat.eqb_refl.
        destruct (Nat.ltb_spec j (length (cols M))); [|lia]. simpl. apply mem_sym_diff; auto. }
      assert (Hentk : forall r x, x <> j -> entry (cols M') r x = entry (cols M) r x).
      { intros r x Hx. unfold M'. simpl. rewrite entry_upd.
        destruct (Nat.eqb_spec x j); [easy|]. reflexivity. }
      destruct (IH M' t j) as (c & S & m & E & Sc & Bc & Lc & Tn & TS & Ec).
      * unfold M'; simpl. apply sorted_cols_upd; auto.
      * unfold M'; simpl. apply square_upd; auto. intros r Hr.
        apply sym_diff_incl in Hr. destruct Hr as [Hr|Hr]; eapply Hq; try exact Hr; eapply nth_error_In; eauto.
      * unfold M'; simpl. rewrite upd_length; auto.
      * unfold M'; simpl. rewrite upd_length; auto.
      * intros i0 k0 H0. destruct (Ht _ _ H0) as [Ha Hb]. split; auto.
        unfold M'; simpl. rewrite lowof_upd_neq; auto.
      * intros r Hr. rewrite Hent' in Hr.
        destruct (mem r cj) eqn:Er; [apply HQj; rewrite Hent; auto|].
        apply (HQ i k r); auto. rewrite (entry_nth _ _ _ _ Ek). destruct (mem r ck); auto.
      * intros i0 k0 r Hi0 H0 Hr. apply (HQ i0 k0 r); auto.
        rewrite Hentk in Hr; auto. apply Ht in H0. tauto.
      * specialize (Hf i Hlow). lia.
      * intros i' Hi'. unfold M' in Hi'. simpl in Hi'. rewrite lowof_upd_eq in Hi' by auto.
        pose proof (sym_diff_low _ _ _ Hck Hcj Lck El _ Hi'). specialize (Hf i Hlow). lia.
      * exists c, (k :: S), m. repeat split; auto.
        -- rewrite E. unfold M'. simpl. unfold with_cols. simpl. rewrite upd_upd. reflexivity.
        -- apply Bc in H. unfold M' in H. simpl in H. rewrite upd_length in H. tauto.
        -- apply Bc in H. tauto.
        -- intros k0 [<-|Hk0]; eauto.
        -- intro r. rewrite Ec, Hent', sum_cols_cons, Hent, (entry_nth _ _ _ _ Ek).
           rewrite (sum_cols_ext (cols M') (cols M)).
           ++ destruct (mem r ck), (mem r cj), (sum_cols (cols M) S r); auto.
           ++ intros x Hx. apply Hentk. destruct (TS x Hx) as (i0 & _ & H0). apply Ht in H0. tauto.
    + exists cj, [], (Some i). rewrite upd_self, with_cols_cols by auto.
      repeat split; auto.
      * eapply Hq; eauto. eapply nth_error_In; eauto.
      * apply HQj. rewrite Hent. apply mem_In; auto.
      * intros i0 [= <-]. auto.
      * easy.
      * intro r. rewrite Hent. simpl. destruct (mem r cj); auto.
  - exists cj, [], None. rewrite upd_self, with_cols_cols by auto.
    repeat split; auto.
    + eapply Hq; eauto. eapply nth_error_In; eauto.
    + apply HQj. rewrite Hent. apply mem_In; auto.
    + intros i0 [=].
    + easy.
    + intro r. rewrite Hent. simpl. destruct (mem r cj); auto.
Qed.

Lemma column_fuel_ok M j : j < length (cols M) ->
  1 <= column_fuel M j /\ forall i, lowof (cols M) j = Some i -> i + 2 <= column_fuel M j.
Proof.
  intro Hj. unfold column_fuel. destruct (nth_error_ex (cols M) j Hj) as [c E]. rewrite E.
  unfold lowof. rewrite (nth_error_nth_default _ _ _ E).
  destruct (last_opt c); split; try lia; intros i' [= <-]; lia.
Qed.

(** ** column equivalence *)
Lemma col_equiv_refl C : col_equiv C C.
Proof.
  split; auto. intros j Hj. exists []. split; [easy|]. intro r. simpl. destruct (entry C r j); auto.
Qed.

(** columns of R are combinations of columns of C up to the same index *)
Lemma col_equiv_sum C R j S :
  col_equiv C R -> j <= length C -> (forall k, In k S -> k < j) ->
  exists T, (forall k, In k T -> k < j) /\ forall r, sum_cols R S r = sum_cols C T r.
Proof.
  intros [HL HC] Hj. induction S as [|a S IH]; intro HS.
  - exists []. split; [easy|auto].
  - destruct IH as (T & HT & ET). { intros; apply HS; simpl; auto. }
    assert (Ha : a < j) by (apply HS; simpl; auto).
    destruct (HC a) as (U & HU & EU); [lia|].
    exists (a :: U ++ T). split.
    + intros k [<-|Hk]; auto. apply in_app_or in Hk. destruct Hk as [Hk|Hk]; auto. apply HU in Hk. lia.
    + intro r. rewrite !sum_cols_cons, sum_cols_app, ET, EU.
      destruct (entry C r a), (sum_cols C U r), (sum_cols C T r); auto.
Qed.

Lemma coset_add C R j S x :
  col_equiv C R -> j < length C -> (forall k, In k S -> k < j) ->
  (forall r, x r = xorb (entry R r j) (sum_cols R S r)) -> coset C j x.
Proof.
  intros HE Hj HS Ex. destruct (col_equiv_sum C R j S HE) as (T & HT & ET); auto; [lia|].
  destruct (proj2 HE j Hj) as (U & HU & EU).
  exists (U ++ T). split.
  - intros k Hk. apply in_app_or in Hk. destruct Hk; auto.
  - intro r. rewrite Ex, ET, EU, sum_cols_app.
    destruct (entry C r j), (sum_cols C U r), (sum_cols C T r); auto.
Qed.

Lemma col_equiv_upd C R j c :
  col_equiv C R -> j < length C -> coset C j (fun r => mem r c) -> col_equiv C (upd R j c).
Proof.
  intros [HL HC] Hj Hc. split; [rewrite upd_length; auto|].
  intros k Hk. destruct (Nat.eq_dec k j) as [->|Hne].
  - destruct Hc as (S & HS & E). exists S. split; auto. intro r.
    rewrite entry_upd, Nat.eqb_refl. destruct (Nat.ltb_spec j (length R)); [|lia]. simpl. apply E.
  - destruct (HC k Hk) as (S & HS & E). exists S. split; auto. intro r.
    rewrite entry_upd. destruct (Nat.eqb_spec k j); [easy|]. simpl. apply E.
Qed.

(** what the lookup table says determines that processed columns have distinct lows *)
Definition lut_ok (R : list (list nat)) (t : lut) (processed : nat -> Prop) : Prop :=
  length t = length R /\
  forall i k, nth_error t i = Some (Some k) <-> (processed k /\ lowof R k = Some i).

Lemma lut_distinct R t P k k' i :
  lut_ok R t P -> P k -> P k' -> lowof R k = Some i -> lowof R k' = Some i -> k = k'.
Proof.
  intros [_ H] Pk Pk' L L'.
  assert (E1 : nth_error t i = Some (Some k)) by (apply H; auto).
  assert (E2 : nth_error t i = Some (Some k')) by (apply H; auto).
  congruence.
Qed.

Lemma nth_error_repeat_some {A} (a x : A) n i : nth_error (repeat a n) i = Some x -> x = a.
Proof. intro H. apply nth_error_In in H. eapply repeat_spec; eauto. Qed.

(** ** Standard *)
Definition std_inv (C : list (list nat)) (M0 : matrix) (m : nat) (st : matrix * lut) : Prop :=
  let '(M, t) := st in
  dims M = dims M0 /\ dualized M = dualized M0 /\
  sorted_cols (cols M) /\ square (cols M) /\ col_equiv C (cols M) /\
  (forall j, m <= j -> nth_error (cols M) j = nth_error C j) /\
  lut_ok (cols M) t (fun k => k < m).

Lemma standard_step_spec C M0 m st :
  m < length C -> std_inv C M0 m st ->
  exists st', standard_step st m = Ok st' /\ std_inv C M0 (S m) st'.
Proof.
  destruct st as [M t]. intros Hm (Hd & Hdu & Hs & Hq & HE & Hrest & Hlut).
  pose proof HE as [HL _]. pose proof Hlut as [Hlt Ht].
  unfold standard_step.
  destruct (column_fuel_ok M m) as [F1 F2]; [lia|].
  destruct (reduce_column_spec (fun _ => True) (column_fuel M m) M t m)
    as (c & S & o & E & Sc & Bc & Lc & Tn & TS & Ec); auto; try lia.
  { intros i k H. apply Ht in H. split; [lia|tauto]. }
  rewrite E. simpl.
  assert (HS : forall k, In k S -> k < m).
  { intros k Hk. destruct (TS k Hk) as (i & _ & Hi). apply Ht in Hi. tauto. }
  assert (HE' : col_equiv C (upd (cols M) m c)).
  { apply col_equiv_upd; auto. eapply coset_add; eauto. }
  assert (Hcommon : forall t', (forall i k, nth_error t' i = Some (Some k) <->
                       k < Datatypes.S m /\ lowof (upd (cols M) m c) k = Some i) -> length t' = length t ->
            std_inv C M0 (Datatypes.S m) (with_cols M (upd (cols M) m c), t')).
  { intros t' H' Hl. unfold std_inv. simpl. repeat split; auto; try apply HE'.
    - apply sorted_cols_upd; auto.
    - apply square_upd; auto. intros r Hr. apply Bc; auto.
    - intros j Hj. rewrite nth_error_upd_neq by lia. apply Hrest. lia.
    - rewrite upd_length; lia.
    - apply H' in H. destruct H. lia.
    - apply H' in H. tauto.
    - intros [? ?]; apply H'; auto. }
  destruct o as [i|].
  - eexists. split; [reflexivity|]. apply Hcommon; [|apply upd_length].
    intros i' k. rewrite nth_error_upd.
    assert (Hi : i < length t).
    { rewrite Hlt. apply Bc. apply last_opt_In; auto. }
    destruct (Nat.eqb_spec i i').
    + subst i'. destruct (Nat.ltb_spec i (length t)); [|lia]. simpl. split.
      * intros [= <-]. split; auto. rewrite lowof_upd_eq by lia. auto.
      * intros [Hk Hl]. destruct (Nat.eq_dec k m); [congruence|].
        rewrite lowof_upd_neq in Hl by auto.
        assert (nth_error t i = Some (Some k)) by (apply Ht; split; auto; lia).
        rewrite (Tn i eq_refl) in H0. discriminate.
    + simpl. rewrite Ht. split.
      * intros [Hk Hl]. split; auto. rewrite lowof_upd_neq by lia. auto.
      * intros [Hk Hl]. destruct (Nat.eq_dec k m) as [->|].
        -- rewrite lowof_upd_eq in Hl by lia. congruence.
        -- rewrite lowof_upd_neq in Hl by auto. split; auto. lia.
  - eexists. split; [reflexivity|]. apply Hcommon; auto.
    intros i' k. rewrite Ht. split.
    + intros [Hk Hl]. split; auto. rewrite lowof_upd_neq by lia. auto.
    + intros [Hk Hl]. destruct (Nat.eq_dec k m) as [->|].
      * rewrite lowof_upd_eq in Hl by lia. congruence.
      * rewrite lowof_upd_neq in Hl by auto. split; auto. lia.
Qed.

Lemma lut_init R n P : length R = n -> (forall k, ~ P k) -> lut_ok R (repeat None n) P.
Proof.
  intros HL HP. split; [rewrite repeat_length; auto|].
  intros i k. split.
  - intro H. apply nth_error_repeat_some in H. discriminate.
  - intros [H _]. exfalso. eapply HP; eauto.
Qed.

Lemma lut_reduced R t : sorted_cols R -> lut_ok R t (fun k => k < length R) -> reduced R.
Proof.
  intros Hs Hl j k i Hj Hk Hne L1 L2. apply Hne.
  apply lowof_some in L1, L2; auto.
  eapply lut_distinct; eauto.
Qed.

(** Result of a correct reduction of [M]. *)
Definition reduction_of (M R : matrix) : Prop :=
  dims R = dims M /\ dualized R = dualized M /\
  sorted_cols (cols R) /\ square (cols R) /\
  col_equiv (cols M) (cols R) /\ reduced (cols R).

Theorem standard_correct M :
  sorted_cols (cols M) -> square (cols M) ->
  exists R, standard M = Ok R /\ reduction_of M R.
Proof.
  intros Hs Hq. unfold standard, getNumColumns.
  destruct (foldM_seq_inv standard_step (std_inv (cols M) M) (length (cols M)) 0
              (M, repeat None (length (cols M)))) as ([R t] & E & Inv).
  - intros m st Hm. apply standard_step_spec. lia.
  - refine (conj eq_refl (conj eq_refl (conj Hs (conj Hq (conj (col_equiv_refl _)
              (conj (fun _ _ => eq_refl) _)))))).
    apply lut_init; auto. intros k Hk. lia.
  - rewrite E. simpl. exists R. split; auto.
    destruct Inv as (Hd & Hdu & Hs' & Hq' & HE & _ & Hl).
    repeat split; auto; try apply HE.
    eapply lut_reduced; eauto. simpl in Hl. destruct HE as [HL _]. rewrite HL. exact Hl.
Qed.

Theorem standard_low M R :
  sorted_cols (cols M) -> square (cols M) -> standard M = Ok R ->
  forall j, j < length (cols M) -> min_low (cols M) j (lowof (cols R) j).
Proof.
  intros Hs Hq E. destruct (standard_correct M Hs Hq) as (R' & E' & (_ & _ & HsR & _ & HE & HR)).
  rewrite E in E'. injection E' as <-. apply lowof_min_low; auto.
Qed.

(** ** Twist *)

(** If a combination of columns squares to zero and [c] is such a combination
    with lowest entry [i], then column [i] can be made zero. *)
Lemma cycle_low_zero C j c i :
  (forall k r, sum_cols C (nth k C []) r = false) ->
  sorted_cols C ->
  StronglySorted lt c -> last_opt c = Some i ->
  coset C j (fun r => mem r c) ->
  coset C i (fun _ => false).
Proof.
  intros Hsq HsC Hc Hl (S & HS & E).
  (* sum over the elements of c of the columns is zero *)
  assert (Hz : forall r, sum_cols C c r = false).
  { intro r.
    (* sum_cols C l r is additive in the indicator of l for sorted l *)
    assert (Hadd : forall l, StronglySorted lt l -> forall B, (forall x, In x l -> x < B) ->
               sum_cols C l r = bigx (fun x => entry C r x && mem x l) (seq 0 B)).
    { intros l Hsl B HB.
      assert (HnB : NoDup (seq 0 B)) by apply seq_NoDup.
      assert (Hin : forall x, In x l -> In x (seq 0 B)) by (intros x Hx; apply in_seq; specialize (HB x Hx); lia).
      clear HB. revert Hin HnB. generalize (seq 0 B).
      apply SSlt_NoDup in Hsl.
      induction l as [|a l IH]; intros s Hin Hn.
      - simpl. symmetry. apply bigx_zero. intros. apply andb_false_r.
      - inversion Hsl; subst. simpl.
        rewrite (IH H2 s); [|intros; apply Hin; simpl; auto|auto].
        assert (Ha : In a s) by (apply Hin; simpl; auto).
        clear - Ha Hn H1.
        induction s as [|b s IHs]; [easy|].
        inversion Hn as [|? ? Hnb HnS]; subst. rewrite !bigx_cons. simpl mem.
        destruct (Nat.eq_dec b a) as [->|Hne].
        + rewrite Nat.eqb_refl. simpl.
          assert (Em : mem a l = false) by (apply mem_false; auto). rewrite Em.
          rewrite andb_false_r, andb_true_r, xorb_false_l. f_equal.
          assert (Eq : forall x, In x s -> (x =? a) = false).
          { intros x Hx. apply Nat.eqb_neq. intros ->. easy. }
          clear - Eq. induction s as [|y s IH]; auto. rewrite !bigx_cons.
          rewrite (Eq y) by (simpl; auto). simpl. f_equal. apply IH. intros; apply Eq; simpl; auto.
        + destruct Ha as [->|Ha]; [easy|].
          destruct (Nat.eqb_spec b a); [easy|]. simpl.
          rewrite <- (IHs HnS Ha).
          destruct (entry C r a), (entry C r b && mem b l),
            (bigx (fun x => entry C r x && mem x l) s); auto. }
    set (B := 1 + list_max (c ++ flat_map (fun x => x) C)).
    assert (HB : forall x, In x (c ++ flat_map (fun x => x) C) -> x < B).
    { intros x Hx. unfold B.
      pose proof (proj1 (list_max_le (c ++ flat_map (fun x => x) C) _) (le_n _)) as F.
      rewrite Forall_forall in F. apply F in Hx. lia. }
    rewrite (Hadd c Hc B) by (intros; apply HB, in_or_app; auto).
    (* indicator of c is the sum of indicators of columns j :: S *)
    assert (Hcol : forall k, bigx (fun x => entry C r x && entry C x k) (seq 0 B) = false).
    { intro k. rewrite <- (Hsq k r). symmetry.
      rewrite (Hadd (nth k C [])) with (B := B).
      - reflexivity.
      - apply nth_sorted; auto.
      - intros x Hx. apply HB, in_or_app. right. apply in_flat_map. exists (nth k C []). split; auto.
        destruct (lt_dec k (length C)); [apply nth_In; auto|]. rewrite nth_overflow in Hx by lia. easy. }
    assert (Hsum : forall U, bigx (fun x => entry C r x && sum_cols C U x) (seq 0 B) = false).
    { induction U as [|u U IHU].
      - apply bigx_zero. intros. simpl. apply andb_false_r.
      - rewrite <- (xorb_false_r false). rewrite <- IHU at 1. rewrite <- (Hcol u).
        rewrite <- bigx_linear.
        assert (Eq : forall s, bigx (fun x => entry C r x && sum_cols C (u :: U) x) s =
                  bigx (fun k => xorb (entry C r k && sum_cols C U k) (entry C r k && entry C k u)) s).
        { induction s; auto. rewrite !bigx_cons, IHs, sum_cols_cons. f_equal.
          destruct (entry C r a), (entry C a u), (sum_cols C U a); auto. }
        apply Eq. }
    rewrite <- (Hsum (j :: S)).
    clear - E. induction (seq 0 B) as [|y s IH]; auto. rewrite !bigx_cons, IH. f_equal.
    rewrite E. reflexivity. }
  (* split off i *)
  exists (filter (fun x => negb (x =? i)) c). split.
  - intros k Hk. apply filter_In in Hk. destruct Hk as [Hk Hne].
    apply negb_true_iff, Nat.eqb_neq in Hne.
    pose proof (last_opt_max _ _ Hc Hl _ Hk). lia.
  - intro r. rewrite sum_cols_remove.
    + rewrite Hz. destruct (entry C r i); auto.
    + apply SSlt_NoDup; auto.
    + apply last_opt_In; auto.
Qed.

Definition dimof (M : matrix) (j : nat) : nat := nth j (dims M) 0.

(** state of the loop over [j] in the pass for dimension [d] after [m] columns *)
Definition twist_inv (M0 : matrix) (d m : nat) (st : matrix * lut) : Prop :=
  let '(M, t) := st in
  let C := cols M0 in
  dims M = dims M0 /\ dualized M = dualized M0 /\
  sorted_cols (cols M) /\ square (cols M) /\ col_equiv C (cols M) /\
  (forall j r, entry (cols M) r j = true -> S (dimof M0 r) = dimof M0 j) /\
  lut_ok (cols M) t (fun k => k < length C /\ (d < dimof M0 k \/ (dimof M0 k = d /\ k < m))).

Lemma valid_square M : valid_boundary (cols M) (dims M) -> square (cols M).
Proof.
  intros (HL & Hs & Hg & Hz) c r Hc Hr.
  destruct (In_nth_error _ _ Hc) as [j Ej].
  destruct (Hg j r) as [H _].
  - rewrite (entry_nth _ _ _ _ Ej). apply mem_In; auto.
  - pose proof (nth_error_lt _ _ _ Ej). lia.
Qed.

Ltac conj7 := refine (conj _ (conj _ (conj _ (conj _ (conj _ (conj _ (conj _ _))))))); simpl.

Lemma twist_step_spec M0 d m st :
  valid_boundary (cols M0) (dims M0) ->
  m < length (cols M0) -> twist_inv M0 d m st ->
  exists st', twist_step d st m = Ok st' /\ twist_inv M0 d (S m) st'.
Proof.
  intro HV. pose proof HV as (HLd & HsC & Hg & Hz).
  destruct st as [M t]. intros Hm (Hd & Hdu & Hs & Hq & HE & Hgr & Hlut).
  pose proof HE as [HL _]. pose proof Hlut as [Hlt Ht].
  unfold twist_step, getDimension, at_. rewrite Hd.
  destruct (nth_error_ex (dims M0) m) as [dm Edm]; [lia|]. rewrite Edm. simpl.
  assert (Hdm : dimof M0 m = dm) by (apply nth_error_nth; auto).
  destruct (Nat.eqb_spec dm d) as [->|Hne].
  2: { (* other dimension: nothing happens *)
    eexists. split; [reflexivity|]. conj7; auto.
    intros i k. rewrite Ht. split.
    - intros [[Hk H] Hl]. split; auto. split; auto. lia.
    - intros [[Hk H] Hl]. split; auto. split; auto.
      destruct H as [H|[H1 H2]]; auto. destruct (Nat.eq_dec k m).
      + subst k. lia.
      + right. split; auto. lia. }
  destruct (column_fuel_ok M m) as [F1 F2]; [lia|].
  destruct (reduce_column_spec (fun i => S (dimof M0 i) = d) (column_fuel M m) M t m)
    as (c & S & o & E & Sc & Bc & Lc & Tn & TS & Ec); auto; try lia.
  { intros i k H. apply Ht in H. destruct H as [[Hk H] Hl]. split; auto.
    intros ->. destruct H as [H|[_ H]]; lia. }
  { intros r Hr. apply Hgr in Hr. lia. }
  { intros i k r Hi H Hr. apply Hgr in Hr.
    apply Ht in H. destruct H as [_ Hl]. apply lowof_some in Hl; auto.
    destruct Hl as [Hl _]. apply Hgr in Hl. lia. }
  rewrite E. simpl.
  (* columns added are to the left and of dimension d *)
  assert (HS : forall k, In k S -> k < m).
  { intros k Hk. destruct (TS k Hk) as (i & Hi & H). apply Ht in H. destruct H as [[Hk' H] Hl].
    apply lowof_some in Hl; auto. destruct Hl as [Hl _]. apply Hgr in Hl.
    destruct H as [H|[_ H]]; lia. }
  assert (Hcos : coset (cols M0) m (fun r => mem r c)) by (eapply coset_add; eauto).
  assert (HE' : col_equiv (cols M0) (upd (cols M) m c)) by (apply col_equiv_upd; auto).
  assert (Hgr' : forall j r, entry (upd (cols M) m c) r j = true -> Datatypes.S (dimof M0 r) = dimof M0 j).
  { intros j r. rewrite entry_upd. destruct (Nat.eqb_spec j m) as [->|]; simpl; [|apply Hgr].
    destruct (Nat.ltb_spec m (length (cols M))); [|lia].
    intro Hr. apply mem_In, Bc in Hr. lia. }
  destruct o as [i|].
  - assert (Hi : i < length (cols M) /\ Datatypes.S (dimof M0 i) = d).
    { apply Bc. apply last_opt_In; auto. }
    destruct Hi as [Hi Hid].
    assert (Him : i <> m) by (intros ->; lia).
    unfold clearColumn, at_. simpl.
    destruct (nth_error_ex (upd (cols M) m c) i) as [ci Eci]; [rewrite upd_length; lia|].
    rewrite Eci. simpl. eexists. split; [reflexivity|].
    unfold twist_inv. simpl.
    assert (Hclear : coset (cols M0) i (fun r => mem r [])).
    { destruct (cycle_low_zero (cols M0) m c i) as (U & HU & EU); auto.
      exists U. split; auto. }
    assert (Hlow : forall k, k <> i -> k <> m -> lowof (upd (upd (cols M) m c) i []) k = lowof (cols M) k).
    { intros k H1 H2. rewrite !lowof_upd_neq by auto. auto. }
    assert (Hlowm : lowof (upd (upd (cols M) m c) i []) m = Some i).
    { rewrite lowof_upd_neq by auto. rewrite lowof_upd_eq by lia. auto. }
    assert (Hlowi : lowof (upd (upd (cols M) m c) i []) i = None).
    { rewrite lowof_upd_eq by (rewrite upd_length; lia). reflexivity. }
    conj7; auto.
    + apply sorted_cols_upd; [apply sorted_cols_upd; auto|constructor].
    + apply square_upd; [apply square_upd; auto|easy]. intros r Hr. apply Bc; auto.
    + apply col_equiv_upd; auto. lia.
    + intros j r. rewrite entry_upd. destruct (Nat.eqb_spec j i) as [->|]; simpl; [|apply Hgr'].
      destruct (Nat.ltb_spec i (length (upd (cols M) m c))); [discriminate|apply Hgr'].
    + rewrite !upd_length; auto.
    + intros i0 k. rewrite nth_error_upd. destruct (Nat.ltb_spec i (length t)); [|lia].
      rewrite andb_true_r. split.
      * intro H0. destruct (Nat.eqb_spec i i0).
        -- injection H0 as <-. subst i0. split; auto.
        -- apply Ht in H0. destruct H0 as [[Hk H0] H3].
           split; [split; auto; lia|]. rewrite Hlow; auto; intros ->; lia.
      * intros [[Hk H0] Hl].
        destruct (Nat.eq_dec k m) as [->|Hkm].
        -- rewrite Hlowm in Hl. injection Hl as <-. rewrite Nat.eqb_refl. auto.
        -- destruct (Nat.eq_dec k i) as [->|Hki]; [congruence|].
           rewrite Hlow in Hl by auto.
           assert (Hn : nth_error t i0 = Some (Some k)).
           { apply Ht. split; auto. split; auto. lia. }
           destruct (Nat.eqb_spec i i0); auto. subst i0.
           rewrite (Tn i eq_refl) in Hn. discriminate.
  - eexists. split; [reflexivity|]. conj7; auto.
    + apply sorted_cols_upd; auto.
    + apply square_upd; auto. intros r Hr. apply Bc; auto.
    + rewrite upd_length; auto.
    + intros i0 k. rewrite Ht. split.
      * intros [[Hk H] H3]. split; [split; auto; lia|]. rewrite lowof_upd_neq; auto. intros ->; lia.
      * intros [[Hk H] Hl]. destruct (Nat.eq_dec k m) as [->|Hkm].
        -- rewrite lowof_upd_eq in Hl by lia. congruence.
        -- rewrite lowof_upd_neq in Hl by auto. split; auto. split; auto. lia.
Qed.

Lemma list_max_fold l : fold_right Nat.max 0 l = list_max l.
Proof. reflexivity. Qed.

Lemma getMaxDimension_ge M j : dimof M j <= getMaxDimension M.
Proof.
  unfold dimof, getMaxDimension. destruct (lt_dec j (length (dims M))).
  - pose proof (proj1 (list_max_le (dims M) (list_max (dims M))) (le_n _)) as F.
    rewrite Forall_forall in F. apply F. apply nth_In; auto.
  - rewrite nth_overflow by lia. lia.
Qed.

Theorem twist_correct M :
  valid_boundary (cols M) (dims M) ->
  exists R, twist M = Ok R /\ reduction_of M R.
Proof.
  intros HV. pose proof HV as (HLd & HsC & Hg & Hz). pose proof (valid_square M HV) as Hq.
  unfold twist, getNumColumns.
  destruct (foldM_rev_seq_inv (twist_dim (length (cols M)))
              (fun d st => twist_inv M d 0 st) (getMaxDimension M)
              (M, repeat None (length (cols M)))) as ([R t] & E & Inv).
  - intros d st Hd Hst. unfold twist_dim.
    destruct (foldM_seq_inv (twist_step d) (twist_inv M d) (length (cols M)) 0 st) as (st' & E & Inv); auto.
    + intros m st0 Hm. apply twist_step_spec; auto. lia.
    + exists st'. split; auto. destruct st' as [M' t'].
      destruct Inv as (I1 & I2 & I3 & I4 & I5 & I6 & [I7 I8]).
      conj7; auto. intros i k. rewrite I8. split.
      * intros [[Hk H] H3]. split; auto. split; auto. lia.
      * intros [[Hk H] Hl]. split; auto. split; auto. lia.
  - conj7; auto.
    + apply col_equiv_refl.
    + intros j r Hr. apply Hg in Hr. tauto.
    + apply repeat_length.
    + intros i k. split; intro H.
      * apply nth_error_repeat_some in H. discriminate.
      * destruct H as [[Hk H] Hl]. pose proof (getMaxDimension_ge M k). lia.
  - rewrite E. simpl. exists R. split; auto.
    destruct Inv as (I1 & I2 & I3 & I4 & I5 & I6 & Hl).
    repeat split; auto; try apply I5.
    intros j k i Hj Hk Hne L1 L2. apply Hne.
    assert (Hdim : forall x, is_low (fun r => entry (cols R) r x) i -> 0 < dimof M x).
    { intros x [H _]. apply I6 in H. lia. }
    pose proof (Hdim _ L1). pose proof (Hdim _ L2).
    destruct I5 as [HL _].
    apply lowof_some in L1, L2; auto.
    eapply lut_distinct; eauto; simpl; split; try lia; auto.
Qed.

(** ** StandardRectangular agrees with Standard on square matrices *)
Lemma rectangular_step_spec C M0 m st :
  m < length C -> std_inv C M0 m st ->
  exists st', rectangular_step (length C) st m = Ok st' /\ std_inv C M0 (S m) st'.
Proof.
  intros Hm Hi. destruct (standard_step_spec C M0 m st Hm Hi) as (st' & E & Hi').
  destruct st as [M t]. unfold rectangular_step.
  destruct Hi as (Hd & Hdu & Hs & Hq & HE & Hrest & Hlut). pose proof HE as [HL _].
  unfold getMaximumIndex, at_. destruct (nth_error_ex (cols M) m) as [c Ec]; [lia|]. rewrite Ec.
  cbn [bind].
  destruct (Nat.leb_spec (length C) (match last_opt c with Some i => i | None => 0 end)).
  - exfalso. destruct (last_opt c) eqn:El; [|lia].
    apply last_opt_In in El. pose proof (Hq c n (nth_error_In _ _ Ec) El). lia.
  - exists st'. auto.
Qed.

Theorem rectangular_correct M :
  sorted_cols (cols M) -> square (cols M) ->
  exists R, standard_rectangular M = Ok R /\ reduction_of M R.
Proof.
  intros Hs Hq. unfold standard_rectangular, getNumColumns.
  destruct (foldM_seq_inv (rectangular_step (length (cols M))) (std_inv (cols M) M) (length (cols M)) 0
              (M, repeat None (length (cols M)))) as ([R t] & E & Inv).
  - intros m st Hm. apply rectangular_step_spec. lia.
  - refine (conj eq_refl (conj eq_refl (conj Hs (conj Hq (conj (col_equiv_refl _)
              (conj (fun _ _ => eq_refl) _)))))).
    apply lut_init; auto. intros k Hk. lia.
  - rewrite E. simpl. exists R. split; auto.
    destruct Inv as (Hd & Hdu & Hs' & Hq' & HE & _ & Hl).
    repeat split; auto; try apply HE.
    eapply lut_reduced; eauto. simpl in Hl. destruct HE as [HL _]. rewrite HL. exact Hl.
Qed.
