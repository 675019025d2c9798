(** * Floyd-Warshall: loops, distances over restricted interiors. *)
From Coq Require Import List Arith Bool ZArith Lia.
From Verif Require Import Base BaseFacts Simplex SymmetricMatrix PropertiesSmall FloydWarshall.
Import ListNotations.

Lemma foldM_ind {A B} (f : A -> B -> outcome A) (P : nat -> A -> Prop) l a : P 0 a ->
  (forall i b a, nth_error l i = Some b -> P i a -> exists a', f a b = Ok a' /\ P (S i) a') ->
  exists a', foldM f l a = Ok a' /\ P (length l) a'.
Proof.
  revert P a. induction l as [|b l IH]; intros P a H0 HS; cbn [foldM length].
  - eauto.
  - destruct (HS 0 b a eq_refl H0) as (a1 & E & H1). rewrite E. cbn [bind].
    apply (IH (fun i => P (S i))); [exact H1|]. intros i c a' Hc Ha. apply (HS (S i)); auto.
Qed.

Definition ext_min (a b : ext) : ext := if ext_gtb a b then b else a.
Definition ext_le (a b : ext) : Prop :=
  match a, b with Fin x, Fin y => (x <= y)%Z | _, Inf => True | Inf, Fin _ => False end.

Lemma ext_min_le_l a b : ext_le (ext_min a b) a.
Proof. unfold ext_min. destruct a as [x|], b as [y|]; simpl; auto; [|lia]. destruct (Z.ltb_spec y x); simpl; lia. Qed.
Lemma ext_min_le_r a b : ext_le (ext_min a b) b.
Proof. unfold ext_min. destruct a as [x|], b as [y|]; simpl; auto; [|lia]. destruct (Z.ltb_spec y x); simpl; lia. Qed.
Lemma ext_min_cases a b : ext_min a b = a \/ ext_min a b = b.
Proof. unfold ext_min. destruct (ext_gtb a b); auto. Qed.
Lemma ext_le_trans a b c : ext_le a b -> ext_le b c -> ext_le a c.
Proof. destruct a, b, c; simpl; try easy. lia. Qed.
Lemma ext_min_same a : ext_min a (ext_add a (Fin 0)) = a.
Proof. unfold ext_min. destruct a; simpl; auto. rewrite Z.add_0_r, Z.ltb_irrefl. auto. Qed.
Lemma ext_min_same' a : ext_min a (ext_add (Fin 0) a) = a.
Proof. unfold ext_min. destruct a; simpl; auto. rewrite Z.ltb_irrefl. auto. Qed.

Section Loops.
  Variable n : nat.

  Definition rep (M : symmetric ext) (f : nat -> nat -> ext) : Prop :=
    sm_made (Fin 0) M /\ sm_rows M = n /\ forall a b, a < n -> b < n -> sm_get M a b = Ok (f a b).

  Lemma rep_sym M f a b : rep M f -> a < n -> b < n -> f a b = f b a.
  Proof.
    intros (H1 & H2 & H3) Ha Hb. destruct (C33_symmetric_storage _ _ M H1) as (S1 & _).
    destruct (S1 a b ltac:(lia) ltac:(lia)) as (x & E1 & E2). rewrite H3 in E1, E2 by auto. congruence.
  Qed.

  Definition upd2 (f : nat -> nat -> ext) (i j : nat) (x : ext) (a b : nat) : ext :=
    if (a =? i) && (b =? j) || (a =? j) && (b =? i) then x else f a b.

  Lemma rep_set M f i j x : rep M f -> i < n -> j < n -> exists M', sm_set M i j x = Ok M' /\ rep M' (upd2 f i j x).
  Proof.
    intros (H1 & H2 & H3) Hi Hj. destruct (C33_symmetric_storage _ _ M H1) as (_ & _ & S3 & _).
    destruct (S3 i j x ltac:(lia) ltac:(lia)) as (M' & E & R & G). exists M'. split; auto.
    split; [econstructor; eauto|]. split; [congruence|]. intros a b Ha Hb. destruct (G a b ltac:(lia) ltac:(lia)) as [G1 G2].
    unfold upd2. destruct (Nat.eqb_spec a i), (Nat.eqb_spec b j), (Nat.eqb_spec a j), (Nat.eqb_spec b i); cbn [andb orb];
      first [apply G1; tauto|rewrite G2, H3 by tauto; reflexivity].
  Qed.

  Lemma upd2_same f i j x : upd2 f i j x i j = x.
  Proof. unfold upd2. rewrite !Nat.eqb_refl. auto. Qed.
  Lemma upd2_other f i j x a b : i < j -> a <= b -> ~ (a = i /\ b = j) -> upd2 f i j x a b = f a b.
  Proof.
    intros H H1 H2. unfold upd2. destruct (Nat.eqb_spec a i), (Nat.eqb_spec b j), (Nat.eqb_spec a j), (Nat.eqb_spec b i); simpl; auto; lia.
  Qed.

  Section Stage.
    Variable f : nat -> nat -> ext.
    Variable k : nat.
    Hypothesis Hk : k < n.
    Hypothesis Hsym : forall a b, a < n -> b < n -> f a b = f b a.
    Hypothesis Hdiag : forall a, a < n -> f a a = Fin 0.

    Definition relaxed (a b : nat) : ext := ext_min (f a b) (ext_add (f a k) (f k b)).
    (** rows before [i] and the columns before [j] of row [i] are done *)
    Definition stage_state (i j : nat) (M : symmetric ext) : Prop := exists g, rep M g /\
      (forall a, a < n -> g a a = Fin 0) /\
      forall a b, a < b -> b < n -> g a b = if (a <? i) || (a =? i) && (b <? j) then relaxed a b else f a b.

    Lemma stage_fixed i j M g : rep M g -> (forall a, a < n -> g a a = Fin 0) ->
      (forall a b, a < b -> b < n -> g a b = if (a <? i) || (a =? i) && (b <? j) then relaxed a b else f a b) ->
      forall a, a < n -> g a k = f a k /\ g k a = f k a.
    Proof.
      intros HM Hd Hg a Ha. assert (E : g a k = f a k).
      { destruct (lt_eq_lt_dec a k) as [[H|H]|H].
        - rewrite Hg by auto. unfold relaxed. rewrite Hdiag, ext_min_same by auto. destruct ((a <? i) || _); auto.
        - subst a. rewrite Hd, Hdiag; auto.
        - rewrite (rep_sym M g a k HM), Hg, (Hsym a k) by auto. unfold relaxed. rewrite Hdiag, ext_min_same' by auto.
          destruct ((k <? i) || _); auto. }
      split; auto. rewrite (rep_sym M g k a HM), Hsym by auto. auto.
    Qed.

    Lemma relax_step i j M : i < j -> j < n -> stage_state i j M -> exists M', fw_relax k i M j = Ok M' /\ stage_state i (S j) M'.
    Proof.
      intros Hij Hj (g & HM & Hd & Hg). pose proof HM as (_ & _ & Hget).
      unfold fw_relax. rewrite !Hget by lia. cbn [bind].
      destruct (stage_fixed i j M g HM Hd Hg i ltac:(lia)) as [E1 _]. destruct (stage_fixed i j M g HM Hd Hg j Hj) as [_ E2].
      rewrite E1, E2. assert (E3 : g i j = f i j).
      { rewrite Hg by auto. rewrite Nat.ltb_irrefl, (Nat.ltb_irrefl j), andb_false_r. auto. }
      rewrite E3. destruct (ext_gtb (f i j) (ext_add (f i k) (f k j))) eqn:E.
      - destruct (rep_set M g i j (ext_add (f i k) (f k j)) HM ltac:(lia) Hj) as (M' & EM & HM'). exists M'. split; auto.
        eexists. split; [exact HM'|]. split.
        + intros a Ha. rewrite upd2_other by lia. auto.
        + intros a b Hab Hb. destruct (Nat.eq_dec a i) as [->|Na]; [destruct (Nat.eq_dec b j) as [->|Nb]|].
          * rewrite upd2_same, Nat.eqb_refl. replace (j <? S j) with true by (symmetry; apply Nat.ltb_lt; lia). rewrite orb_true_r.
            unfold relaxed, ext_min. rewrite E. auto.
          * rewrite upd2_other, Hg by lia. rewrite Nat.eqb_refl, Nat.ltb_irrefl. cbn [orb andb].
            destruct (Nat.ltb_spec b j), (Nat.ltb_spec b (S j)); auto; lia.
          * rewrite upd2_other, Hg by lia. destruct (Nat.eqb_spec a i); [lia|]. cbn [andb]. auto.
      - exists M. split; auto. exists g. refine (conj HM (conj Hd _)). intros a b Hab Hb. rewrite Hg by auto.
        destruct (Nat.eqb_spec a i) as [->|]; cbn [andb]; auto. rewrite Nat.ltb_irrefl. cbn [orb].
        destruct (Nat.ltb_spec b j), (Nat.ltb_spec b (S j)); auto; try lia. assert (b = j) by lia. subst b.
        unfold relaxed, ext_min. rewrite E. auto.
    Qed.

    Lemma row_step i M : i < n -> stage_state i (i + 1) M -> exists M', fw_row n k M i = Ok M' /\ stage_state (S i) (S i + 1) M'.
    Proof.
      intros Hi HM. unfold fw_row.
      destruct (foldM_ind (fw_relax k i) (fun p => stage_state i (i + 1 + p)) (seq (i + 1) (n - (i + 1))) M) as (M' & E & H).
      - rewrite Nat.add_0_r. auto.
      - intros p b a Hb Ha. pose proof (nth_error_lt _ _ _ Hb) as Hp. rewrite seq_length in Hp.
        apply nth_error_nth with (d := 0) in Hb. rewrite seq_nth in Hb by auto. subst b.
        replace (i + 1 + S p) with (S (i + 1 + p)) by lia. apply relax_step; auto; lia.
      - exists M'. split; auto. rewrite seq_length in H. destruct H as (g & H1 & H2 & H3). exists g. refine (conj H1 (conj H2 _)).
        intros a b Hab Hb. rewrite H3 by auto. destruct (Nat.ltb_spec a i), (Nat.ltb_spec a (S i)), (Nat.eqb_spec a i), (Nat.eqb_spec a (S i)); cbn [orb andb]; auto; try lia.
        + destruct (Nat.ltb_spec b (i + 1 + (n - (i + 1)))); auto. lia.
        + destruct (Nat.ltb_spec b (S i + 1)); auto. lia.
    Qed.

    Lemma stage_step M : rep M f -> exists M' g, fw_stage n M k = Ok M' /\ rep M' g /\
      forall a b, a < n -> b < n -> g a b = if a =? b then Fin 0 else relaxed a b.
    Proof.
      intro HM. unfold fw_stage.
      destruct (foldM_ind (fw_row n k) (fun p => stage_state p (p + 1)) (seq 0 n) M) as (M' & E & g & H1 & H2 & H3).
      - exists f. refine (conj HM (conj Hdiag _)). intros a b Hab Hb.
        destruct (Nat.ltb_spec a 0), (Nat.eqb_spec a 0), (Nat.ltb_spec b (0 + 1)); cbn [orb andb]; auto; lia.
      - intros p b a Hb Ha. pose proof (nth_error_lt _ _ _ Hb) as Hp. rewrite seq_length in Hp.
        apply nth_error_nth with (d := 0) in Hb. rewrite seq_nth in Hb by auto. subst b. apply row_step; auto.
      - exists M', g. refine (conj E (conj H1 _)). rewrite seq_length in H3.
        assert (L : forall a b, a < b -> b < n -> g a b = relaxed a b).
        { intros a b Hab Hb. rewrite H3 by auto. destruct (Nat.ltb_spec a n); auto. lia. }
        intros a b Ha Hb. destruct (Nat.eqb_spec a b) as [->|Hne]; auto.
        destruct (lt_dec a b); [auto|]. rewrite (rep_sym M' g a b H1), L by lia. unfold relaxed.
        rewrite (Hsym a b), (Hsym a k), (Hsym k b) by auto. f_equal. destruct (f b k), (f k a); simpl; auto. f_equal. lia.
    Qed.
  End Stage.

  (** all entries off the diagonal are infinite after the initialization *)
  Lemma init_loop : exists M g, foldM (fw_init n) (seq 0 n) (sm_make (Fin 0) n) = Ok M /\ rep M g /\
    forall a b, a < n -> b < n -> g a b = if a =? b then Fin 0 else Inf.
  Proof.
    pose (st := fun i j M => exists g, rep M g /\ (forall a, a < n -> g a a = Fin 0) /\
      forall a b, a < b -> b < n -> (a < i \/ a = i /\ b < j) -> g a b = Inf).
    destruct (foldM_ind (fw_init n) (fun p => st p (p + 1)) (seq 0 n) (sm_make (Fin 0) n)) as (M & E & g & H1 & H2 & H3).
    - exists (fun _ _ => Fin 0). refine (conj _ (conj _ _)); [|auto|lia]. split; [constructor|]. split; [reflexivity|].
      intros a b Ha Hb. assert (Hok : sm_ok (sm_make (Fin 0) n)) by (apply (sm_made_ok (Fin 0)); constructor).
      destruct (sm_cell_spec _ a b Hok Ha Hb) as (c & Ec & Lc & _). unfold sm_get. rewrite Ec. cbn [bind]. unfold get_.
      cbn [sm_make sm_data] in *. destruct (nth_error_ex _ c Lc) as [x Hx]. rewrite Hx. f_equal.
      apply nth_error_In, repeat_spec in Hx. auto.
    - intros p b M Hb (g & G1 & G2 & G3). pose proof (nth_error_lt _ _ _ Hb) as Hp. rewrite seq_length in Hp.
      apply nth_error_nth with (d := 0) in Hb. rewrite seq_nth in Hb by auto. cbn [Nat.add] in Hb. subst b. unfold fw_init.
      destruct (rep_set M g p p (Fin 0) G1 Hp Hp) as (M1 & E1 & R1). rewrite E1. cbn [bind].
      destruct (foldM_ind (fun M j => sm_set M p j Inf) (fun q => st p (p + 1 + q)) (seq (p + 1) (n - (p + 1))) M1) as (M' & E & g' & K1 & K2 & K3).
      + eexists. split; [exact R1|]. split.
        * intros a Ha. unfold upd2. destruct ((a =? p) && _ || _); auto.
        * intros a b Hab Hb H. unfold upd2. destruct (Nat.eqb_spec a p), (Nat.eqb_spec b p); cbn [andb orb]; try lia; apply G3; auto; lia.
      + intros q b M2 Hb (g2 & L1 & L2 & L3). pose proof (nth_error_lt _ _ _ Hb) as Hq. rewrite seq_length in Hq.
        apply nth_error_nth with (d := 0) in Hb. rewrite seq_nth in Hb by auto. subst b.
        destruct (rep_set M2 g2 p (p + 1 + q) Inf L1 Hp ltac:(lia)) as (M3 & E3 & R3). exists M3. split; auto.
        eexists. split; [exact R3|]. split.
        * intros a Ha. rewrite upd2_other by lia. auto.
        * intros a b Hab Hb H. destruct (Nat.eq_dec a p) as [->|Na]; [destruct (Nat.eq_dec b (p + 1 + q)) as [->|Nb]|].
          -- apply upd2_same.
          -- rewrite upd2_other by lia. apply L3; auto. lia.
          -- rewrite upd2_other by lia. apply L3; auto. lia.
      + exists M'. split; auto. exists g'. refine (conj K1 (conj K2 _)). rewrite seq_length in K3.
        intros a b Hab Hb H. apply K3; auto. lia.
    - exists M, g. refine (conj E (conj H1 _)). rewrite seq_length in H3.
      assert (L : forall a b, a < b -> b < n -> g a b = Inf) by (intros; apply H3; auto; lia).
      intros a b Ha Hb. destruct (Nat.eqb_spec a b) as [->|]; auto. destruct (lt_dec a b); auto.
      rewrite (rep_sym M g a b H1) by auto. apply L; lia.
  Qed.

  (** ** Distances *)
  Variable E : nat -> nat -> option Z.
  Hypothesis Esym : forall a b, E a b = E b a.
  Hypothesis Epos : forall a b x, E a b = Some x -> (0 <= x)%Z.
  Hypothesis Eirr : forall a, E a a = None.
  Hypothesis Edom : forall a b x, E a b = Some x -> a < n /\ b < n.

  (** non-trivial walks with interior vertices below [k] *)
  Inductive iwalk (k : nat) : nat -> nat -> Z -> Prop :=
  | iw_one i j x : E i j = Some x -> iwalk k i j x
  | iw_step i m j x d : E i m = Some x -> m < k -> iwalk k m j d -> iwalk k i j (x + d).

  Lemma iwalk_pos k i j d : iwalk k i j d -> (0 <= d)%Z.
  Proof. induction 1 as [i j x H|i m j x d H _ _ IH]; apply Epos in H; lia. Qed.

  Lemma iwalk_weaken k k' i j d : k <= k' -> iwalk k i j d -> iwalk k' i j d.
  Proof. intros Hk. induction 1; [apply iw_one; auto|eapply iw_step; eauto; lia]. Qed.

  Lemma iwalk_app k i m j d d' : iwalk k i m d -> m < k -> iwalk k m j d' -> iwalk k i j (d + d').
  Proof.
    induction 1 as [i m x H|i v m x d H Hv _ IH]; intros Hm H'.
    - eapply iw_step; eauto.
    - rewrite <- Z.add_assoc. eapply iw_step; eauto.
  Qed.

  Lemma iwalk_split k i j d : iwalk (S k) i j d ->
    (exists d', iwalk k i j d' /\ (d' <= d)%Z) \/
    (exists d1 d2, iwalk k i k d1 /\ iwalk k k j d2 /\ (d1 + d2 <= d)%Z).
  Proof.
    induction 1 as [i j x H|i m j x d H Hm Hw IH].
    - left. exists x. split; [apply iw_one; auto|lia].
    - destruct (Nat.eq_dec m k) as [->|Hne].
      + right. destruct IH as [(d' & W & L)|(d1 & d2 & W1 & W2 & L)].
        * exists x, d'. refine (conj _ (conj W _)); [apply iw_one; auto|lia].
        * exists x, d2. refine (conj _ (conj W2 _)); [apply iw_one; auto|]. apply iwalk_pos in W1. lia.
      + destruct IH as [(d' & W & L)|(d1 & d2 & W1 & W2 & L)].
        * left. exists (x + d')%Z. split; [eapply iw_step; eauto; lia|lia].
        * right. exists (x + d1)%Z, d2. refine (conj _ (conj W2 _)); [eapply iw_step; eauto; lia|lia].
  Qed.

  (** [f] holds the distances over walks with interior below [k] *)
  Definition dist_ok (k : nat) (f : nat -> nat -> ext) : Prop :=
    (forall a, a < n -> f a a = Fin 0) /\
    (forall a b, a < n -> b < n -> f a b = f b a) /\
    (forall a b d, a < n -> b < n -> a <> b -> f a b = Fin d -> iwalk n a b d) /\
    (forall a b d, a < n -> b < n -> iwalk k a b d -> ext_le (f a b) (Fin d)).

  Lemma dist_stage k f g : k < n -> dist_ok k f ->
    (forall a b, a < n -> b < n -> g a b = if a =? b then Fin 0 else relaxed f k a b) ->
    (forall a b, a < n -> b < n -> g a b = g b a) -> dist_ok (S k) g.
  Proof.
    intros Hk (H1 & H2 & H3 & H4) Hg Hs. split; [|split; [exact Hs|split]].
    - intros a Ha. rewrite Hg, Nat.eqb_refl by auto. auto.
    - intros a b d Ha Hb Hab. rewrite Hg by auto. destruct (Nat.eqb_spec a b); [easy|]. unfold relaxed.
      destruct (Nat.eq_dec a k) as [->|Nak]; [rewrite H1, ext_min_same' by auto; apply H3; auto|].
      destruct (Nat.eq_dec b k) as [->|Nbk]; [rewrite (H1 k), ext_min_same by auto; apply H3; auto|].
      destruct (ext_min_cases (f a b) (ext_add (f a k) (f k b))) as [-> | ->]; [apply H3; auto|].
      destruct (f a k) as [x|] eqn:E1, (f k b) as [y|] eqn:E2; simpl; try discriminate. intro Q. injection Q as <-.
      apply (iwalk_app n a k b); auto.
    - intros a b d Ha Hb Hw. rewrite Hg by auto. destruct (Nat.eqb_spec a b).
      + apply iwalk_pos in Hw. simpl. lia.
      + destruct (iwalk_split k a b d Hw) as [(d' & W & L)|(d1 & d2 & W1 & W2 & L)].
        * eapply ext_le_trans; [apply ext_min_le_l|]. eapply ext_le_trans; [apply H4; eauto|]. simpl. lia.
        * eapply ext_le_trans; [apply ext_min_le_r|]. pose proof (H4 a k d1 Ha Hk W1) as L1. pose proof (H4 k b d2 Hk Hb W2) as L2.
          destruct (f a k), (f k b); simpl in *; try contradiction. lia.
  Qed.

  Lemma stages_loop M f : rep M f -> dist_ok 0 f -> exists M' g, foldM (fw_stage n) (seq 0 n) M = Ok M' /\ rep M' g /\ dist_ok n g.
  Proof.
    intros HM Hf.
    destruct (foldM_ind (fw_stage n) (fun k M => exists g, rep M g /\ dist_ok k g) (seq 0 n) M) as (M' & EM & g & G1 & G2).
    - exists f. auto.
    - intros k b M1 Hb (g & G1 & G2). pose proof (nth_error_lt _ _ _ Hb) as Hk. rewrite seq_length in Hk.
      apply nth_error_nth with (d := 0) in Hb. rewrite seq_nth in Hb by auto. cbn [Nat.add] in Hb. subst b.
      destruct G2 as (D1 & D2 & D3 & D4). destruct (stage_step g k Hk D2 D1 M1 G1) as (M2 & h & E2 & R2 & Hh).
      exists M2. split; auto. exists h. split; auto. apply (dist_stage k g h Hk); auto; [repeat split; auto|].
      intros a b Ha Hb. apply (rep_sym M2); auto.
    - exists M', g. rewrite seq_length in G2. auto.
  Qed.
End Loops.
