(** * Linear algebra of column reduction. *)

From Coq Require Import List Arith Lia Bool Permutation Sorted.
From Verif Require Import Base BaseFacts SpecMatrix.
Import ListNotations.

Lemma entry_oob C r c : length C <= c -> entry C r c = false.
Proof. intro H. unfold entry. rewrite nth_overflow by auto. reflexivity. Qed.

Lemma entry_nth C r c l : nth_error C c = Some l -> entry C r c = mem r l.
Proof. intro H. unfold entry. erewrite nth_error_nth by eauto. reflexivity. Qed.

Lemma sum_cols_app C S T r : sum_cols C (S ++ T) r = xorb (sum_cols C S r) (sum_cols C T r).
Proof.
  induction S; simpl.
  - destruct (sum_cols C T r); auto.
  - rewrite IHS. destruct (entry C r a), (sum_cols C S r), (sum_cols C T r); auto.
Qed.

Lemma sum_cols_cons C k S r : sum_cols C (k :: S) r = xorb (entry C r k) (sum_cols C S r).
Proof. reflexivity. Qed.

Ltac xb :=
  repeat match goal with
    | |- context [entry ?C ?r ?k] => destruct (entry C r k)
    | |- context [sum_cols ?C ?S ?r] => destruct (sum_cols C S r)
    | |- context [sum_rows ?C ?S ?r] => destruct (sum_rows C S r)
    end; reflexivity.

(** ** lows *)
Lemma low_unique x i i' : is_low x i -> is_low x i' -> i = i'.
Proof.
  intros [H1 H2] [H3 H4]. destruct (lt_eq_lt_dec i i') as [[H|H]|H]; auto.
  - rewrite H2 in H3 by auto. discriminate.
  - rewrite H4 in H1 by auto. discriminate.
Qed.

Lemma low_not_zero x i : is_low x i -> is_zero x -> False.
Proof. intros [H _] Z. rewrite Z in H. discriminate. Qed.

(** A vector whose support is bounded is zero or has a low. *)
Lemma low_dec_bounded (x : nat -> bool) n :
  (forall r, n <= r -> x r = false) -> is_zero x \/ exists i, i < n /\ is_low x i.
Proof.
  revert x; induction n; intros x H.
  - left. intro r. apply H. lia.
  - destruct (x n) eqn:E.
    + right. exists n. split; auto. split; auto.
    + destruct (IHn x) as [Z|(i & Hi & Hl)]; auto.
      * intros r Hr. destruct (Nat.eq_dec r n); [subst; auto|]. apply H. lia.
      * right. exists i. split; auto.
Qed.

Lemma entry_low_dec C j : is_zero (fun r => entry C r j) \/ exists i, is_low (fun r => entry C r j) i.
Proof.
  destruct (low_dec_bounded (fun r => entry C r j) (S (list_max (nth j C [])))) as [Z|(i&_&H)]; eauto.
  intros r Hr. unfold entry. apply mem_false. intro Hi.
  pose proof (proj1 (list_max_le (nth j C []) (list_max (nth j C []))) (le_n _)) as F.
  rewrite Forall_forall in F. apply F in Hi. lia.
Qed.

Lemma last_is_low l i :
  StronglySorted lt l -> (last_opt l = Some i <-> is_low (fun r => mem r l) i).
Proof.
  intro Hs. split.
  - intro H. split.
    + apply mem_In. apply last_opt_In; auto.
    + intros r Hr. apply mem_false. intro Hi. pose proof (last_opt_max _ _ Hs H _ Hi). lia.
  - intros [H1 H2]. apply mem_In in H1. destruct (last_opt l) eqn:E.
    + f_equal. pose proof (last_opt_max _ _ Hs E _ H1).
      apply last_opt_In, mem_In in E.
      destruct (Nat.eq_dec n i); auto. rewrite H2 in E by lia. discriminate.
    + apply last_opt_none in E. subst. easy.
Qed.

Lemma last_none_zero l : last_opt l = None <-> is_zero (fun r => mem r l).
Proof.
  rewrite last_opt_none. split.
  - intros -> r. reflexivity.
  - intro Z. destruct l as [|a l]; auto. specialize (Z a). simpl in Z. rewrite Nat.eqb_refl in Z. discriminate.
Qed.

(** ** normal form of index lists *)
Lemma sum_cols_remove C k S r :
  NoDup S -> In k S ->
  sum_cols C (filter (fun x => negb (x =? k)) S) r = xorb (entry C r k) (sum_cols C S r).
Proof.
  induction S as [|a S IH]; intros Hn Hi; [easy|].
  inversion Hn; subst. simpl. destruct (Nat.eqb_spec a k); simpl.
  - subst. rewrite filter_all; [xb|].
    intros x Hx. apply negb_true_iff, Nat.eqb_neq. intros ->; auto.
  - destruct Hi as [->|Hi]; [easy|]. rewrite IH by auto. xb.
Qed.

Lemma sum_cols_nodup C S :
  exists S', NoDup S' /\ incl S' S /\ forall r, sum_cols C S' r = sum_cols C S r.
Proof.
  induction S as [|k S (S' & Hn & Hi & E)].
  - exists []. split; [constructor|]. split; [easy|auto].
  - destruct (in_dec Nat.eq_dec k S').
    + exists (filter (fun x => negb (x =? k)) S'). split; [apply NoDup_filter; auto|]. split.
      * intros x Hx. apply filter_In in Hx. right. apply Hi. tauto.
      * intro r. rewrite sum_cols_remove by auto. simpl. rewrite E. auto.
    + exists (k :: S'). split; [constructor; auto|]. split.
      * intros x [<-|Hx]; [left|right]; auto.
      * intro r. simpl. rewrite E. auto.
Qed.

(** The low of a combination of columns with distinct lows is one of theirs. *)
Lemma combination_low_nodup R S :
  reduced R -> NoDup S -> (forall k, In k S -> k < length R) ->
  is_zero (sum_cols R S) \/
  exists k i, In k S /\ is_low (fun r => entry R r k) i /\ is_low (sum_cols R S) i.
Proof.
  intro HR. induction S as [|k S IH]; intros Hn Hb.
  - left. intro r. reflexivity.
  - inversion Hn as [|? ? Hk HnS]; subst.
    destruct IH as [Z|(k' & i' & Hk' & L1 & L2)]; auto.
    { intros; apply Hb; simpl; auto. }
    + destruct (entry_low_dec R k) as [Zk|(i & Hi)].
      * left. intro r. simpl. rewrite Zk, Z. auto.
      * right. exists k, i. split; [simpl; auto|]. split; auto.
        destruct Hi as [H1 H2]. split; simpl.
        -- rewrite H1, Z. auto.
        -- intros r Hr. rewrite H2, Z by auto. auto.
    + destruct (entry_low_dec R k) as [Zk|(i & Hi)].
      * right. exists k', i'. split; [simpl; auto|]. split; auto.
        destruct L2 as [H1 H2]. split; simpl.
        -- rewrite H1, Zk. auto.
        -- intros r Hr. rewrite H2, Zk by auto. auto.
      * assert (i <> i').
        { intros ->. apply (HR k k' i'); auto.
          - apply Hb; simpl; auto.
          - apply Hb; simpl; auto.
          - intros ->; auto. }
        right. destruct Hi as [H1 H2], L2 as [H3 H4].
        destruct (lt_dec i i').
        -- exists k', i'. split; [simpl; auto|]. split; auto. split; simpl.
           ++ rewrite H2, H3 by auto. auto.
           ++ intros r Hr. rewrite H2, H4 by lia. auto.
        -- assert (i' < i) by lia. exists k, i. split; [simpl; auto|]. split; [split; auto|].
           split; simpl.
           ++ rewrite H1, H4 by auto. auto.
           ++ intros r Hr. rewrite H2, H4 by lia. auto.
Qed.

Lemma combination_low R S i :
  reduced R -> (forall k, In k S -> k < length R) -> is_low (sum_cols R S) i ->
  exists k, In k S /\ is_low (fun r => entry R r k) i.
Proof.
  intros HR Hb HL. destruct (sum_cols_nodup R S) as (S' & Hn & Hi & E).
  destruct (combination_low_nodup R S' HR Hn) as [Z|(k & i' & Hk & L1 & L2)].
  - intros k Hk. apply Hb, Hi, Hk.
  - exfalso. apply (low_not_zero (sum_cols R S) i); auto. intro r. rewrite <- E. apply Z.
  - exists k. split; auto. replace i with i'; auto.
    eapply low_unique; [|exact HL]. destruct L2 as [H1 H2]. split.
    + rewrite <- E; auto.
    + intros; rewrite <- E; auto.
Qed.

(** ** columns of C are combinations of columns of R *)
Lemma col_equiv_expand C R : col_equiv C R ->
  forall k, k < length C ->
  exists T, (forall x, In x T -> x <= k) /\ forall r, entry C r k = sum_cols R T r.
Proof.
  intros [HL HE]. induction k as [k IH] using lt_wf_ind. intro Hk.
  destruct (HE k Hk) as (S & HS & E).
  assert (HS' : exists T, (forall x, In x T -> x < k) /\ forall r, sum_cols C S r = sum_cols R T r).
  { clear E. induction S as [|a S IHS].
    - exists []. split; [easy|auto].
    - destruct IHS as (T & HT & ET). { intros; apply HS; simpl; auto. }
      assert (Ha : a < k) by (apply HS; simpl; auto).
      destruct (IH a Ha) as (T' & HT' & ET'); [lia|].
      exists (T' ++ T). split.
      + intros x Hx. apply in_app_or in Hx. destruct Hx as [Hx|Hx]; auto.
        apply HT' in Hx. lia.
      + intro r. rewrite sum_cols_app. simpl. rewrite ET, ET'. auto. }
  destruct HS' as (T & HT & ET).
  exists (k :: T). split.
  - intros x [<-|Hx]; auto. apply HT in Hx. lia.
  - intro r. simpl. rewrite E, ET. xb.
Qed.

Lemma col_equiv_expand_list C R : col_equiv C R ->
  forall j S, j <= length C -> (forall k, In k S -> k < j) ->
  exists T, (forall x, In x T -> x < j) /\ forall r, sum_cols C S r = sum_cols R T r.
Proof.
  intros H j S Hj. induction S as [|a S IHS]; intro HS.
  - exists []. split; [easy|auto].
  - destruct IHS as (T & HT & ET). { intros; apply HS; simpl; auto. }
    assert (Ha : a < j) by (apply HS; simpl; auto).
    destruct (col_equiv_expand C R H a) as (T' & HT' & ET'); [lia|].
    exists (T' ++ T). split.
    + intros x Hx. apply in_app_or in Hx. destruct Hx as [Hx|Hx]; auto.
      apply HT' in Hx. lia.
    + intro r. rewrite sum_cols_app. simpl. rewrite ET, ET'. auto.
Qed.

(** ** The key fact: lows of a reduced column-equivalent matrix are canonical *)
Lemma reduced_min_low_some C R j i :
  col_equiv C R -> reduced R -> j < length C ->
  is_low (fun r => entry R r j) i -> min_low C j (Some i).
Proof.
  intros HE HR Hj HL. pose proof HE as [HLen HC]. split.
  - exists (fun r => entry R r j). split; auto.
  - intros x (S & HS & Ex). destruct (HC j Hj) as (T & HT & ER).
    destruct (col_equiv_expand_list C R HE j (S ++ T)) as (U & HU & EU); [lia|..].
    { intros k Hk. apply in_app_or in Hk. destruct Hk; auto. }
    (* x = R_j + sum R U *)
    assert (Ex' : forall r, x r = xorb (entry R r j) (sum_cols R U r)).
    { intro r. rewrite <- EU, sum_cols_app, Ex, ER.
      destruct (entry C r j), (sum_cols C S r), (sum_cols C T r); auto. }
    (* decide whether x has an entry at or below i *)
    destruct (low_dec_bounded (fun r => if r <? i then false else x r)
                (1 + list_max (flat_map (fun c => c) R))) as [Z|(r & _ & [H1 _])].
    + intros r Hr. destruct (r <? i); auto.
      assert (Hz : forall k, entry R r k = false).
      { intro k. unfold entry. apply mem_false. intro Hi.
        assert (In r (flat_map (fun c => c) R)).
        { apply in_flat_map. exists (nth k R []). split; auto.
          destruct (lt_dec k (length R)); [apply nth_In; auto|].
          rewrite nth_overflow in Hi by lia. easy. }
        pose proof (proj1 (list_max_le (flat_map (fun c => c) R) _) (le_n _)) as F.
        rewrite Forall_forall in F. apply F in H. lia. }
      rewrite Ex', Hz, xorb_false_l. clear - Hz. induction U; simpl; auto. rewrite Hz, IHU. auto.
    + exfalso.
      assert (HLU : is_low (sum_cols R U) i).
      { destruct HL as [H1 H2]. split.
        - specialize (Z i). cbv beta in Z. rewrite Nat.ltb_irrefl, Ex', H1 in Z.
          destruct (sum_cols R U i); auto.
        - intros r Hr. specialize (Z r). cbv beta in Z. destruct (Nat.ltb_spec r i); [lia|].
          rewrite Ex', H2 in Z by auto. destruct (sum_cols R U r); auto. }
      apply combination_low in HLU; auto.
      * destruct HLU as (k & Hk & Lk). apply HU in Hk.
        apply (HR j k i); auto; lia.
      * intros k Hk. apply HU in Hk. lia.
    + exists r. cbv beta in H1. destruct (Nat.ltb_spec r i); [discriminate|]. auto.
Qed.

Lemma min_low_zero C R j :
  col_equiv C R -> j < length C -> is_zero (fun r => entry R r j) -> min_low C j None.
Proof.
  intros [_ H] Hj HZ. exists (fun r => entry R r j). split; auto.
Qed.

Lemma min_low_unique C j o o' : min_low C j o -> min_low C j o' -> o = o'.
Proof.
  destruct o as [i|], o' as [i'|]; simpl.
  - intros [(x & Hx & Lx) Hm] [(y & Hy & Ly) Hm'].
    apply Hm in Hy. apply Hm' in Hx.
    destruct Hy as (r & Hr & Er), Hx as (r' & Hr' & Er').
    destruct Lx as [_ Lx], Ly as [_ Ly].
    f_equal.
    assert (r <= i') by (destruct (le_lt_dec r i'); auto; rewrite Ly in Er by auto; discriminate).
    assert (r' <= i) by (destruct (le_lt_dec r' i); auto; rewrite Lx in Er' by auto; discriminate).
    lia.
  - intros [_ Hm] (x & Hx & Z). apply Hm in Hx. destruct Hx as (r & _ & E).
    rewrite Z in E. discriminate.
  - intros (x & Hx & Z) [_ Hm]. apply Hm in Hx. destruct Hx as (r & _ & E).
    rewrite Z in E. discriminate.
  - auto.
Qed.

(** Column [j] of a list of columns: its low as computed from the list. *)
Definition lowof (R : list (list nat)) (j : nat) : option nat := last_opt (nth j R []).

Lemma nth_sorted R j : sorted_cols R -> StronglySorted lt (nth j R []).
Proof.
  intro H. destruct (lt_dec j (length R)).
  - apply H. apply nth_In. auto.
  - rewrite nth_overflow by lia. constructor.
Qed.

Lemma lowof_some R j i : sorted_cols R -> (lowof R j = Some i <-> is_low (fun r => entry R r j) i).
Proof. intro H. unfold lowof, entry. apply last_is_low. apply nth_sorted; auto. Qed.

Lemma lowof_none R j : lowof R j = None <-> is_zero (fun r => entry R r j).
Proof. unfold lowof, entry. apply last_none_zero. Qed.

Theorem lowof_min_low C R :
  sorted_cols R -> col_equiv C R -> reduced R ->
  forall j, j < length C -> min_low C j (lowof R j).
Proof.
  intros HS HE HR j Hj. destruct (lowof R j) as [i|] eqn:E.
  - apply reduced_min_low_some with R; auto. apply lowof_some; auto.
  - apply min_low_zero with R; auto. apply lowof_none; auto.
Qed.

(** ** symmetric difference as addition *)
Lemma entry_upd C j c r k :
  entry (upd C j c) r k = if (k =? j) && (j <? length C) then mem r c else entry C r k.
Proof.
  unfold entry.
  destruct (Nat.eqb_spec k j); simpl.
  - subst. destruct (Nat.ltb_spec j (length C)).
    + rewrite (nth_error_nth _ _ _ (nth_error_upd_eq _ _ c H)). reflexivity.
    + rewrite upd_oob by auto. reflexivity.
  - f_equal. destruct (nth_error C k) eqn:E.
    + rewrite (nth_error_nth (upd C j c) k []  (x:=l)).
      * symmetry. apply nth_error_nth; auto.
      * rewrite nth_error_upd_neq by auto. auto.
    + apply nth_error_None in E. rewrite !nth_overflow; auto. rewrite upd_length; auto.
Qed.

Lemma In_upd {A} (l : list A) j a x : In x (upd l j a) -> x = a \/ In x l.
Proof.
  revert j; induction l; destruct j; simpl; intros H; auto.
  - destruct H; auto.
  - destruct H as [<-|H]; auto. apply IHl in H. tauto.
Qed.

Lemma sorted_cols_upd C j c : sorted_cols C -> StronglySorted lt c -> sorted_cols (upd C j c).
Proof. intros H Hc x Hx. apply In_upd in Hx. destruct Hx as [->|Hx]; auto. Qed.

Lemma square_upd C j c :
  square C -> (forall r, In r c -> r < length C) -> square (upd C j c).
Proof.
  intros H Hc x r Hx Hr. rewrite upd_length. apply In_upd in Hx.
  destruct Hx as [->|Hx]; eauto.
Qed.

Lemma nth_error_nth_default (C : list (list nat)) j c :
  nth_error C j = Some c -> nth j C [] = c.
Proof. apply nth_error_nth. Qed.

(** ** Duality certificates.

    [cert C i j]: column [j] can be brought to lowest entry [i] by columns to
    its left, and row [i] can be brought to first entry [j] by rows below.
    This is symmetric under anti-transposition. *)
Definition cert (C : list (list nat)) (i j : nat) : Prop :=
  exists S T,
    (forall k, In k S -> k < j) /\ (forall r, In r T -> i < r) /\
    (forall r, i < r -> sum_cols C (j :: S) r = false) /\
    (forall k, k < j -> sum_rows C (i :: T) k = false) /\
    sum_cols C (j :: S) i = true.

Lemma sum_rows_app C S T r : sum_rows C (S ++ T) r = xorb (sum_rows C S r) (sum_rows C T r).
Proof.
  induction S; simpl.
  - destruct (sum_rows C T r); auto.
  - rewrite IHS. destruct (entry C a r), (sum_rows C S r), (sum_rows C T r); auto.
Qed.

(** double counting *)
Definition bigx (f : nat -> bool) (l : list nat) : bool :=
  fold_right (fun k acc => xorb (f k) acc) false l.

Lemma bigx_cons f x l : bigx f (x :: l) = xorb (f x) (bigx f l).
Proof. reflexivity. Qed.

Lemma bigx_linear f g l : bigx (fun k => xorb (f k) (g k)) l = xorb (bigx f l) (bigx g l).
Proof.
  induction l; [reflexivity|]. rewrite !bigx_cons, IHl.
  destruct (f a), (g a), (bigx f l), (bigx g l); auto.
Qed.

Lemma bigx_zero f l : (forall x, In x l -> f x = false) -> bigx f l = false.
Proof.
  induction l; intro H; [reflexivity|]. rewrite bigx_cons, H by (simpl; auto).
  rewrite IHl; auto. intros; apply H; simpl; auto.
Qed.

Lemma bigx_true f l : bigx f l = true -> exists x, In x l /\ f x = true.
Proof.
  induction l; [discriminate|]. rewrite bigx_cons. destruct (f a) eqn:E.
  - exists a. simpl; auto.
  - rewrite xorb_false_l. intro H. destruct (IHl H) as (x & Hx & Ex). exists x; simpl; auto.
Qed.

Definition dsum (C : list (list nat)) (T S : list nat) : bool := bigx (sum_rows C T) S.

Lemma dsum_swap C T S : dsum C T S = bigx (sum_cols C S) T.
Proof.
  unfold dsum. induction T as [|t T IH].
  - apply bigx_zero. reflexivity.
  - rewrite bigx_cons, <- IH.
    change (sum_cols C S t) with (bigx (fun k => entry C t k) S).
    rewrite <- bigx_linear. reflexivity.
Qed.

Lemma cert_min_low C i j : cert C i j -> min_low C j (Some i).
Proof.
  intros (S & T & HS & HT & HSz & HTz & H1). split.
  - exists (sum_cols C (j :: S)). split.
    + exists S. split; auto.
    + split; auto.
  - intros x (S' & HS' & Ex).
    (* y.x = y.C_j = y.(C_j + sum S) = 1 *)
    assert (HD : forall U, (forall k, In k U -> k < j) -> dsum C (i :: T) (j :: U) = sum_rows C (i :: T) j).
    { intros U HU. unfold dsum. rewrite bigx_cons, (bigx_zero _ U) by auto.
      apply xorb_false_r. }
    assert (E1 : dsum C (i :: T) (j :: S) = true).
    { rewrite dsum_swap, bigx_cons, H1, (bigx_zero _ T) by auto. reflexivity. }
    rewrite HD in E1 by auto. rewrite <- (HD S' HS') in E1. rewrite dsum_swap in E1.
    apply bigx_true in E1.
    destruct E1 as (r & Hr & Er). exists r. split.
    + destruct Hr as [<-|Hr]; auto. apply HT in Hr. lia.
    + rewrite Ex. exact Er.
Qed.

(** construction of the row certificate from a reduced matrix *)
Lemma row_certificate C R i j :
  col_equiv C R -> reduced R -> j < length C ->
  is_low (fun r => entry R r j) i ->
  forall m, exists T, (forall r, In r T -> i < r <= i + m) /\
    forall k, k < j -> forall l, is_low (fun r => entry R r k) l -> l <= i + m ->
      sum_rows R (i :: T) k = false.
Proof.
  intros HE HR Hj HL. pose proof HE as [HLen _].
  induction m as [|m (T & HT & HTz)].
  - exists []. split; [easy|]. intros k Hk l Hl Hle.
    assert (l <> i). { intros ->. apply (HR j k i); auto; lia. }
    simpl. destruct Hl as [_ H2]. rewrite H2 by lia. auto.
  - (* is there k < j with low = i + S m ? *)
    assert (Hdec : (exists k, k < j /\ is_low (fun r => entry R r k) (i + S m)) \/
                   ~ (exists k, k < j /\ is_low (fun r => entry R r k) (i + S m))).
    { clear. induction j as [|j IH].
      - right. intros (k & Hk & _). lia.
      - destruct IH as [(k & Hk & L)|N].
        + left. exists k. split; auto.
        + destruct (entry_low_dec R j) as [Z|(l & L)].
          * right. intros (k & Hk & L). destruct (Nat.eq_dec k j).
            -- subst. eapply low_not_zero; eauto.
            -- apply N. exists k. split; auto. lia.
          * destruct (Nat.eq_dec l (i + S m)).
            -- left. subst. exists j. split; auto.
            -- right. intros (k & Hk & L'). destruct (Nat.eq_dec k j).
               ++ subst. apply n. eapply low_unique; eauto.
               ++ apply N. exists k. split; auto. lia. }
    destruct Hdec as [(k0 & Hk0 & L0)|N].
    + set (b := sum_rows R (i :: T) k0).
      exists (if b then (i + S m) :: T else T). split.
      { intros r Hr. destruct b; [destruct Hr as [<-|Hr]|]; try lia; apply HT in Hr; lia. }
      intros k Hk l Hl Hle. destruct (Nat.eq_dec l (i + S m)) as [->|Hne].
      * assert (k = k0) as ->.
        { destruct (Nat.eq_dec k k0); auto. exfalso. apply (HR k k0 (i + S m)); auto; lia. }
        destruct b eqn:Eb.
        -- unfold b in Eb. simpl in *. destruct L0 as [H1 _]. rewrite H1.
           destruct (entry R i k0), (sum_rows R T k0); simpl in *; auto; discriminate.
        -- exact Eb.
      * assert (Hz : sum_rows R (i :: T) k = false) by (apply (HTz k Hk l); auto; lia).
        destruct b; auto.
        destruct Hl as [_ H2]. specialize (H2 (i + S m)). simpl in *. rewrite H2 by lia.
        destruct (sum_rows R T k); auto.
    + exists T. split. { intros r Hr. apply HT in Hr. lia. }
      intros k Hk l Hl Hle. apply (HTz k Hk l Hl).
      destruct (Nat.eq_dec l (i + S m)); [subst; exfalso; apply N; eauto|lia].
Qed.

Lemma dsum_zero C T S : (forall k, In k S -> sum_rows C T k = false) -> dsum C T S = false.
Proof. apply bigx_zero. Qed.

Lemma reduced_cert C R i j :
  col_equiv C R -> reduced R -> j < length C ->
  is_low (fun r => entry R r j) i -> cert C i j.
Proof.
  intros HE HR Hj HL. pose proof HE as [HLen HC].
  (* bound for the lows *)
  set (m := list_max (flat_map (fun c => c) R)).
  assert (Hm : forall k l, is_low (fun r => entry R r k) l -> l <= m).
  { intros k l [H1 _]. unfold entry in H1. apply mem_In in H1.
    assert (In l (flat_map (fun c => c) R)).
    { apply in_flat_map. exists (nth k R []). split; auto.
      destruct (lt_dec k (length R)); [apply nth_In; auto|].
      rewrite nth_overflow in H1 by lia. easy. }
    pose proof (proj1 (list_max_le (flat_map (fun c => c) R) _) (le_n _)) as F.
    rewrite Forall_forall in F. apply F in H. exact H. }
  destruct (row_certificate C R i j HE HR Hj HL m) as (T & HT & HTz).
  destruct (HC j Hj) as (S & HS & ES).
  exists S, T. split; auto. split. { intros r Hr. apply HT in Hr. lia. }
  assert (HRz : forall k, k < j -> sum_rows R (i :: T) k = false).
  { intros k Hk. destruct (entry_low_dec R k) as [Z|(l & L)].
    - assert (E : forall U, sum_rows R U k = false).
      { induction U; simpl; auto. rewrite IHU. rewrite Z. auto. }
      apply E.
    - apply (HTz k Hk l L). apply Hm in L. lia. }
  split; [|split].
  - intros r Hr. simpl. rewrite <- ES. destruct HL as [_ H2]. apply H2; auto.
  - intros k Hk.
    (* C_k is a combination of R_x, x <= k *)
    destruct (col_equiv_expand C R HE k) as (U & HU & EU); [lia|].
    assert (E : sum_rows C (i :: T) k = dsum R (i :: T) U).
    { rewrite dsum_swap. generalize (i :: T). induction l; [reflexivity|].
      rewrite bigx_cons, <- EU, <- IHl. reflexivity. }
    rewrite E. apply dsum_zero. intros x Hx. apply HRz. apply HU in Hx. lia.
  - simpl. rewrite <- ES. destruct HL as [H1 _]. exact H1.
Qed.
