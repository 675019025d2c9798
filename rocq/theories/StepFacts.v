(** * Facts about step functions and the persistence indicator function. *)
From Coq Require Import List Arith Bool ZArith Lia Sorted Permutation.
From Verif Require Import Base BaseFacts Diagram StepFunction.
Import ListNotations.
Local Open Scope Z_scope.

(** ** step functions *)
Definition sf_sorted (f : step_function) : Prop :=
  StronglySorted (fun i j => ib i <= ia j) f /\ Forall (fun i => ia i <= ib i) f.

Lemma contains_spec x i : ind_contains x i = true <-> ia i <= x <= ib i.
Proof. unfold ind_contains. rewrite andb_true_iff, !Z.leb_le. tauto. Qed.

Lemma take_after x h t : sf_sorted (h :: t) -> ind_contains x h = true -> take_while (ind_contains x) t = filter (ind_contains x) t.
Proof.
  intros Hs Hc. apply contains_spec in Hc. induction t as [|k t IH]; [reflexivity|]. cbn [take_while filter].
  destruct Hs as [H1 H2]. inversion H1 as [|? ? H3 H4]; subst. inversion H3 as [|? ? H5 H6]; subst. inversion H4 as [|? ? H7 H8]; subst.
  inversion H2 as [|? ? H9 H10]; subst. inversion H10 as [|? ? H11 H12]; subst.
  assert (Hs' : sf_sorted (h :: t)) by (split; constructor; auto).
  destruct (ind_contains x k) eqn:E; [f_equal; auto|]. assert (~ (ia k <= x <= ib k)) by (rewrite <- contains_spec; congruence).
  symmetry. rewrite Forall_forall in H6, H12. assert (G : forall j, In j t -> ind_contains x j = false).
  { intros j Hj. apply not_true_is_false. rewrite contains_spec. specialize (H6 j Hj). specialize (H12 j Hj). lia. }
  clear - G. induction t as [|j t IH]; [reflexivity|]. cbn [filter]. rewrite (G j (or_introl eq_refl)). apply IH. intros; apply G; simpl; auto.
Qed.

Lemma run_filter x f : sf_sorted f -> take_while (ind_contains x) (drop_until (ind_contains x) f) = filter (ind_contains x) f.
Proof.
  induction f as [|h t IH]; intro Hs; [reflexivity|]. cbn [drop_until filter]. destruct (ind_contains x h) eqn:E.
  - cbn [take_while]. rewrite E. f_equal. eapply take_after; eauto.
  - apply IH. destruct Hs as [H1 H2]. inversion H1; inversion H2; subst. split; auto.
Qed.

Lemma eval_filter x f : sf_sorted f -> sf_eval f x = fold_left (eval_step x) (filter (ind_contains x) f) 0.
Proof. intro H. unfold sf_eval. rewrite run_filter; auto. Qed.

Lemma sf_sorted_snoc f i : sf_sorted f -> Forall (fun j => ib j <= ia i) f -> ia i <= ib i -> sf_sorted (f ++ [i]).
Proof.
  intros [H1 H2] H3 H4. split; [|apply Forall_app; split; [exact H2|constructor; [exact H4|constructor]]].
  clear H2. induction H1 as [|j f H1 IH Hf]; cbn [app]; [repeat constructor|]. inversion H3; subst. constructor; [auto|]. apply Forall_app. auto.
Qed.

Lemma eval_nonneg x l : Forall (fun i => 0 <= iy i) l -> forall v, 0 <= v -> 0 <= fold_left (eval_step x) l v.
Proof.
  induction 1 as [|i l Hi _ IH]; intros v Hv; [exact Hv|]. cbn [fold_left]. apply IH. unfold eval_step, ind_eval.
  destruct (ind_contains x i); destruct (_ <? _); lia.
Qed.

Lemma eval_snoc x f i : sf_sorted f -> sf_sorted (f ++ [i]) -> Forall (fun j => 0 <= iy j) f -> 0 <= iy i ->
  sf_eval (f ++ [i]) x = if ind_contains x i then Z.max (sf_eval f x) (iy i) else sf_eval f x.
Proof.
  intros H1 H2 Hn Hi. rewrite !eval_filter by auto. rewrite filter_app, fold_left_app. cbn [filter]. destruct (ind_contains x i) eqn:E; [|reflexivity].
  cbn [fold_left]. set (v := fold_left _ _ 0). unfold eval_step, ind_eval. rewrite E.
  rewrite Z.abs_eq by auto. destruct (Z.ltb_spec v (iy i)); lia.
Qed.

Lemma eval_outside x f : sf_sorted f -> Forall (fun j => ~ (ia j <= x <= ib j)) f -> sf_eval f x = 0.
Proof.
  intros H1 H2. rewrite eval_filter by auto. replace (filter (ind_contains x) f) with (@nil indicator); [reflexivity|].
  clear H1. induction H2 as [|i l Hi _ IH]; [reflexivity|]. cbn [filter]. destruct (ind_contains x i) eqn:E; auto. apply contains_spec in E. easy.
Qed.

Lemma insert_last i f : Forall (fun j => ib j <= ia i /\ ia j < ib i) f -> sf_insert i f = f ++ [i].
Proof.
  induction 1 as [|j f [H1 H2] _ IH]; [reflexivity|]. cbn [sf_insert app]. unfold ind_ltb.
  destruct (Z.leb_spec (ib i) (ia j)); [lia|]. destruct (Z.leb_spec (ib j) (ia i)); [|lia]. f_equal. exact IH.
Qed.

Lemma integral_snoc f i : sf_integral (f ++ [i]) = sf_integral f + ind_integral i.
Proof. unfold sf_integral. rewrite fold_left_app. reflexivity. Qed.

(** ** counting events *)
Definition cnt (p : event -> bool) (l : list event) : Z := Z.of_nat (length (filter p l)).

Lemma cnt_nonneg p l : 0 <= cnt p l.
Proof. unfold cnt. lia. Qed.
Lemma cnt_app p l m : cnt p (l ++ m) = cnt p l + cnt p m.
Proof. unfold cnt. rewrite filter_app, app_length. lia. Qed.
Lemma cnt_ext p q l : (forall e, In e l -> p e = q e) -> cnt p l = cnt q l.
Proof. intro H. unfold cnt. rewrite (filter_ext_in _ _ _ H). reflexivity. Qed.
Lemma cnt_none p l : (forall e, In e l -> p e = false) -> cnt p l = 0.
Proof. intro H. rewrite (cnt_ext p (fun _ => false)); auto. unfold cnt. induction l; auto. apply IHl. intros; apply H; simpl; auto. Qed.
Lemma cnt_mono p q l : (forall e, In e l -> p e = true -> q e = true) -> cnt p l <= cnt q l.
Proof.
  unfold cnt. induction l as [|e l IH]; intro H; [simpl; lia|]. cbn [filter].
  assert (IH' := IH (fun e' He' => H e' (or_intror He'))). specialize (H e (or_introl eq_refl)).
  destruct (p e); [rewrite (H eq_refl); simpl; lia|]. destruct (q e); simpl; lia.
Qed.
Lemma cnt_perm p l m : Permutation l m -> cnt p l = cnt p m.
Proof. intro H. unfold cnt. f_equal. induction H; cbn [filter]; auto; [destruct (p x); simpl; lia|destruct (p x), (p y); simpl; lia|lia]. Qed.
Lemma cnt_pos p l e : In e l -> p e = true -> 0 < cnt p l.
Proof.
  intros H E. unfold cnt. assert (In e (filter p l)) by (apply filter_In; auto). destruct (filter p l); [easy|]. simpl. lia.
Qed.

Definition cre (x : Z) (e : event) : bool := negb (snd e) && (fst e <=? x).
Definition des (x : Z) (e : event) : bool := snd e && (fst e <=? x).
Definition cle (E : list event) (x : Z) : Z := cnt (cre x) E.
Definition dle (E : list event) (x : Z) : Z := cnt (des x) E.

(** creations before and at [x], destructions before [x]; for integers, before
    [x] means up to [x - 1] *)
Definition both (E : list event) (x : Z) : bool := (cle E (x - 1) <? cle E x) && (dle E (x - 1) <? dle E x).
Definition target (E : list event) (x : Z) : Z := if both E x then cle E (x - 1) - dle E (x - 1) else cle E x - dle E (x - 1).

Lemma cle_gap E v w x : (forall e, In e E -> fst e <= v \/ w <= fst e) -> v <= x < w -> cle E x = cle E v.
Proof.
  intros H Hx. apply cnt_ext. intros e He. unfold cre. f_equal. destruct (H e He); destruct (Z.leb_spec (fst e) x), (Z.leb_spec (fst e) v); lia.
Qed.
Lemma dle_gap E v w x : (forall e, In e E -> fst e <= v \/ w <= fst e) -> v <= x < w -> dle E x = dle E v.
Proof.
  intros H Hx. apply cnt_ext. intros e He. unfold des. f_equal. destruct (H e He); destruct (Z.leb_spec (fst e) x), (Z.leb_spec (fst e) v); lia.
Qed.
Lemma cle_mono E x y : x <= y -> cle E x <= cle E y.
Proof. intro H. apply cnt_mono. intros e _. unfold cre. rewrite !andb_true_iff, !Z.leb_le. intuition lia. Qed.
Lemma dle_mono E x y : x <= y -> dle E x <= dle E y.
Proof. intro H. apply cnt_mono. intros e _. unfold des. rewrite !andb_true_iff, !Z.leb_le. intuition lia. Qed.

Lemma group_counts E1 l1 l2 w : Forall (fun e : event => fst e < w) E1 -> Forall (fun e : event => fst e = w) l1 -> Forall (fun e : event => w < fst e) l2 ->
  let E := E1 ++ l1 ++ l2 in
  cle E w = cle E (w - 1) + cnt (fun e => negb (snd e)) l1 /\ dle E w = dle E (w - 1) + cnt snd l1.
Proof.
  intros H1 H2 H3 E. rewrite Forall_forall in H1, H2, H3. unfold E, cle, dle. rewrite !cnt_app.
  rewrite (cnt_none (cre (w - 1)) l1), (cnt_none (cre (w - 1)) l2), (cnt_none (cre w) l2), (cnt_none (des (w - 1)) l1), (cnt_none (des (w - 1)) l2), (cnt_none (des w) l2).
  2-7: intros e He; unfold cre, des; try specialize (H2 e He); try specialize (H3 e He); destruct (Z.leb_spec (fst e) w), (Z.leb_spec (fst e) (w - 1)); try lia; apply andb_false_r.
  rewrite (cnt_ext (cre w) (cre (w - 1)) E1), (cnt_ext (des w) (des (w - 1)) E1), (cnt_ext (cre w) (fun e => negb (snd e)) l1), (cnt_ext (des w) snd l1).
  - lia.
  - intros e He. unfold des. specialize (H2 e He). destruct (Z.leb_spec (fst e) w); [apply andb_true_r|lia].
  - intros e He. unfold cre. specialize (H2 e He). destruct (Z.leb_spec (fst e) w); [apply andb_true_r|lia].
  - intros e He. unfold des. specialize (H1 e He). destruct (Z.leb_spec (fst e) w), (Z.leb_spec (fst e) (w - 1)); try lia; reflexivity.
  - intros e He. unfold cre. specialize (H1 e He). destruct (Z.leb_spec (fst e) w), (Z.leb_spec (fst e) (w - 1)); try lia; reflexivity.
Qed.

Lemma duplicates_spec v l : StronglySorted (fun e e' : event => fst e <= fst e') l -> (forall e, In e l -> v <= fst e) ->
  exists l1 l2, l = l1 ++ l2 /\ Forall (fun e : event => fst e = v) l1 /\ Forall (fun e : event => v < fst e) l2 /\
    fst (numDuplicateValues v l) = length l1 /\ Z.of_nat (snd (numDuplicateValues v l)) = cnt snd l1 /\
    Z.of_nat (length l1 - snd (numDuplicateValues v l)) = cnt (fun e => negb (snd e)) l1.
Proof.
  induction l as [|e l IH]; intros Hs Hv.
  - exists [], []. refine (conj eq_refl (conj _ (conj _ (conj eq_refl (conj eq_refl eq_refl))))); constructor.
  - inversion Hs as [|? ? Hs' Hf]; subst. cbn [numDuplicateValues]. destruct (Z.eqb_spec (fst e) v) as [Ee|Ne].
    + destruct (IH Hs') as (l1 & l2 & -> & A & B & C & D & F); [intros; apply Hv; simpl; auto|]. exists (e :: l1), l2. cbn [fst snd app length].
      split; [reflexivity|]. split; [constructor; auto|]. split; [auto|]. split; [lia|].
      assert (G : cnt snd l1 + cnt (fun e => negb (snd e)) l1 = Z.of_nat (length l1)).
      { clear. unfold cnt. induction l1 as [|e l IH]; [reflexivity|]. cbn [filter length]. destruct (snd e); cbn [negb length]; lia. }
      unfold cnt in *. cbn [filter]. destruct (snd e); cbn [negb length]; split; lia.
    + exists [], (e :: l). split; [reflexivity|]. split; [constructor|]. split.
      * specialize (Hv e (or_introl eq_refl)). constructor; [lia|]. eapply Forall_impl; [|exact Hf]. cbn beta. intros; lia.
      * cbn. unfold cnt. cbn. auto.
Qed.

(** ** the loop *)
Definition S_sum (E : list event) (v : Z) : Z :=
  fold_right (fun (e : event) acc => (if fst e <=? v then (if snd e then -1 else 1) * (v - fst e) else 0) + acc) 0 E.

Lemma S_sum_gap E v w : (forall e, In e E -> fst e <= v \/ w <= fst e) -> v < w -> S_sum E w = S_sum E v + (w - v) * (cle E v - dle E v).
Proof.
  intros H Hvw. unfold S_sum, cle, dle, cnt, cre, des. induction E as [|e E IH]; [simpl; lia|]. cbn [fold_right filter].
  assert (IH' := IH (fun e' He' => H e' (or_intror He'))). specialize (H e (or_introl eq_refl)).
  destruct (Z.leb_spec (fst e) w), (Z.leb_spec (fst e) v); try lia; destruct (snd e); cbn [andb negb length]; rewrite ?Nat2Z.inj_succ; try lia; nia.
Qed.

Record inv (E : list event) (v : Z) (f : step_function) (prev active : Z) : Prop := Inv {
  inv_sorted : sf_sorted f;
  inv_bounds : Forall (fun i => ib i <= v /\ 0 <= iy i) f;
  inv_before : forall x, x < v -> sf_eval f x = target E x;
  inv_at : sf_eval f v = cle E (v - 1) - dle E (v - 1);
  inv_active : active = cle E v - dle E v;
  inv_prev : prev = if both E v then v + 1 else v;
  inv_integral : (forall x, both E x = false) -> sf_integral f = S_sum E v }.

Lemma pif_unfold fuel events i e t active previous f : skipn i events = e :: t ->
  pif_loop (S fuel) events i active previous f =
  (let pair := numDuplicateValues (fst e) (skipn i events) in
   let occurrences := fst pair in
   let destroyers := snd pair in
   let creators := (occurrences - destroyers)%nat in
   let single := (occurrences =? 1)%nat || (creators =? occurrences)%nat || (creators =? 0)%nat in
   let* f' := (if single then if (i =? 0)%nat then Ok f else sf_add previous (fst e) active f
               else sf_add previous (fst e) active f) in
   let active' := ((active + Z.of_nat creators) mod uint_range - Z.of_nat destroyers) mod uint_range in
   let previous' := if single then fst e else next_value (fst e) in
   pif_loop fuel events (i + occurrences)%nat active' previous' f').
Proof. intro H. cbn [pif_loop]. rewrite H. reflexivity. Qed.

Section Loop.
  Variable E : list event.
  Hypothesis Ebal : forall x, dle E x <= cle E x.
  Hypothesis Esize : cnt (fun e => negb (snd e)) E < uint_range.
  Hypothesis Esorted : StronglySorted (fun e e' : event => fst e <= fst e') E.

  Lemma cle_bound x : cle E x <= cnt (fun e => negb (snd e)) E.
  Proof. apply cnt_mono. intros e _. unfold cre. rewrite andb_true_iff. tauto. Qed.

  Lemma active_step w a c d : a = cle E (w - 1) - dle E (w - 1) -> cle E w = cle E (w - 1) + c -> dle E w = dle E (w - 1) + d -> 0 <= c -> 0 <= d ->
    ((a + c) mod uint_range - d) mod uint_range = cle E w - dle E w.
  Proof.
    intros Ha Hc Hd Nc Nd. assert (H1 := Ebal w). assert (H2 := cle_bound w). assert (0 <= dle E w) by apply cnt_nonneg.
    rewrite Zminus_mod_idemp_l. rewrite Z.mod_small; lia.
  Qed.

  (** adding the interval up to the next value [w] *)
  Lemma step_inv v w f prev active : inv E v f prev active -> (exists e, In e E /\ fst e = v) -> (forall e, In e E -> fst e <= v \/ w <= fst e) -> v < w ->
    forall prev' active', active' = cle E w - dle E w -> prev' = (if both E w then w + 1 else w) ->
    sf_add prev w active f = Ok (f ++ [Ind prev w active]) /\ inv E w (f ++ [Ind prev w active]) prev' active'.
  Proof.
    intros [I1 I2 I3 I4 I5 I6 I7] _ Hgap Hvw prev' active' Ha Hp.
    assert (Hpw : v <= prev <= w /\ prev <= v + 1) by (destruct (both E v); lia).
    assert (Hbal := Ebal v). assert (Hn : 0 <= active) by lia.
    assert (Hlt : Forall (fun j => ib j <= ia (Ind prev w active) /\ ia j < ib (Ind prev w active)) f).
    { destruct I1 as [_ I1]. rewrite Forall_forall in *. intros j Hj. specialize (I1 j Hj). specialize (I2 j Hj). cbn [ia ib]. lia. }
    assert (Hs : sf_sorted (f ++ [Ind prev w active])).
    { apply sf_sorted_snoc; auto; [|cbn [ia ib]; lia]. eapply Forall_impl; [|exact Hlt]. cbn beta. intros; lia. }
    assert (Hev : forall x, sf_eval (f ++ [Ind prev w active]) x = if ind_contains x (Ind prev w active) then Z.max (sf_eval f x) active else sf_eval f x).
    { intro x. apply eval_snoc; auto. eapply Forall_impl; [|exact I2]. cbn beta. intros; lia. }
    split; [unfold sf_add, indicator_of; destruct (Z.ltb_spec w prev); [lia|]; f_equal; apply insert_last; exact Hlt|].
    assert (Hout : forall x, v < x -> sf_eval f x = 0).
    { intros x Hx. apply eval_outside; auto. eapply Forall_impl; [|exact I2]. cbn beta. intros; lia. }
    constructor; auto.
    - apply Forall_app. split; [eapply Forall_impl; [|exact I2]; cbn beta; intros; lia|]. constructor; [cbn [ib iy]; lia|constructor].
    - intros x Hx. rewrite Hev. destruct (Z.lt_trichotomy x v) as [H|[->|H]].
      + destruct (ind_contains x (Ind prev w active)) eqn:Ec; [apply contains_spec in Ec; cbn [ia ib] in Ec; lia|auto].
      + rewrite I4. unfold target. destruct (both E v) eqn:Eb.
        * destruct (ind_contains v (Ind prev w active)) eqn:Ec; [apply contains_spec in Ec; cbn [ia ib] in Ec; lia|auto].
        * assert (Ec : ind_contains v (Ind prev w active) = true) by (apply contains_spec; cbn [ia ib]; lia). rewrite Ec. subst active.
          unfold both in Eb. assert (M1 := cle_mono E (v - 1) v ltac:(lia)). assert (M2 := dle_mono E (v - 1) v ltac:(lia)).
          destruct (Z.ltb_spec (cle E (v - 1)) (cle E v)), (Z.ltb_spec (dle E (v - 1)) (dle E v)); try discriminate; lia.
      + assert (Ec : ind_contains x (Ind prev w active) = true) by (apply contains_spec; cbn [ia ib]; lia). rewrite Ec, (Hout x H).
        unfold target, both. rewrite (cle_gap E v w x), (dle_gap E v w x), (cle_gap E v w (x - 1)), (dle_gap E v w (x - 1)) by (auto; lia). rewrite Z.ltb_irrefl. cbn [andb]. lia.
    - rewrite Hev, (Hout w Hvw). assert (Ec : ind_contains w (Ind prev w active) = true) by (apply contains_spec; cbn [ia ib]; lia). rewrite Ec.
      rewrite (cle_gap E v w (w - 1)), (dle_gap E v w (w - 1)) by (auto; lia). lia.
    - intro Hb. rewrite integral_snoc, (I7 Hb), (S_sum_gap E v w Hgap Hvw). unfold ind_integral. cbn [ia ib iy]. rewrite I6, (Hb v). lia.
  Qed.

  Lemma single_spec l1 l2 E1 w : E = E1 ++ l1 ++ l2 -> l1 <> [] -> Forall (fun e : event => fst e < w) E1 -> Forall (fun e : event => fst e = w) l1 -> Forall (fun e : event => w < fst e) l2 ->
    forall d, Z.of_nat d = cnt snd l1 -> Z.of_nat (length l1 - d) = cnt (fun e => negb (snd e)) l1 ->
    ((length l1 =? 1)%nat || (length l1 - d =? length l1)%nat || (length l1 - d =? 0)%nat) = negb (both E w).
  Proof.
    intros HE Hn H1 H2 H3 d Hd Hc. destruct (group_counts E1 l1 l2 w H1 H2 H3) as [A B]. rewrite <- HE in A, B. unfold both. rewrite A, B.
    assert (length l1 <> 0)%nat by (destruct l1; easy).
    assert (cnt snd l1 + cnt (fun e => negb (snd e)) l1 = Z.of_nat (length l1)).
    { clear. unfold cnt. induction l1 as [|e l IH]; [reflexivity|]. cbn [filter length]. destruct (snd e); cbn [negb length]; lia. }
    destruct (Nat.eqb_spec (length l1) 1), (Nat.eqb_spec (length l1 - d) (length l1)), (Nat.eqb_spec (length l1 - d) 0);
      destruct (Z.ltb_spec (cle E (w - 1)) (cle E (w - 1) + cnt (fun e => negb (snd e)) l1)), (Z.ltb_spec (dle E (w - 1)) (dle E (w - 1) + cnt snd l1)); cbn [orb andb negb]; lia || reflexivity.
  Qed.

  Lemma loop_inv : forall fuel E1 E2 v f prev active, E = E1 ++ E2 -> (length E2 < fuel)%nat -> E1 <> [] ->
    (exists e, In e E /\ fst e = v) -> Forall (fun e : event => fst e <= v) E1 -> Forall (fun e : event => v < fst e) E2 -> inv E v f prev active ->
    exists v' f' prev' active', pif_loop fuel E (length E1) active prev f = Ok f' /\ inv E v' f' prev' active' /\
      (exists e, In e E /\ fst e = v') /\ (forall e, In e E -> fst e <= v').
  Proof.
    induction fuel as [|fuel IH]; intros E1 E2 v f prev active HE Hf Hn Hv H1 H2 HI; [lia|].
    assert (Hskip : skipn (length E1) E = E2) by (rewrite HE, skipn_app, skipn_all, Nat.sub_diag; reflexivity).
    cbn [pif_loop]. rewrite Hskip. destruct E2 as [|e E2'].
    { exists v, f, prev, active. rewrite app_nil_r in HE. subst E1. split; [reflexivity|]. split; [auto|]. split; [auto|]. apply Forall_forall. auto. }
    set (w := fst e). assert (Hs2 : StronglySorted (fun e e' : event => fst e <= fst e') (e :: E2')).
    { assert (Hs := Esorted). rewrite HE in Hs. clear - Hs. induction E1 as [|a E1 IH]; auto. inversion Hs; subst. auto. }
    assert (Hw : forall e', In e' (e :: E2') -> w <= fst e').
    { intros e' [<-|He']; [unfold w; lia|]. inversion Hs2 as [|? ? _ Hf']; subst. rewrite Forall_forall in Hf'. apply Hf'. auto. }
    destruct (duplicates_spec w (e :: E2') Hs2 Hw) as (l1 & l2 & El & A & B & C & D & F).
    assert (Hl1 : l1 <> []).
    { intros ->. simpl in El. rewrite <- El in B. inversion B; subst. unfold w in *. lia. }
    assert (Hvw : v < w) by (inversion H2; auto).
    assert (H1' : Forall (fun e : event => fst e < w) E1) by (eapply Forall_impl; [|exact H1]; cbn beta; intros; lia).
    assert (HE' : E = E1 ++ l1 ++ l2) by (rewrite HE, El; reflexivity).
    assert (Hgap : forall e, In e E -> fst e <= v \/ w <= fst e).
    { intros e' He'. rewrite HE in He'. apply in_app_iff in He' as [He'|He']; [left; rewrite Forall_forall in H1; auto|right; auto]. }
    destruct (group_counts E1 l1 l2 w H1' A B) as [G1 G2]. rewrite <- HE' in G1, G2.
    rewrite C. cbn zeta. rewrite (single_spec l1 l2 E1 w HE' Hl1 H1' A B _ D F).
    assert (Hact : ((active + Z.of_nat (length l1 - snd (numDuplicateValues w (e :: E2')))) mod uint_range - Z.of_nat (snd (numDuplicateValues w (e :: E2')))) mod uint_range = cle E w - dle E w).
    { apply active_step; try lia. destruct HI as [_ _ _ _ I5 _ _]. rewrite I5. rewrite (cle_gap E v w (w - 1)), (dle_gap E v w (w - 1)) by (auto; lia). reflexivity. }
    rewrite Hact.
    destruct (step_inv v w f prev active HI Hv Hgap Hvw (if both E w then w + 1 else w) (cle E w - dle E w) eq_refl eq_refl) as [Hadd HI'].
    assert (Hi : (length E1 =? 0)%nat = false) by (destruct E1; easy). rewrite Hi.
    replace (if negb (both E w) then sf_add prev w active f else sf_add prev w active f) with (sf_add prev w active f) by (destruct (both E w); reflexivity).
    rewrite Hadd. cbn [bind].
    replace (if negb (both E w) then w else next_value w) with (if both E w then w + 1 else w) by (unfold next_value; destruct (both E w); reflexivity).
    replace (length E1 + length l1)%nat with (length (E1 ++ l1)) by (rewrite app_length; lia).
    apply (IH (E1 ++ l1) l2 w); auto.
    - rewrite HE', app_assoc. reflexivity.
    - rewrite El, app_length in Hf. destruct l1; [easy|]. simpl in Hf. lia.
    - destruct E1; easy.
    - exists e. split; [rewrite HE, in_app_iff; simpl; auto|reflexivity].
    - apply Forall_app. split; [eapply Forall_impl; [|exact H1']|eapply Forall_impl; [|exact A]]; cbn beta; intros; lia.
  Qed.

  (** the first value *)
  Lemma loop_first e0 E0 : E = e0 :: E0 -> both E (fst e0) = false \/ 0 <= fst e0 ->
    exists v' f' prev' active', pif_loop (S (length E)) E 0 0 0 [] = Ok f' /\ inv E v' f' prev' active' /\
      (exists e, In e E /\ fst e = v') /\ (forall e, In e E -> fst e <= v').
  Proof.
    intros HE Hcase. set (w := fst e0) in *. assert (Hs2 := Esorted). remember (length E) as n eqn:En. rewrite (pif_unfold n E 0 e0 E0) by (cbn [skipn]; exact HE). cbn [skipn]. fold w.
    assert (Hw : forall e', In e' E -> w <= fst e').
    { intros e' He'. rewrite HE in He', Hs2. destruct He' as [<-|He']; [unfold w; lia|]. inversion Hs2 as [|? ? _ Hf']; subst. rewrite Forall_forall in Hf'. apply Hf'. auto. }
    destruct (duplicates_spec w E Hs2 Hw) as (l1 & l2 & El & A & B & C & D & F).
    assert (Hl1 : l1 <> []).
    { intros ->. simpl in El. rewrite <- El, HE in B. inversion B; subst. unfold w in *. lia. }
    destruct (group_counts [] l1 l2 w (Forall_nil _) A B) as [G1 G2]. cbn [app] in G1, G2. rewrite <- El in G1, G2.
    assert (Hzero : forall x, x < w -> cle E x = 0 /\ dle E x = 0).
    { intros x Hx. split; apply cnt_none; intros e He; specialize (Hw e He); unfold cre, des; destruct (Z.leb_spec (fst e) x); try lia; apply andb_false_r. }
    assert (Hz1 := Hzero (w - 1) ltac:(lia)). destruct Hz1 as [Z1 Z2].
    rewrite C. cbn zeta. rewrite (single_spec l1 l2 [] w El Hl1 (Forall_nil _) A B _ D F).
    assert (Hact : ((0 + Z.of_nat (length l1 - snd (numDuplicateValues w E))) mod uint_range - Z.of_nat (snd (numDuplicateValues w E))) mod uint_range = cle E w - dle E w).
    { apply active_step; lia. }
    rewrite Hact. cbn [Nat.eqb].
    assert (HI : exists f0, (if negb (both E w) then Ok [] else sf_add 0 w 0 []) = Ok f0 /\ inv E w f0 (if both E w then w + 1 else w) (cle E w - dle E w)).
    { assert (Hsum : S_sum E w = 0).
      { clear - Hw. unfold S_sum. assert (G : forall l, (forall e, In e l -> w <= fst e) -> fold_right (fun (e : event) acc => (if fst e <=? w then (if snd e then -1 else 1) * (w - fst e) else 0) + acc) 0 l = 0); [|apply G; auto].
        induction l as [|e l IH]; intro H; [reflexivity|]. cbn [fold_right]. rewrite IH by (intros; apply H; simpl; auto). specialize (H e (or_introl eq_refl)). destruct (Z.leb_spec (fst e) w); [|lia]. replace (w - fst e) with 0 by lia. lia. }
      assert (HT : forall x, x < w -> target E x = 0).
      { intros x Hx. unfold target, both. destruct (Hzero x Hx) as [-> ->]. destruct (Hzero (x - 1) ltac:(lia)) as [-> ->]. reflexivity. }
      destruct (both E w) eqn:Eb; cbn [negb].
      - destruct Hcase as [Hc|Hc]; [congruence|]. exists [Ind 0 w 0]. split; [unfold sf_add, indicator_of; destruct (Z.ltb_spec w 0); [lia|reflexivity]|].
        assert (Hs0 : sf_sorted [Ind 0 w 0]) by (split; repeat constructor; cbn [ia ib]; lia).
        assert (Hev : forall x, sf_eval [Ind 0 w 0] x = 0).
        { intro x. rewrite eval_filter by auto. cbn [filter]. destruct (ind_contains x (Ind 0 w 0)) eqn:Ec; [|reflexivity]. cbn [fold_left]. unfold eval_step, ind_eval. rewrite Ec. reflexivity. }
        refine (Inv _ _ _ _ _ Hs0 _ _ _ eq_refl _ _).
        + repeat constructor; cbn [ib iy]; lia.
        + intros x Hx. rewrite Hev, HT; auto.
        + rewrite Hev. lia.
        + rewrite Eb. reflexivity.
        + intro Hb. rewrite Hb in Eb. discriminate.
      - exists []. split; [reflexivity|]. refine (Inv _ _ _ _ _ _ _ _ _ eq_refl _ _).
        + split; constructor.
        + constructor.
        + intros x Hx. rewrite HT; auto.
        + cbn. lia.
        + rewrite Eb. reflexivity.
        + intros _. rewrite Hsum. reflexivity. }
    destruct HI as (f0 & Hadd & HI).
    replace (if negb (both E w) then Ok (A := step_function) [] else sf_add 0 w 0 []) with (Ok f0) by (rewrite Hadd; reflexivity). cbn [bind].
    replace (if negb (both E w) then w else next_value w) with (if both E w then w + 1 else w) by (unfold next_value; destruct (both E w); reflexivity).
    replace (0 + length l1)%nat with (length l1) by lia. apply (loop_inv n l1 l2 w); auto.
    - rewrite En, El, app_length. destruct l1; [easy|]. simpl. lia.
    - exists e0. split; [rewrite HE; simpl; auto|reflexivity].
    - eapply Forall_impl; [|exact A]; cbn beta; intros; lia.
  Qed.
End Loop.
