(** * Linear algebra over the field with two elements, and the spaces of cycles
    and boundaries of a filtered boundary matrix. *)

From Coq Require Import List Arith Bool Lia Permutation Sorted.
From Verif Require Import Base BaseFacts Matrix SpecMatrix ReductionFacts AlgorithmFacts
  PairingFacts DualFacts RepFacts SpecHomology.
Import ListNotations.

(** ** Combinations *)

Lemma veq_refl x : veq x x. Proof. intro; auto. Qed.
Lemma veq_sym x y : veq x y -> veq y x. Proof. intros H r; auto. Qed.
Lemma veq_trans x y z : veq x y -> veq y z -> veq x z.
Proof. intros H1 H2 r. rewrite H1; auto. Qed.

Fixpoint zipx (c d : list bool) : list bool :=
  match c, d with
  | a :: c', b :: d' => xorb a b :: zipx c' d'
  | _, _ => []
  end.

Lemma zipx_length c d : length c = length d -> length (zipx c d) = length c.
Proof. revert d. induction c; intros [|b d] H; simpl in *; try discriminate; auto. Qed.

Lemma comb_zipx c d B : length c = length B -> length d = length B ->
  veq (comb (zipx c d) B) (vadd (comb c B) (comb d B)).
Proof.
  revert d B. induction c as [|a c IH]; intros [|b d] [|x B] H1 H2; simpl in *; try discriminate.
  - intro r. reflexivity.
  - intro r. specialize (IH d B ltac:(lia) ltac:(lia) r). unfold vadd in *.
    destruct a, b; simpl; rewrite ?IH; destruct (x r), (comb c B r), (comb d B r); auto.
Qed.

Lemma comb_false n B : veq (comb (repeat false n) B) vzero.
Proof. revert B. induction n as [|n IH]; intros [|x B]; simpl; try apply veq_refl. apply IH. Qed.

Lemma zipx_false c d : length c = length d -> (forall b, In b (zipx c d) -> b = false) -> c = d.
Proof.
  revert d. induction c as [|a c IH]; intros [|b d] H Hz; simpl in *; try discriminate; auto.
  assert (E : xorb a b = false) by (apply Hz; auto). apply xorb_eq in E. subst b.
  f_equal. apply IH; auto.
Qed.

Lemma in_span_veq B x y : veq x y -> in_span B x -> in_span B y.
Proof. intros H (c & Hc & E). exists c. split; auto. eapply veq_trans; [apply veq_sym|]; eauto. Qed.

Lemma in_span_zero B : in_span B vzero.
Proof. exists (repeat false (length B)). rewrite repeat_length. split; auto. apply veq_sym, comb_false. Qed.

Lemma in_span_add B x y : in_span B x -> in_span B y -> in_span B (vadd x y).
Proof.
  intros (c & Hc & E) (d & Hd & F). exists (zipx c d). split.
  - rewrite zipx_length; congruence.
  - intro r. rewrite comb_zipx by auto. unfold vadd. rewrite E, F. auto.
Qed.

Lemma in_span_elt B x : In x B -> in_span B x.
Proof.
  induction B as [|y B IH]; intros [].
  - subst y. exists (true :: repeat false (length B)). simpl. rewrite repeat_length. split; auto.
    intro r. unfold vadd. rewrite comb_false. unfold vzero. destruct (x r); auto.
  - destruct IH as (c & Hc & E); auto. exists (false :: c). simpl. auto.
Qed.

Lemma in_span_comb B' c B : (forall x, In x B -> in_span B' x) -> in_span B' (comb c B).
Proof.
  revert B. induction c as [|a c IH]; intros [|x B] H; simpl; try apply in_span_zero.
  destruct a; [apply in_span_add|]; try apply IH; simpl in H; auto.
Qed.

(** ** The dimension is well defined *)

Fixpoint bools (n : nat) : list (list bool) :=
  match n with
  | 0 => [[]]
  | S n => map (cons true) (bools n) ++ map (cons false) (bools n)
  end.

Lemma bools_length n : length (bools n) = 2 ^ n.
Proof. induction n; simpl; auto. rewrite app_length, !map_length, IHn. lia. Qed.

Lemma bools_In n c : In c (bools n) <-> length c = n.
Proof.
  revert c. induction n as [|n IH]; intro c; simpl.
  - split; [intros [<-|[]]; auto|]. destruct c; [auto|discriminate].
  - rewrite in_app_iff, !in_map_iff. split.
    + intros [(d & <- & H)|(d & <- & H)]; simpl; f_equal; apply IH; auto.
    + destruct c as [|b c]; intro H; [discriminate|]. simpl in H. injection H as H.
      apply IH in H. destruct b; [left|right]; exists c; auto.
Qed.

Lemma bools_NoDup n : NoDup (bools n).
Proof.
  induction n as [|n IH]; simpl; [constructor; [simpl; tauto|constructor]|].
  apply NoDup_app_intro.
  - apply FinFun.Injective_map_NoDup; auto. intros x y [= ->]; auto.
  - apply FinFun.Injective_map_NoDup; auto. intros x y [= ->]; auto.
  - intros x Hx Hy. apply in_map_iff in Hx, Hy. destruct Hx as (a & <- & _), Hy as (b & [=] & _).
Qed.

Lemma finite_choice {A B} (P : A -> B -> Prop) l :
  (forall a, In a l -> exists b, P a b) -> exists m, Forall2 P l m.
Proof.
  induction l as [|a l IH]; intro H; [exists []; constructor|].
  destruct (H a) as [b Hb]; simpl; auto. destruct IH as [m Hm]; [intros; apply H; simpl; auto|].
  exists (b :: m). constructor; auto.
Qed.

Lemma Forall2_in_r {A B} (P : A -> B -> Prop) l m y : Forall2 P l m -> In y m -> exists x, In x l /\ P x y.
Proof.
  induction 1 as [|a b l m H HF IH]; intros []; [subst; exists a; simpl; auto|].
  destruct IH as (x & Hx & Px); auto. exists x; simpl; auto.
Qed.

Lemma Forall2_in_l {A B} (P : A -> B -> Prop) l m x : Forall2 P l m -> In x l -> exists y, In y m /\ P x y.
Proof.
  induction 1 as [|a b l m H HF IH]; intros []; [subst; exists b; simpl; auto|].
  destruct IH as (y & Hy & Py); auto. exists y; simpl; auto.
Qed.

Lemma Forall2_inj_NoDup {A B} (P : A -> B -> Prop) l m :
  (forall a a' b, In a l -> In a' l -> P a b -> P a' b -> a = a') ->
  Forall2 P l m -> NoDup l -> NoDup m.
Proof.
  intros Hi HF. induction HF as [|a b l m Hab HF IH]; intro Hn; constructor; inversion Hn; subst.
  - intro Hb. destruct (Forall2_in_r P l m b HF Hb) as (x & Hx & Px).
    assert (a = x) by (apply (Hi a x b); simpl; auto). subst. auto.
  - apply IH; auto. intros; eapply Hi; simpl; eauto.
Qed.

Lemma Forall2_len {A B} (P : A -> B -> Prop) l m : Forall2 P l m -> length l = length m.
Proof. induction 1; simpl; auto. Qed.

Lemma independent_le_spanning B B' :
  independent B -> (forall x, In x B -> in_span B' x) -> length B <= length B'.
Proof.
  intros Hi Hs.
  set (P := fun c d : list bool => length d = length B' /\ veq (comb c B) (comb d B')).
  destruct (finite_choice P (bools (length B))) as [m Hm].
  { intros c Hc. destruct (in_span_comb B' c B Hs) as (d & Hd & E). exists d. split; auto. }
  assert (Hn : NoDup m).
  { eapply Forall2_inj_NoDup; [|apply Hm|apply bools_NoDup].
    intros a a' b Ha Ha' [_ E] [_ E']. apply bools_In in Ha, Ha'. apply zipx_false; [congruence|].
    apply Hi; [rewrite zipx_length; congruence|]. intro r. rewrite comb_zipx by auto.
    unfold vadd. rewrite E, E'. apply xorb_nilpotent. }
  assert (Hle : length m <= length (bools (length B'))).
  { apply NoDup_incl_length; auto. intros d Hd. apply bools_In.
    destruct (Forall2_in_r P _ _ d Hm Hd) as (c & _ & H & _). auto. }
  rewrite <- (Forall2_len _ _ _ Hm), !bools_length in Hle.
  apply Nat.pow_le_mono_r_iff in Hle; lia.
Qed.

Theorem has_dim_unique V n m : has_dim V n -> has_dim V m -> n = m.
Proof.
  intros (B & <- & HB & Hi & Hs) (B' & <- & HB' & Hi' & Hs').
  apply Nat.le_antisymm; apply independent_le_spanning; auto.
Qed.

Lemma has_dim_ext V W n : (forall x, V x <-> W x) -> has_dim V n -> has_dim W n.
Proof.
  intros H (B & HL & HB & Hi & Hs). exists B. refine (conj HL (conj _ (conj Hi _))).
  - intros b Hb. apply H; auto.
  - intros x Hx. apply Hs, H; auto.
Qed.

(** ** Bases with pairwise different lowest entries *)

Lemma comb_low_true L B m c :
  Forall2 (fun l x => is_low x l) L B -> StronglySorted lt (m :: L) ->
  length c = length B -> In true c -> exists r, m < r /\ comb c B r = true.
Proof.
  intro HF. revert m c. induction HF as [|l x L B Hl HF IH]; intros m c Hs Hc Ht.
  - destruct c; [destruct Ht|discriminate].
  - destruct c as [|a c]; [destruct Ht|]. simpl in Hc.
    inversion Hs as [|? ? Hs' Hall]; subst. rewrite Forall_forall in Hall.
    assert (Hml : m < l) by (apply Hall; simpl; auto).
    destruct (in_dec Bool.bool_dec true c) as [Hi|Hi].
    + destruct (IH l c) as (r & Hr & E); auto. exists r. split; [lia|]. simpl.
      destruct a; auto. unfold vadd. rewrite (proj2 Hl r Hr), E. auto.
    + destruct Ht as [->|Ht]; [|tauto]. exists l. split; auto. simpl. unfold vadd.
      rewrite (proj1 Hl). assert (Z : comb c B l = false); [|rewrite Z; auto].
      replace c with (repeat false (length c)); [apply comb_false|].
      clear -Hi. induction c as [|b c IH]; simpl in *; auto. destruct b; [tauto|]. f_equal. apply IH; tauto.
Qed.

Lemma lows_independent L B :
  Forall2 (fun l x => is_low x l) L B -> StronglySorted lt L -> independent B.
Proof.
  intros HF Hs c Hc Hz b Hb. destruct b; auto. exfalso.
  inversion HF; subst; [destruct c; [destruct Hb|discriminate]|].
  rename x into l0, y into x0, l into L', l' into B'.
  destruct c as [|a c]; [discriminate|]. simpl in Hc.
  destruct (in_dec Bool.bool_dec true c) as [Hi|Hi].
  - destruct (comb_low_true L' B' l0 c) as (r & Hr & E); auto.
    specialize (Hz r). simpl in Hz. destruct a; [|unfold vzero in Hz; congruence].
    unfold vadd, vzero in Hz. rewrite (proj2 H r Hr), E in Hz. discriminate.
  - destruct Hb as [->|Hb]; [|tauto]. specialize (Hz l0). simpl in Hz. unfold vadd, vzero in Hz.
    assert (Z : comb c B' l0 = false); [|rewrite Z, (proj1 H) in Hz; discriminate].
    replace c with (repeat false (length c)); [apply comb_false|].
    clear -Hi. induction c as [|b c IH]; simpl in *; auto. destruct b; [tauto|]. f_equal. apply IH; tauto.
Qed.

(** a space all of whose non-zero elements have their lowest entry in [L], and
    each of these occurs, has dimension [length L] *)
Lemma dim_by_lows (V : vec -> Prop) L i :
  StronglySorted lt L ->
  (forall x y, V x -> V y -> V (vadd x y)) ->
  (forall x k, V x -> x k = true -> k < i) ->
  (forall l, In l L -> exists x, V x /\ is_low x l) ->
  (forall x l, V x -> is_low x l -> In l L) ->
  has_dim V (length L).
Proof.
  intros HL Hadd Hb Hex Hin.
  destruct (finite_choice (fun l x => V x /\ is_low x l) L Hex) as [B HB].
  assert (HF : Forall2 (fun l x => is_low x l) L B).
  { clear -HB. induction HB; constructor; tauto. }
  exists B. refine (conj _ (conj _ (conj _ _))).
  - symmetry. eapply Forall2_len; eauto.
  - intros b Hb'. destruct (Forall2_in_r _ _ _ b HB Hb') as (l & _ & H & _). auto.
  - eapply lows_independent; eauto.
  - assert (G : forall m x, V x -> (forall k, x k = true -> k < m) -> in_span B x).
    { induction m as [|m IH]; intros x Vx Hx.
      - apply (in_span_veq B vzero); [|apply in_span_zero]. intro r. unfold vzero.
        destruct (x r) eqn:E; auto. apply Hx in E. lia.
      - destruct (x m) eqn:E.
        + assert (Hlow : is_low x m).
          { split; auto. intros r Hr. destruct (x r) eqn:F; auto. apply Hx in F. lia. }
          destruct (Forall2_in_l _ _ _ m HB (Hin x m Vx Hlow)) as (b & Hb' & Vb & Lb).
          apply (in_span_veq B (vadd b (vadd x b))).
          * intro r. unfold vadd. destruct (b r), (x r); auto.
          * apply in_span_add; [apply in_span_elt; auto|]. apply IH; auto.
            intros k Hk. unfold vadd in Hk. destruct (Nat.lt_trichotomy k m) as [|[->|Hk']]; auto.
            -- rewrite E, (proj1 Lb) in Hk. discriminate.
            -- rewrite (proj2 Hlow k Hk'), (proj2 Lb k Hk') in Hk. discriminate.
        + apply IH; auto. intros k Hk. specialize (Hx k Hk). destruct (Nat.eq_dec k m); [congruence|lia]. }
    intros x Vx. apply (G i); auto. intros; eapply Hb; eauto.
Qed.

(** ** The boundary operator *)
Local Arguments min_low : simpl never.

Definition vsingle (k : nat) : vec := fun r => r =? k.
Definition vlist (S : list nat) : vec := fold_right (fun k x => vadd (vsingle k) x) vzero S.

Lemma bigx_ext f g l : (forall k, In k l -> f k = g k) -> bigx f l = bigx g l.
Proof.
  induction l as [|a l IH]; intro H; [reflexivity|]. rewrite !bigx_cons, H, IH; simpl; auto.
  intros; apply H; simpl; auto.
Qed.

Lemma bigx_app f l m : bigx f (l ++ m) = xorb (bigx f l) (bigx f m).
Proof.
  induction l as [|a l IH]; simpl; [destruct (bigx f m); auto|].
  change (bigx f (a :: l ++ m) = xorb (xorb (f a) (bigx f l)) (bigx f m)).
  rewrite bigx_cons, IH, xorb_assoc. auto.
Qed.

Lemma filter_nil {A} (f : A -> bool) l : (forall x, In x l -> f x = false) -> filter f l = [].
Proof. induction l as [|a l IH]; intro H; simpl; auto. rewrite H by (simpl; auto). apply IH. intros; apply H; simpl; auto. Qed.

Lemma bd_bigx C x r : bd C x r = bigx (fun k => x k && entry C r k) (seq 0 (length C)).
Proof. reflexivity. Qed.

Lemma bd_ext C x y : veq x y -> veq (bd C x) (bd C y).
Proof. intros H r. rewrite !bd_bigx. apply bigx_ext. intros k _. rewrite H. auto. Qed.

Lemma bd_add C x y : veq (bd C (vadd x y)) (vadd (bd C x) (bd C y)).
Proof.
  intro r. unfold vadd at 2. rewrite !bd_bigx, <- bigx_linear. apply bigx_ext. intros k _.
  unfold vadd. destruct (x k), (y k), (entry C r k); auto.
Qed.

Lemma bd_zero C : veq (bd C vzero) vzero.
Proof. intro r. rewrite bd_bigx. apply bigx_zero. auto. Qed.

Lemma bd_filter C x r : bd C x r = sum_cols C (filter x (seq 0 (length C))) r.
Proof.
  unfold bd. generalize (seq 0 (length C)) as l. induction l as [|k l IH]; [reflexivity|].
  cbn [fold_right filter]. rewrite IH. destruct (x k); cbn [sum_cols fold_right]; auto.
  rewrite andb_false_l, xorb_false_l. auto.
Qed.

Lemma bd_single C k : k < length C -> veq (bd C (vsingle k)) (fun r => entry C r k).
Proof.
  intros Hk r. rewrite bd_bigx.
  replace (length C) with (k + S (length C - S k)) by lia. rewrite seq_app, bigx_app. cbn [seq plus].
  rewrite bigx_cons, (bigx_zero _ (seq 0 k)), (bigx_zero _ (seq (S k) _)).
  - unfold vsingle. rewrite Nat.eqb_refl. rewrite xorb_false_r, xorb_false_l, andb_true_l. auto.
  - intros y Hy. apply in_seq in Hy. unfold vsingle. destruct (Nat.eqb_spec y k); [lia|auto].
  - intros y Hy. apply in_seq in Hy. unfold vsingle. destruct (Nat.eqb_spec y k); [lia|auto].
Qed.

Lemma bd_vlist C S : (forall k, In k S -> k < length C) -> veq (bd C (vlist S)) (sum_cols C S).
Proof.
  induction S as [|k S IH]; intro H; [apply bd_zero|].
  intro r. cbn [vlist fold_right]. rewrite bd_add. unfold vadd.
  rewrite bd_single by (apply H; simpl; auto). fold (vlist S). rewrite IH by (intros; apply H; simpl; auto). reflexivity.
Qed.

Lemma vlist_true S k : vlist S k = true -> In k S.
Proof.
  induction S as [|a S IH]; [discriminate|]. cbn [vlist fold_right]. fold (vlist S). unfold vadd, vsingle.
  destruct (Nat.eqb_spec k a); [subst; simpl; auto|]. rewrite xorb_false_l. simpl; auto.
Qed.

Section Boundary.
  Variables (C : list (list nat)) (dims : list nat).
  Hypothesis HV : valid_boundary C dims.
  Let n := length C.
  Let M := Matrix C dims false.

  Let Hsort : sorted_cols C := proj1 (proj2 HV).
  Let Hgrade := proj1 (proj2 (proj2 HV)).
  Let Hsq := proj2 (proj2 (proj2 HV)).

  Lemma HB_square : square C.
  Proof. apply (valid_square M HV). Qed.

  Lemma bd_bd x : veq (bd C (bd C x)) vzero.
  Proof.
    assert (G : forall l, veq (bd C (fun r => fold_right (fun k acc => xorb (x k && entry C r k) acc) false l)) vzero).
    { induction l as [|k l IH].
      - cbn [fold_right]. apply bd_zero.
      - intro r. cbn [fold_right].
        change (bd C (vadd (fun r => x k && entry C r k)
                  (fun r => fold_right (fun k acc => xorb (x k && entry C r k) acc) false l)) r = false).
        rewrite bd_add. unfold vadd at 1. rewrite IH. unfold vzero. rewrite xorb_false_r.
        destruct (x k); [|apply bd_zero]. simpl.
        rewrite bd_bigx. pose proof (Hsq k r) as Z. unfold sum_cols in Z. fold (bigx (fun k => entry C r k)) in Z.
        change (bigx (fun k0 => entry C r k0) (nth k C []) = false) in Z.
        destruct (le_lt_dec (length C) k) as [Hk|Hk].
        + apply bigx_zero. intros y _. unfold entry. rewrite (nth_overflow C) by auto. auto.
        + assert (Hc : In (nth k C []) C) by (apply nth_In; auto).
          rewrite (bigx_restrict _ _ (seq 0 (length C))) in Z.
          * rewrite <- Z. apply bigx_ext. intros y _. rewrite andb_comm. reflexivity.
          * apply SSlt_NoDup. apply Hsort; auto.
          * intros y Hy. apply in_seq. split; [lia|]. simpl. eapply HB_square; eauto.
          * apply seq_NoDup. }
    intro r. rewrite <- (G (seq 0 (length C)) r). apply bd_ext. intro s. reflexivity.
  Qed.

  Lemma coset_of_chain y m : m < n -> y m = true -> (forall k, m < k -> y k = false) -> coset C m (bd C y).
  Proof.
    intros Hm Hy Hab. exists (filter y (seq 0 m)). split.
    - intros k Hk. apply filter_In in Hk. destruct Hk as [Hk _]. apply in_seq in Hk. lia.
    - intro r. rewrite bd_filter. fold n. replace n with (m + S (n - S m)) by lia.
      rewrite seq_app, filter_app. cbn [plus seq filter]. rewrite Hy.
      rewrite sum_cols_app. rewrite (filter_nil y (seq (S m) (n - S m))).
      + cbn [sum_cols fold_right]. rewrite xorb_false_r, xorb_comm. auto.
      + intros k Hk. apply in_seq in Hk. apply Hab. lia.
  Qed.

  Lemma chain_of_coset j x : j < n -> coset C j x ->
    exists y, is_low y j /\ chain dims (S j) (nth j dims 0) y /\
      forall r, bd C y r = if S (nth r dims 0) =? nth j dims 0 then x r else false.
  Proof.
    intros Hj (S0 & HS & Hx).
    set (T := j :: filter (fun k => nth k dims 0 =? nth j dims 0) S0).
    exists (vlist T).
    assert (Hin : forall k, vlist T k = true -> k <= j /\ nth k dims 0 = nth j dims 0).
    { intros k Hk. apply vlist_true in Hk. destruct Hk as [<-|Hk]; [auto|].
      apply filter_In in Hk. destruct Hk as [Hk E]. apply Nat.eqb_eq in E. apply HS in Hk. split; [lia|auto]. }
    refine (conj (conj _ _) (conj _ _)).
    - unfold T. cbn [vlist fold_right]. fold (vlist (filter (fun k => nth k dims 0 =? nth j dims 0) S0)).
      unfold vadd, vsingle. rewrite Nat.eqb_refl.
      destruct (vlist _ j) eqn:E; auto. apply vlist_true, filter_In in E. destruct E as [E _]. apply HS in E. lia.
    - intros r Hr. destruct (vlist T r) eqn:E; auto. apply Hin in E. lia.
    - intros k Hk. apply Hin in Hk. split; [lia|tauto].
    - intro r. rewrite bd_vlist.
      + replace T with (filter (fun k => nth k dims 0 =? nth j dims 0) (j :: S0))
          by (cbn [filter]; rewrite Nat.eqb_refl; auto).
        rewrite graded_sum by (intros; apply Hgrade; auto). rewrite Hx. reflexivity.
      + intros k [<-|Hk]; auto. apply filter_In in Hk. destruct Hk as [Hk _]. apply HS in Hk. fold n. lia.
  Qed.

  Lemma cycle_ex u : u < n -> min_low C u None ->
    exists z, cycles C dims (S u) (nth u dims 0) z /\ is_low z u.
  Proof.
    intros Hu (x & Hx & Hz). destruct (chain_of_coset u x Hu Hx) as (y & Hl & Hc & Hb).
    exists y. refine (conj (conj Hc _) Hl). intro r. rewrite Hb, Hz. destruct (_ =? _); auto.
  Qed.

  Lemma cycle_low i d z l : i <= n -> cycles C dims i d z -> is_low z l ->
    l < i /\ nth l dims 0 = d /\ min_low C l None.
  Proof.
    intros Hi [Hc Hb] [L1 L2]. destruct (Hc l L1) as [A B]. refine (conj A (conj B _)).
    exists (bd C z). split; [|exact Hb]. apply coset_of_chain; auto. unfold n in *. lia.
  Qed.

  Lemma bound_ex u v : v < n -> min_low C v (Some u) ->
    exists y, chain dims (S v) (S (nth u dims 0)) y /\ is_low (bd C y) u /\ is_low y v.
  Proof.
    intros Hv Hm. pose proof (valid_low_dim M v u HV Hv Hm) as Hd. unfold M in Hd. cbn [Matrix.dims] in Hd.
    destruct Hm as [(x & Hx & [L1 L2]) _]. destruct (chain_of_coset v x Hv Hx) as (y & Hl & Hc & Hb).
    exists y. rewrite <- Hd in Hc. refine (conj Hc (conj (conj _ _) Hl)).
    - rewrite Hb, <- Hd, Nat.eqb_refl. auto.
    - intros r Hr. rewrite Hb, L2 by auto. destruct (_ =? _); auto.
  Qed.

  Lemma bound_low j y l : j <= n -> (forall k, y k = true -> k < j) -> is_low (bd C y) l ->
    exists v, v < j /\ min_low C v (Some l).
  Proof.
    revert y. induction j as [|m IH]; intros y Hj Hy Hl.
    - exfalso. destruct Hl as [L1 _]. rewrite bd_bigx in L1. apply bigx_true in L1.
      destruct L1 as (k & _ & E). apply andb_true_iff in E. destruct E as [E _]. apply Hy in E. lia.
    - destruct (y m) eqn:E.
      + assert (Hco : coset C m (bd C y)).
        { apply coset_of_chain; auto. intros k Hk. destruct (y k) eqn:F; auto. apply Hy in F. lia. }
        assert (Hadd : forall z, is_low z m -> (forall k, vadd y z k = true -> k < m)).
        { intros z [Z1 Z2] k Hk. unfold vadd in Hk. destruct (Nat.lt_trichotomy k m) as [|[->|H]]; auto.
          - rewrite E, Z1 in Hk. discriminate.
          - rewrite (Z2 k H) in Hk. destruct (y k) eqn:F; [|discriminate]. apply Hy in F. lia. }
        destruct (min_low_ex C m Hsort HB_square ltac:(unfold n in *; lia)) as [[i|] Ho].
        * pose proof Ho as [_ Hmin]. destruct (Hmin _ Hco) as (r & Hr & Er).
          assert (Hil : i <= l).
          { destruct (le_lt_dec r l); [lia|]. rewrite (proj2 Hl r) in Er by auto. discriminate. }
          destruct (Nat.eq_dec i l) as [->|Hne]; [exists m; split; [lia|auto]|].
          destruct (bound_ex i m ltac:(lia) Ho) as (z & _ & [B1 B2] & Hz).
          destruct (IH (vadd y z)) as (v & Hv & Hm); [lia|apply Hadd; auto| |exists v; split; [lia|auto]].
          split; [|intros k Hk]; rewrite bd_add; unfold vadd.
          -- rewrite (proj1 Hl), (B2 l) by lia. auto.
          -- rewrite (proj2 Hl k Hk), (B2 k) by lia. auto.
        * destruct (cycle_ex m ltac:(lia) Ho) as (z & [_ Hz] & Hlz).
          destruct (IH (vadd y z)) as (v & Hv & Hm); [lia|apply Hadd; auto| |exists v; split; [lia|auto]].
          split; [|intros k Hk]; rewrite bd_add; unfold vadd; rewrite Hz; unfold vzero; rewrite xorb_false_r.
          -- apply Hl.
          -- apply Hl; auto.
      + destruct (IH y) as (v & Hv & Hm); auto; [lia| |exists v; split; [lia|auto]].
        intros k Hk. specialize (Hy k Hk). destruct (Nat.eq_dec k m); [congruence|lia].
  Qed.

  Lemma boundary_is_cycle i d x : boundaries C dims i d x -> cycles C dims i d x.
  Proof.
    intros (y & Hy & E). split.
    - intros k Hk. rewrite E, bd_bigx in Hk. apply bigx_true in Hk. destruct Hk as (j & _ & Hj).
      apply andb_true_iff in Hj. destruct Hj as [H1 H2]. apply Hy in H1. apply Hgrade in H2. lia.
    - intro r. rewrite (bd_ext C x (bd C y) E r). apply bd_bd.
  Qed.

  Lemma cycles_add i d x y : cycles C dims i d x -> cycles C dims i d y -> cycles C dims i d (vadd x y).
  Proof.
    intros [H1 H2] [H3 H4]. split.
    - intros k Hk. unfold vadd in Hk. destruct (x k) eqn:E; [apply H1; auto|]. apply H3.
      rewrite xorb_false_l in Hk. auto.
    - intro r. rewrite bd_add. unfold vadd. rewrite H2, H4. auto.
  Qed.

  Lemma boundaries_add i d x y : boundaries C dims i d x -> boundaries C dims i d y ->
    boundaries C dims i d (vadd x y).
  Proof.
    intros (u & H1 & H2) (v & H3 & H4). exists (vadd u v). split.
    - intros k Hk. unfold vadd in Hk. destruct (u k) eqn:E; [apply H1; auto|]. apply H3.
      rewrite xorb_false_l in Hk. auto.
    - intro r. rewrite bd_add. unfold vadd. rewrite H2, H4. auto.
  Qed.

  Lemma low_below x l k : is_low x l -> x k = true -> k <= l.
  Proof. intros [_ H] Hk. destruct (le_lt_dec k l); auto. rewrite H in Hk by auto. discriminate. Qed.

  Lemma dim_cycles i d L : i <= n -> StronglySorted lt L ->
    (forall l, In l L <-> l < i /\ nth l dims 0 = d /\ min_low C l None) ->
    has_dim (cycles C dims i d) (length L).
  Proof.
    intros Hi HL Hin. apply (dim_by_lows _ L i); auto.
    - apply cycles_add.
    - intros x k [Hc _] Hk. apply Hc; auto.
    - intros l Hl. apply Hin in Hl. destruct Hl as (H1 & H2 & H3).
      destruct (cycle_ex l ltac:(lia) H3) as (z & [Hz Hb] & Hlow). exists z. split; auto. split; auto.
      intros k Hk. apply Hz in Hk. lia.
    - intros x l Hx Hl. apply Hin. eapply cycle_low; eauto.
  Qed.

  Lemma dim_cycles_boundaries i j d L : i <= n -> j <= n -> StronglySorted lt L ->
    (forall l, In l L <-> l < i /\ nth l dims 0 = d /\ exists v, v < j /\ min_low C v (Some l)) ->
    has_dim (fun x => cycles C dims i d x /\ boundaries C dims j d x) (length L).
  Proof.
    intros Hi Hj HL Hin. apply (dim_by_lows _ L i); auto.
    - intros x y [H1 H2] [H3 H4]. split; [apply cycles_add|apply boundaries_add]; auto.
    - intros x k [[Hc _] _] Hk. apply Hc; auto.
    - intros l Hl. apply Hin in Hl. destruct Hl as (H1 & H2 & v & Hv & Hm).
      destruct (bound_ex l v ltac:(lia) Hm) as (y & Hc & Hlow & _).
      assert (Hb : boundaries C dims (S v) d (bd C y)) by (exists y; subst d; split; [auto|apply veq_refl]).
      exists (bd C y). refine (conj (conj _ _) Hlow).
      + destruct (boundary_is_cycle _ _ _ Hb) as [G1 G2]. split; auto.
        intros k Hk. split; [|apply G1; auto]. pose proof (low_below _ _ _ Hlow Hk). lia.
      + exists y. split; [|apply veq_refl]. subst d. intros k Hk. apply Hc in Hk. lia.
    - intros x l [Hx (y & Hy & E)] Hl. apply Hin.
      destruct (cycle_low i d x l Hi Hx Hl) as (H1 & H2 & _). refine (conj H1 (conj H2 _)).
      apply (bound_low j y l); auto; [intros; apply Hy; auto|].
      split; [rewrite <- E; apply Hl|intros r Hr; rewrite <- E; apply Hl; auto].
  Qed.

  (** ** Counting pairs *)
  Variable p : list (nat * option nat).
  Hypothesis Hp : is_pairing C dims true (fun _ => True) p.

  Definition dies (j : nat) (q : nat * option nat) : bool :=
    match snd q with Some v => v <? j | None => false end.

  Lemma creators_NoDup : NoDup (map fst p).
  Proof.
    destruct (pairing_structure M p HV Hp) as [H _].
    assert (Hn : NoDup (pair_indices p)).
    { eapply Permutation_NoDup; [apply Permutation_sym, H|apply seq_NoDup]. }
    clear -Hn. induction p as [|q l IH]; simpl in *; [constructor|].
    inversion Hn as [|? ? H1 H2]; subst. constructor.
    - intro Hin. apply H1. apply in_app_iff. right. clear -Hin. induction l as [|a l IH]; simpl in *; [tauto|].
      destruct Hin as [->|Hin]; [auto|]. right. apply in_app_iff. auto.
    - apply IH. destruct (snd q); simpl in H2; auto. inversion H2; auto.
  Qed.

  Lemma in_creators u : In u (map fst p) <-> u < n /\ min_low C u None.
  Proof.
    destruct Hp as (_ & H1 & H2). rewrite in_map_iff. split.
    - intros ([c [v|]] & <- & Hin); simpl.
      + apply H1 in Hin. destruct Hin as (Hv & Hm & _).
        destruct (valid_low_facts M HV c v Hv Hm) as (A & _ & B & _). split; auto. unfold n. cbn in *. lia.
      + apply H2 in Hin. tauto.
    - intros [Hu Hm]. destruct (destroyer_dec C u Hsort HB_square) as [(v & Hv & Hmv)|Hno].
      + exists (u, Some v). split; auto. apply H1. auto.
      + exists (u, None). split; auto. apply H2. auto 10.
  Qed.

  Lemma count_filter {A} (f g : A -> bool) l :
    length (filter f l) = length (filter (fun q => f q && negb (g q)) l) + length (filter (fun q => f q && g q) l).
  Proof. induction l as [|a l IH]; simpl; auto. destruct (f a), (g a); simpl; lia. Qed.

  Lemma filter_fst_perm (f : nat * option nat -> bool) (L : list nat) :
    StronglySorted lt L -> (forall u, In u L <-> exists q, In q p /\ fst q = u /\ f q = true) ->
    length (filter f p) = length L.
  Proof.
    intros HL Hin. rewrite <- (map_length fst (filter f p)). apply Permutation_length.
    apply NoDup_Permutation.
    - pose proof creators_NoDup as Hn. clear -Hn. induction p as [|q l IH]; simpl in *; [constructor|].
      inversion Hn as [|? ? Hq Hl]; subst. destruct (f q); simpl; auto. constructor; auto.
      intro Hi. apply Hq. apply in_map_iff in Hi. destruct Hi as (x & <- & Hx). apply filter_In in Hx.
      apply in_map; tauto.
    - apply SSlt_NoDup; auto.
    - intro u. rewrite Hin, in_map_iff. split.
      + intros (q & E & Hq). apply filter_In in Hq. exists q. tauto.
      + intros (q & H1 & H2 & H3). exists q. rewrite filter_In. auto.
  Qed.

  Theorem persistent_betti_pairing i j d : i <= n -> j <= n ->
    persistent_betti C dims i j d
      (length (filter (fun q => ((fst q <? i) && (nth (fst q) dims 0 =? d)) && negb (dies j q)) p)).
  Proof.
    intros Hi Hj.
    set (f := fun q : nat * option nat => (fst q <? i) && (nth (fst q) dims 0 =? d)).
    set (LZ := filter (fun u => existsb (fun q => f q && (fst q =? u)) p) (seq 0 i)).
    set (LB := filter (fun u => existsb (fun q => f q && dies j q && (fst q =? u)) p) (seq 0 i)).
    assert (SZ : StronglySorted lt LZ) by (apply filter_sorted, seq_sorted).
    assert (SB : StronglySorted lt LB) by (apply filter_sorted, seq_sorted).
    assert (Hf : forall q u, f q = true -> fst q = u -> u < i /\ nth u dims 0 = d).
    { intros q u H <-. unfold f in H. apply andb_true_iff in H. rewrite Nat.ltb_lt, Nat.eqb_eq in H. auto. }
    assert (Hf' : forall q u, u < i -> nth u dims 0 = d -> fst q = u -> f q = true).
    { intros q u H1 H2 E. unfold f. rewrite E, andb_true_iff, Nat.ltb_lt, Nat.eqb_eq. auto. }
    assert (IZ : forall u, In u LZ <-> exists q, In q p /\ fst q = u /\ f q = true).
    { intro u. unfold LZ. rewrite filter_In, existsb_exists. split.
      - intros [_ (q & Hq & H)]. apply andb_true_iff in H. rewrite Nat.eqb_eq in H. exists q. tauto.
      - intros (q & Hq & E & H). split; [apply in_seq; pose proof (Hf q u H E); lia|].
        exists q. rewrite andb_true_iff, Nat.eqb_eq. auto. }
    assert (IB : forall u, In u LB <-> exists q, In q p /\ fst q = u /\ f q && dies j q = true).
    { intro u. unfold LB. rewrite filter_In, existsb_exists. split.
      - intros [_ (q & Hq & H)]. rewrite andb_true_iff in H. rewrite Nat.eqb_eq in H. exists q. tauto.
      - intros (q & Hq & E & H). pose proof H as H'. apply andb_true_iff in H'.
        split; [apply in_seq; pose proof (Hf q u (proj1 H') E); lia|].
        exists q. rewrite andb_true_iff, Nat.eqb_eq. auto. }
    exists (length LZ), (length LB). refine (conj _ (conj _ _)).
    - apply dim_cycles; auto. intro l. rewrite IZ. split.
      + intros (q & Hq & E & H). destruct (Hf q l H E) as [A B]. refine (conj A (conj B _)).
        apply in_creators. rewrite <- E. apply in_map; auto.
      + intros (A & B & Hm). assert (Hin : In l (map fst p)) by (apply in_creators; split; auto; lia).
        apply in_map_iff in Hin. destruct Hin as (q & E & Hq). exists q. eauto.
    - apply dim_cycles_boundaries; auto. intro l. rewrite IB. split.
      + intros ([c o] & Hq & E & H). apply andb_true_iff in H. destruct H as [H1 H2].
        destruct (Hf _ l H1 E) as [A B]. refine (conj A (conj B _)). simpl in E. subst c.
        unfold dies in H2. simpl in H2. destruct o as [v|]; [|discriminate]. apply Nat.ltb_lt in H2.
        exists v. split; auto. apply Hp in Hq. tauto.
      + intros (A & B & v & Hv & Hm). exists (l, Some v). refine (conj _ (conj eq_refl _)).
        * apply Hp. refine (conj _ (conj Hm I)). fold n. lia.
        * rewrite (Hf' (l, Some v) l) by auto. unfold dies. simpl. apply Nat.ltb_lt; auto.
    - rewrite <- (filter_fst_perm f LZ SZ IZ), <- (filter_fst_perm (fun q => f q && dies j q) LB SB IB).
      apply count_filter.
  Qed.

  Theorem betti_pairing i d : i <= n ->
    betti C dims i d
      (length (filter (fun q => ((fst q <? i) && (nth (fst q) dims 0 =? d)) && negb (dies i q)) p)).
  Proof.
    intro Hi. destruct (persistent_betti_pairing i i d Hi Hi) as (z & b & Hz & Hb & E).
    exists z, b. refine (conj Hz (conj _ E)). eapply has_dim_ext; [|apply Hb]. simpl. intro x. split; [tauto|].
    intro H. split; auto. apply boundary_is_cycle; auto.
  Qed.
End Boundary.
