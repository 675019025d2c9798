(** * C38, C59, C60, C61: step functions and persistence indicator functions. *)
From Coq Require Import List Arith Bool ZArith Lia Sorted Permutation.
From Verif Require Import Base BaseFacts Diagram StepFunction StepFacts.
Import ListNotations.
Local Open Scope Z_scope.

(** ** specification *)
Definition lo (p : point) : Z := Z.min (fst p) (snd p).
Definition hi (p : point) : Z := Z.max (fst p) (snd p).

(** number of points whose interval satisfies a condition *)
Definition pc (q : point -> bool) (l : list point) : Z := Z.of_nat (length (filter q l)).
Definition active_at (D : diagram) (x : Z) : Z := pc (fun p => (lo p <=? x) && (x <=? hi p)) (points D).
Definition active_before (D : diagram) (x : Z) : Z := pc (fun p => (lo p <? x) && (x <=? hi p)) (points D).

(** all points are above the diagonal, or all are below it (and none is unpaired) *)
Definition consistent (inf : Z) (D : diagram) : Prop :=
  Forall (fun p => fst p <= snd p) (points D) \/ Forall (fun p => snd p <= fst p /\ snd p <> inf) (points D).

Definition birth (D : diagram) (x : Z) : Prop := exists p, In p (points D) /\ lo p = x.
Definition death (D : diagram) (x : Z) : Prop := exists p, In p (points D) /\ hi p = x.

Definition total_persistence (D : diagram) : Z := fold_right (fun p acc => (hi p - lo p) + acc) 0 (points D).

(** ** events *)
Definition plain_events (l : list point) : list event := flat_map (fun p => [(lo p, false); (hi p, true)]) l.

Lemma event_swo : swo event_ltb.
Proof.
  unfold swo, event_ltb. split.
  - intros [v b] [v' b']. cbn [fst snd]. destruct (Z.ltb_spec v v'), (Z.eqb_spec v v'), (Z.ltb_spec v' v), (Z.eqb_spec v' v), b, b'; cbn; try lia; auto.
  - intros [v b] [v' b'] [v'' b'']. cbn [fst snd].
    destruct (Z.ltb_spec v' v), (Z.eqb_spec v' v), (Z.ltb_spec v'' v'), (Z.eqb_spec v'' v'), (Z.ltb_spec v'' v), (Z.eqb_spec v'' v), b, b', b''; cbn; try lia; auto.
Qed.

Lemma events_sorted inf D : StronglySorted (fun e e' : event => fst e <= fst e') (eventPoints inf D).
Proof.
  unfold eventPoints. eapply StronglySorted_impl; [|apply cpp_sort_sorted, event_swo]. cbn beta. unfold event_ltb. intros x y H.
  destruct (Z.ltb_spec (fst y) (fst x)); [discriminate|lia].
Qed.

Lemma events_perm inf D : consistent inf D -> Permutation (eventPoints inf D) (plain_events (points D)).
Proof.
  intro H. unfold eventPoints. rewrite cpp_sort_perm. destruct H as [H|H].
  - assert (E : isInverted inf D = false).
    { unfold isInverted. apply not_true_is_false. rewrite existsb_exists. intros (p & Hp & E). rewrite Forall_forall in H. specialize (H p Hp).
      apply andb_true_iff in E as [_ E]. apply Z.ltb_lt in E. lia. }
    rewrite E. unfold plain_events. induction H as [|p l Hp _ IH]; [reflexivity|]. cbn [flat_map app]. unfold lo, hi. rewrite Z.min_l, Z.max_r by lia. do 2 constructor. exact IH.
  - destruct (isInverted inf D) eqn:E.
    + clear E. unfold plain_events. induction H as [|p l [Hp _] _ IH]; [reflexivity|]. cbn [flat_map app]. unfold lo at 1, hi at 1. rewrite Z.min_r, Z.max_l by lia.
      etransitivity; [apply perm_swap|]. do 2 constructor. exact IH.
    + assert (G : Forall (fun p => fst p = snd p) (points D)).
      { rewrite Forall_forall in *. intros p Hp. destruct (H p Hp) as [H1 H2]. destruct (Z.eq_dec (fst p) (snd p)); auto. exfalso.
        enough (isInverted inf D = true) by congruence. unfold isInverted. apply existsb_exists. exists p. split; auto. unfold isUnpaired.
        destruct (Z.eqb_spec (snd p) inf); [easy|]. destruct (Z.ltb_spec (snd p) (fst p)); [reflexivity|lia]. }
      unfold plain_events. induction G as [|p l Hp _ IH]; [reflexivity|]. cbn [flat_map app]. unfold lo at 1, hi at 1. rewrite Z.min_l, Z.max_r by lia.
      inversion H; subst. do 2 constructor. apply IH; auto.
Qed.

Lemma lo_hi p : lo p <= hi p.
Proof. unfold lo, hi. lia. Qed.

Lemma plain_cle l x : cle (plain_events l) x = pc (fun p => lo p <=? x) l.
Proof.
  unfold cle, cnt, pc, cre, plain_events. induction l as [|p l IH]; [reflexivity|]. cbn [flat_map app filter fst snd negb andb].
  destruct (lo p <=? x); cbn [length]; lia.
Qed.
Lemma plain_dle l x : dle (plain_events l) x = pc (fun p => hi p <=? x) l.
Proof.
  unfold dle, cnt, pc, des, plain_events. induction l as [|p l IH]; [reflexivity|]. cbn [flat_map app filter fst snd negb andb].
  destruct (hi p <=? x); cbn [length]; lia.
Qed.
Lemma plain_creators l : cnt (fun e => negb (snd e)) (plain_events l) = Z.of_nat (length l) /\ cnt snd (plain_events l) = Z.of_nat (length l).
Proof.
  unfold cnt, plain_events. induction l as [|p l [IH1 IH2]]; [split; reflexivity|]. cbn [flat_map app filter fst snd negb length]. split; lia.
Qed.

Lemma pc_eq (g : point -> Z) l x : pc (fun p => g p <=? x) l = pc (fun p => g p <=? x - 1) l + pc (fun p => g p =? x) l.
Proof.
  unfold pc. induction l as [|p l IH]; [reflexivity|]. cbn [filter]. destruct (Z.leb_spec (g p) x), (Z.leb_spec (g p) (x - 1)), (Z.eqb_spec (g p) x); cbn [length]; lia.
Qed.
Lemma pc_pos (g : point -> Z) l x : 0 < pc (fun p => g p =? x) l <-> exists p, In p l /\ g p = x.
Proof.
  unfold pc. split.
  - intro H. destruct (filter (fun p => g p =? x) l) as [|p t] eqn:E; [simpl in H; lia|]. assert (In p (filter (fun p => g p =? x) l)) by (rewrite E; simpl; auto).
    apply filter_In in H0 as [H1 H2]. apply Z.eqb_eq in H2. eauto.
  - intros (p & Hp & E). assert (In p (filter (fun p => g p =? x) l)) by (apply filter_In; rewrite Z.eqb_eq; auto). destruct (filter _ l); [easy|]. simpl. lia.
Qed.
Lemma pc_nonneg q l : 0 <= pc q l.
Proof. unfold pc. lia. Qed.

Lemma both_spec D x : both (plain_events (points D)) x = true <-> birth D x /\ death D x.
Proof.
  unfold both. rewrite andb_true_iff, !Z.ltb_lt, !plain_cle, !plain_dle, (pc_eq lo (points D) x), (pc_eq hi (points D) x).
  unfold birth, death. rewrite <- !pc_pos. lia.
Qed.

Lemma active_counts D x : active_at D x = pc (fun p => lo p <=? x) (points D) - pc (fun p => hi p <=? x - 1) (points D) /\
  active_before D x = pc (fun p => lo p <=? x - 1) (points D) - pc (fun p => hi p <=? x - 1) (points D).
Proof.
  unfold active_at, active_before, pc. induction (points D) as [|p l [IH1 IH2]]; [split; reflexivity|]. assert (H := lo_hi p). cbn [filter]. split.
  - destruct (Z.leb_spec (lo p) x), (Z.leb_spec x (hi p)), (Z.leb_spec (hi p) (x - 1)); cbn [andb length]; lia.
  - destruct (Z.ltb_spec (lo p) x), (Z.leb_spec x (hi p)), (Z.leb_spec (hi p) (x - 1)), (Z.leb_spec (lo p) (x - 1)); cbn [andb length]; lia.
Qed.

Lemma plain_bal l x : dle (plain_events l) x <= cle (plain_events l) x.
Proof.
  rewrite plain_cle, plain_dle. unfold pc. induction l as [|p l IH]; [simpl; lia|]. assert (H := lo_hi p). cbn [filter].
  destruct (Z.leb_spec (lo p) x), (Z.leb_spec (hi p) x); cbn [length]; lia.
Qed.

Lemma S_sum_perm E E' v : Permutation E E' -> S_sum E v = S_sum E' v.
Proof. unfold S_sum. induction 1; cbn [fold_right]; lia. Qed.

Lemma S_sum_total l v : (forall p, In p l -> hi p <= v) -> S_sum (plain_events l) v = fold_right (fun p acc => (hi p - lo p) + acc) 0 l.
Proof.
  induction l as [|p l IH]; intro H; [reflexivity|]. unfold S_sum, plain_events in *. cbn [flat_map app fold_right fst snd].
  rewrite IH by (intros; apply H; simpl; auto). specialize (H p (or_introl eq_refl)). assert (H' := lo_hi p).
  destruct (Z.leb_spec (lo p) v), (Z.leb_spec (hi p) v); lia.
Qed.

(** ** C38 *)
Lemma indicator_main inf D : consistent inf D -> Z.of_nat (length (points D)) < uint_range ->
  (forall p, In p (points D) -> fst p = snd p -> fst p < 0 -> exists q, In q (points D) /\ lo q < fst p) ->
  exists f, persistenceIndicatorFunction inf D = Ok f /\
    (forall x, sf_eval f x = target (plain_events (points D)) x) /\
    ((forall x, ~ (birth D x /\ death D x)) -> sf_integral f = total_persistence D).
Proof.
  intros Hc Hlen Hneg. unfold persistenceIndicatorFunction. assert (Hp := events_perm inf D Hc). assert (Hs := events_sorted inf D).
  set (E := eventPoints inf D) in *. set (P := plain_events (points D)) in *.
  assert (Hcle : forall x, cle E x = cle P x) by (intro; apply cnt_perm; auto). assert (Hdle : forall x, dle E x = dle P x) by (intro; apply cnt_perm; auto).
  assert (Hboth : forall x, both E x = both P x) by (intro; unfold both; rewrite !Hcle, !Hdle; reflexivity).
  assert (Htarget : forall x, target E x = target P x) by (intro; unfold target; rewrite Hboth, !Hcle, !Hdle; reflexivity).
  destruct E as [|e0 E0] eqn:EE.
  { apply Permutation_nil in Hp. exists []. split; [reflexivity|]. assert (Hnil : points D = []) by (destruct (points D); [reflexivity|discriminate]). split.
    - intro x. rewrite Hp. reflexivity.
    - intros _. unfold total_persistence. rewrite Hnil. reflexivity. }
  rewrite <- EE in *.
  assert (Hbal : forall x, dle E x <= cle E x) by (intro; rewrite Hcle, Hdle; apply plain_bal).
  destruct (plain_creators (points D)) as [Pc Pd]. fold P in Pc, Pd.
  assert (Hcr : cnt (fun e => negb (snd e)) E = Z.of_nat (length (points D))) by (rewrite (cnt_perm _ _ _ Hp); exact Pc).
  assert (Hcd : cnt snd E = Z.of_nat (length (points D))) by (rewrite (cnt_perm _ _ _ Hp); exact Pd).
  assert (Hfirst : both E (fst e0) = false \/ 0 <= fst e0).
  { destruct (both E (fst e0)) eqn:Eb; auto. right. rewrite Hboth in Eb. apply both_spec in Eb as [_ (q & Hq & Eq)].
    assert (Hmin : forall p, In p (points D) -> fst e0 <= lo p).
    { intros p Hpp. assert (He : In (lo p, false) E). { apply (Permutation_in _ (Permutation_sym Hp)). unfold P, plain_events. apply in_flat_map. exists p. simpl. auto. }
      rewrite EE in He, Hs. destruct He as [->|He]; [simpl; lia|]. inversion Hs as [|? ? _ Hf]; subst. rewrite Forall_forall in Hf. apply (Hf _ He). }
    assert (Hd : fst q = snd q /\ fst q = fst e0). { specialize (Hmin q Hq). unfold lo, hi in *. lia. }
    destruct Hd as [Hd1 Hd2]. destruct (Z.lt_ge_cases (fst e0) 0) as [Hlt|]; auto. destruct (Hneg q Hq Hd1) as (q' & Hq' & Hlt'); [lia|]. specialize (Hmin q' Hq'). lia. }
  destruct (loop_first E Hbal ltac:(lia) Hs e0 E0 EE Hfirst) as (v & f & prev & act & Hrun & HI & (ev & Hev & Ev) & Hmax).
  exists f. split; [exact Hrun|]. destruct HI as [I1 I2 I3 I4 I5 I6 I7].
  assert (Htop : forall x, v <= x -> cle E x = Z.of_nat (length (points D)) /\ dle E x = Z.of_nat (length (points D))).
  { intros x Hx. rewrite <- Hcr at 1. rewrite <- Hcd. split; apply cnt_ext; intros e He; specialize (Hmax e He); unfold cre, des; destruct (Z.leb_spec (fst e) x); try lia; apply andb_true_r. }
  split.
  - intro x. rewrite <- Htarget. destruct (Z.lt_trichotomy x v) as [H|[->|H]]; [auto| |].
    + rewrite I4. unfold target. destruct (both E v) eqn:Eb; [reflexivity|].
      destruct (Htop v ltac:(lia)) as [T1 T2]. assert (M1 := cle_mono E (v - 1) v ltac:(lia)). assert (M2 := dle_mono E (v - 1) v ltac:(lia)). assert (B := Hbal (v - 1)).
      unfold both in Eb. destruct (Z.ltb_spec (cle E (v - 1)) (cle E v)), (Z.ltb_spec (dle E (v - 1)) (dle E v)); try discriminate; lia.
    + rewrite eval_outside; auto; [|eapply Forall_impl; [|exact I2]; cbn beta; intros; lia].
      unfold target. unfold both. destruct (Htop x ltac:(lia)) as [-> ->]. destruct (Htop (x - 1) ltac:(lia)) as [-> ->]. rewrite Z.ltb_irrefl. cbn [andb]. lia.
  - intro Hnb. rewrite I7.
    + rewrite (S_sum_perm _ _ v Hp). apply S_sum_total. intros p Hpp. assert (He : In (hi p, true) E).
      { apply (Permutation_in _ (Permutation_sym Hp)). unfold P, plain_events. apply in_flat_map. exists p. simpl. auto. }
      apply (Hmax _ He).
    + intro x. rewrite Hboth. apply not_true_is_false. intro H. apply both_spec in H. exact (Hnb x H).
Qed.

(** The value at [x] is the number of intervals that contain [x].  If some
    interval starts and some interval ends in [x], those that start there are
    left out. *)
Theorem C38_indicator : forall inf D, consistent inf D -> Z.of_nat (length (points D)) < uint_range ->
  (forall p, In p (points D) -> fst p = snd p -> fst p < 0 -> exists q, In q (points D) /\ lo q < fst p) ->
  exists f, persistenceIndicatorFunction inf D = Ok f /\
    (forall x, ~ (birth D x /\ death D x) -> sf_eval f x = active_at D x) /\
    (forall x, birth D x -> death D x -> sf_eval f x = active_before D x).
Proof.
  intros inf D Hc Hl Hn. destruct (indicator_main inf D Hc Hl Hn) as (f & Hrun & Hev & _). exists f. split; [exact Hrun|].
  split; intros x; [intro H|intros H1 H2]; rewrite Hev; unfold target; destruct (both (plain_events (points D)) x) eqn:E;
    rewrite !plain_cle, plain_dle; destruct (active_counts D x) as [A B].
  - apply both_spec in E. easy.
  - lia.
  - lia.
  - enough (both (plain_events (points D)) x = true) by congruence. apply both_spec. auto.
Qed.

(** FINDING: a diagonal point at the smallest value ends the program if that value is negative. *)
Theorem C38_negative_diagonal_refuted : forall inf D v, consistent inf D -> In (v, v) (points D) -> v < 0 ->
  (forall p, In p (points D) -> v <= lo p) -> persistenceIndicatorFunction inf D = Throw Terminated.
Proof.
  intros inf D v Hc Hv Hneg Hmin. unfold persistenceIndicatorFunction. assert (Hp := events_perm inf D Hc). assert (Hs := events_sorted inf D).
  set (E := eventPoints inf D) in *. destruct E as [|e0 E0] eqn:EE.
  { apply Permutation_nil in Hp. destruct (points D); [easy|discriminate]. }
  rewrite <- EE in *.
  assert (Hall : forall e, In e E -> v <= fst e).
  { intros e He. apply (Permutation_in _ Hp) in He. unfold plain_events in He. apply in_flat_map in He as (p & Hpp & He). specialize (Hmin p Hpp). assert (H := lo_hi p).
    destruct He as [<-|[<-|[]]]; cbn [fst]; lia. }
  assert (Hin : forall b, In (v, b) E).
  { intro b. apply (Permutation_in _ (Permutation_sym Hp)). unfold plain_events. apply in_flat_map. exists (v, v). split; auto. unfold lo, hi. cbn [fst snd].
    rewrite Z.min_id, Z.max_id. destruct b; simpl; auto. }
  assert (He0 : fst e0 = v).
  { assert (v <= fst e0) by (apply Hall; rewrite EE; simpl; auto). specialize (Hin false). rewrite EE in Hin, Hs. destruct Hin as [->|Hin]; [reflexivity|].
    inversion Hs as [|? ? _ Hf]; subst. rewrite Forall_forall in Hf. specialize (Hf _ Hin). simpl in Hf. lia. }
  rewrite (pif_unfold (length E) E 0 e0 E0) by (cbn [skipn]; exact EE). cbn [skipn]. rewrite He0.
  destruct (duplicates_spec v E Hs Hall) as (l1 & l2 & El & A & B & C & Dd & F). rewrite C. cbn zeta.
  assert (Hl1 : forall b, In (v, b) l1).
  { intro b. specialize (Hin b). rewrite El in Hin. apply in_app_iff in Hin as [H|H]; auto. rewrite Forall_forall in B. specialize (B _ H). simpl in B. lia. }
  assert (Hn : l1 <> []) by (specialize (Hl1 true); destruct l1; easy).
  rewrite (single_spec E l1 l2 [] v El Hn (Forall_nil _) A B _ Dd F).
  assert (Hb : both E v = true).
  { destruct (group_counts [] l1 l2 v (Forall_nil _) A B) as [G1 G2]. cbn [app] in G1, G2. rewrite <- El in G1, G2. unfold both. rewrite G1, G2.
    assert (0 < cnt (fun e => negb (snd e)) l1) by (apply (cnt_pos _ _ (v, false)); auto). assert (0 < cnt snd l1) by (apply (cnt_pos _ _ (v, true)); auto).
    apply andb_true_iff. rewrite !Z.ltb_lt. lia. }
  rewrite Hb. cbn [negb]. unfold sf_add, indicator_of. destruct (Z.ltb_spec v 0); [reflexivity|lia].
Qed.

(** FINDING: points on both sides of the diagonal make the unsigned counter wrap around. *)
Theorem C38_mixed_refuted : exists inf D f, persistenceIndicatorFunction inf D = Ok f /\
  active_at D 4 = 1 /\ sf_eval f 4 = uint_range - 1.
Proof. exists 100, (Diagram 0 [(3, 5); (7, 6)]). eexists. split; [vm_compute; reflexivity|]. vm_compute. auto. Qed.

Definition example_diagram : diagram := Diagram 0 [(0, 4); (1, 2); (2, 5); (1, 6)].
Example C38_example : exists f, persistenceIndicatorFunction 100 example_diagram = Ok f /\
  map (sf_eval f) [-1; 0; 1; 2; 3; 4; 5; 6; 7] = [0; 1; 3; 3; 3; 3; 2; 1; 0].
Proof. eexists. split; [vm_compute; reflexivity|]. vm_compute. reflexivity. Qed.

(** ** C61 *)
Theorem C61_integral : forall inf D, consistent inf D -> Z.of_nat (length (points D)) < uint_range ->
  (forall x, ~ (birth D x /\ death D x)) ->
  exists f, persistenceIndicatorFunction inf D = Ok f /\ sf_integral f = total_persistence D.
Proof.
  intros inf D Hc Hl Hnb. destruct (indicator_main inf D Hc Hl) as (f & Hrun & _ & Hint).
  - intros p Hp E _. exfalso. apply (Hnb (fst p)). split; exists p; (split; [exact Hp|]); unfold lo, hi; lia.
  - exists f. auto.
Qed.

(** FINDING: for integers, a value that is both a creation and a destruction value costs area. *)
Theorem C61_integer_refuted : exists inf D f, consistent inf D /\ persistenceIndicatorFunction inf D = Ok f /\
  sf_integral f = 2 /\ total_persistence D = 3.
Proof.
  exists 100, (Diagram 0 [(0, 1); (1, 3)]). eexists. split; [|split; [vm_compute; reflexivity|vm_compute; auto]].
  left. repeat constructor; vm_compute; congruence.
Qed.

Example C61_example : exists f, persistenceIndicatorFunction 100 (Diagram 0 [(0, 4); (1, 3); (1, 6)]) = Ok f /\ sf_integral f = 11.
Proof. eexists. split; vm_compute; reflexivity. Qed.

(** ** C59: single functions *)

(** what [add] produces from intervals that meet in end points only *)
Definition proper (f : step_function) : Prop := sf_sorted f /\ Forall (fun i => ia i < ib i) f.

(** the interval from [a] to [b] meets no interval of [f] in more than an end point *)
Definition disjoint_from (a b : Z) (f : step_function) : Prop := Forall (fun i => ib i <= a \/ b <= ia i) f.

Lemma proper_tail h t : proper (h :: t) -> proper t.
Proof. intros [[H1 H2] H3]. inversion H1; inversion H2; inversion H3; subst. split; [split|]; auto. Qed.

Theorem C59_add : forall f a b y, proper f -> a < b -> disjoint_from a b f ->
  exists g, sf_add a b y f = Ok g /\ proper g /\ Permutation g (Ind a b y :: f).
Proof.
  intros f a b y Hf Hab Hd. unfold sf_add, indicator_of. destruct (Z.ltb_spec b a); [lia|]. eexists. split; [reflexivity|].
  assert (Hperm : Permutation (sf_insert (Ind a b y) f) (Ind a b y :: f)).
  { induction f as [|j f IH]; [reflexivity|]. cbn [sf_insert]. unfold ind_ltb. cbn [ia ib]. inversion Hd as [|? ? H1 H2]; subst.
    destruct (Z.leb_spec b (ia j)); [reflexivity|]. destruct (Z.leb_spec (ib j) a); [|lia].
    etransitivity; [apply perm_skip, IH; auto; apply (proper_tail j); auto|apply perm_swap]. }
  split; [|exact Hperm]. destruct Hf as [[F1 F2] F3]. split; [split|].
  - clear Hperm F2. revert F1. induction f as [|j f IH]; intro F1; [repeat constructor|]. cbn [sf_insert]. unfold ind_ltb. cbn [ia ib].
    inversion Hd as [|? ? H1 H2]; inversion F1 as [|? ? F4 F5]; inversion F3 as [|? ? F6 F7]; subst. destruct (Z.leb_spec b (ia j)).
    + constructor; [exact F1|]. constructor; [exact H0|]. eapply Forall_impl; [|exact F5]. cbn [ib]. intros k Hk. lia.
    + destruct (Z.leb_spec (ib j) a); [|lia]. constructor; [apply IH; auto|]. apply Forall_forall. intros i Hi.
      assert (Hi' : In i (Ind a b y :: f)).
      { clear - Hi. induction f as [|k f IH]; [exact Hi|]. cbn [sf_insert] in Hi. destruct (ind_ltb (Ind a b y) k); [exact Hi|]. destruct (ind_ltb k (Ind a b y)); [|simpl in *; tauto].
        destruct Hi as [->|Hi]; [simpl; auto|]. apply IH in Hi. simpl in *. tauto. }
      destruct Hi' as [<-|Hi']; [cbn [ia]; lia|]. rewrite Forall_forall in F5. auto.
  - apply (Permutation_Forall (Permutation_sym Hperm)). constructor; [cbn [ia ib]; lia|exact F2].
  - apply (Permutation_Forall (Permutation_sym Hperm)). constructor; auto.
Qed.

(** FINDING: an interval whose end is before its start ends the program. *)
Theorem C59_add_terminates : forall f a b y, b < a -> sf_add a b y f = Throw Terminated.
Proof. intros. unfold sf_add, indicator_of. destruct (Z.ltb_spec b a); [reflexivity|lia]. Qed.

(** the value at an argument that at most one interval contains *)
Definition value_at (f : step_function) (x y : Z) : Prop :=
  (exists f1 i f2, f = f1 ++ i :: f2 /\ ia i <= x <= ib i /\ iy i = y /\ Forall (fun j => ~ (ia j <= x <= ib j)) (f1 ++ f2)) \/
  (Forall (fun j => ~ (ia j <= x <= ib j)) f /\ y = 0).

Lemma filter_none x f : Forall (fun j => ~ (ia j <= x <= ib j)) f -> filter (ind_contains x) f = [].
Proof. induction 1 as [|i l Hi _ IH]; [reflexivity|]. cbn [filter]. destruct (ind_contains x i) eqn:E; auto. apply contains_spec in E. easy. Qed.

Lemma value_eval f x y : sf_sorted f -> value_at f x y -> sf_eval f x = y.
Proof.
  intros Hs [(f1 & i & f2 & -> & Hi & <- & Hn)|[Hn ->]]; rewrite eval_filter by auto.
  - apply Forall_app in Hn as [N1 N2]. rewrite filter_app, (filter_none x f1 N1). cbn [app filter]. apply contains_spec in Hi. rewrite Hi, (filter_none x f2 N2).
    cbn [fold_left]. unfold eval_step, ind_eval. rewrite Hi. destruct (Z.ltb_spec 0 (Z.abs (iy i))); lia.
  - rewrite filter_none by auto. reflexivity.
Qed.

Theorem C59_eval : forall f x, sf_sorted f ->
  (forall y, value_at f x y -> sf_eval f x = y) /\
  (Forall (fun i => 0 <= iy i) f ->
    (forall i, In i f -> ia i <= x <= ib i -> iy i <= sf_eval f x) /\
    (sf_eval f x = 0 \/ exists i, In i f /\ ia i <= x <= ib i /\ iy i = sf_eval f x)).
Proof.
  intros f x Hs. split; [intros y; apply value_eval; auto|]. intro Hn. rewrite eval_filter by auto.
  assert (G : forall l v, Forall (fun i => 0 <= iy i /\ ind_contains x i = true) l -> let r := fold_left (eval_step x) l v in
     v <= r /\ (forall i, In i l -> iy i <= r) /\ (r = v \/ exists i, In i l /\ iy i = r)).
  { induction l as [|i l IH]; intros v Hl r; [split; [reflexivity|]; split; [intros i []|auto]|].
    inversion Hl as [|? ? [Hi Hc] Hl']; subst. cbn [fold_left] in r. assert (Est : eval_step x v i = Z.max v (iy i)).
    { unfold eval_step, ind_eval. rewrite Hc, Z.abs_eq by auto. destruct (Z.ltb_spec v (iy i)); lia. }
    destruct (IH (eval_step x v i) Hl') as (A & B & C). fold r in A, B, C. rewrite Est in A, C. split; [lia|]. split.
    - intros j [<-|Hj]; [lia|auto].
    - destruct C as [C|(j & Hj & C)]; [|right; exists j; simpl; auto]. destruct (Z.max_spec v (iy i)) as [[_ E]|[_ E]]; rewrite E in C; auto. right. exists i. simpl. auto. }
  destruct (G (filter (ind_contains x) f) 0) as (A & B & C).
  { rewrite Forall_forall in *. intros i Hi. apply filter_In in Hi as [H1 H2]. auto. }
  split.
  - intros i Hi Hc. apply B. apply filter_In. rewrite contains_spec. auto.
  - destruct C as [C|(i & Hi & C)]; auto. right. exists i. apply filter_In in Hi as [H1 H2]. apply contains_spec in H2. auto.
Qed.

(** FINDING: "take the one whose absolute value is largest" (lines 217-218) does not hold if values are negative. *)
Theorem C59_eval_refuted : exists f x, proper f /\
  (exists i, In i f /\ ia i <= x <= ib i /\ Z.abs (sf_eval f x) < Z.abs (iy i)).
Proof.
  exists [Ind 0 1 (-3); Ind 1 2 2], 1. split.
  - unfold proper, sf_sorted. split; [split|]; repeat constructor; cbn [ia ib]; lia.
  - exists (Ind 0 1 (-3)). split; [simpl; auto|]. split; [cbn [ia ib]; lia|]. vm_compute. reflexivity.
Qed.

(** An interval that meets a stored one in more than an end point is ignored. *)
Theorem C59_overlap : forall f a b y, proper f -> a < b -> ~ disjoint_from a b f -> sf_add a b y f = Ok f.
Proof.
  intros f a b y Hp Hab Hd. unfold sf_add, indicator_of. destruct (Z.ltb_spec b a); [lia|]. f_equal.
  induction f as [|j f IH]; [exfalso; apply Hd; constructor|]. pose proof Hp as [[H1 H2] H3]. inversion H1 as [|? ? H1' H1'']; inversion H3 as [|? ? H3' H3'']; subst.
  cbn [sf_insert]. unfold ind_ltb. cbn [ia ib]. destruct (Z.leb_spec b (ia j)) as [L|L].
  - exfalso. apply Hd. constructor; [right; exact L|]. rewrite Forall_forall in *. intros k Hk. right.
    specialize (H1'' k Hk). cbv beta in H1''. lia.
  - destruct (Z.leb_spec (ib j) a) as [L'|L']; [|reflexivity]. f_equal. apply IH; [apply (proper_tail j); exact Hp|]. intro F. apply Hd. constructor; [left; exact L'|exact F].
Qed.

(** intervals are kept, values are changed by [h] *)
Definition map_values (h : Z -> Z) (f : step_function) : step_function := map (fun i => Ind (ia i) (ib i) (h (iy i))) f.

Lemma insert_map h : forall rest f, proper (f ++ rest) ->
  fold_left (fun g i => sf_insert (Ind (ia i) (ib i) (h (iy i))) g) rest (map_values h f) = map_values h (f ++ rest).
Proof.
  induction rest as [|i rest IH]; intros f Hp; [rewrite app_nil_r; reflexivity|]. cbn [fold_left]. rewrite insert_last.
  - replace (map_values h f ++ [Ind (ia i) (ib i) (h (iy i))]) with (map_values h (f ++ [i])) by (unfold map_values; rewrite map_app; reflexivity).
    rewrite IH by (rewrite <- app_assoc; exact Hp). rewrite <- app_assoc. reflexivity.
  - apply Forall_forall. intros j Hj. unfold map_values in Hj. apply in_map_iff in Hj as (k & <- & Hk). cbn [ia ib].
    destruct Hp as [[H1 _] H3]. apply StronglySorted_app in H1 as (_ & _ & H1). specialize (H1 k i Hk (or_introl eq_refl)).
    rewrite Forall_forall in H3. assert (A : ia k < ib k) by (apply H3, in_app_iff; auto). assert (B : ia i < ib i) by (apply H3, in_app_iff; simpl; auto). lia.
Qed.

Lemma add_map h : forall rest f, proper (f ++ rest) ->
  foldM (fun g i => sf_add (ia i) (ib i) (h (iy i)) g) rest (map_values h f) = Ok (map_values h (f ++ rest)).
Proof.
  intros rest f Hp. rewrite <- (insert_map h rest f Hp). assert (Hr : Forall (fun i => ia i < ib i) rest) by (destruct Hp as [_ H]; apply Forall_app in H; tauto).
  clear Hp. generalize (map_values h f). induction Hr as [|i rest Hi _ IH]; intro g; [reflexivity|]. cbn [foldM fold_left]. unfold sf_add at 1, indicator_of.
  destruct (Z.ltb_spec (ib i) (ia i)); [lia|]. cbn [bind]. apply IH.
Qed.

Theorem C59_operations : forall f lambda, proper f ->
  sf_scale lambda f = map_values (fun y => y * lambda) f /\
  sf_negate f = Ok (map_values Z.opp f) /\
  sf_plus_scalar lambda f = Ok (map_values (fun y => lambda + y) f) /\
  sf_minus_scalar lambda f = Ok (map_values (fun y => - lambda + y) f) /\
  sf_abs f = map_values Z.abs f.
Proof.
  intros f lambda Hp. split; [exact (insert_map (fun y => y * lambda) f [] Hp)|]. split; [exact (add_map Z.opp f [] Hp)|].
  split; [exact (add_map (fun y => lambda + y) f [] Hp)|]. split; [exact (add_map (fun y => - lambda + y) f [] Hp)|exact (insert_map Z.abs f [] Hp)].
Qed.

Lemma map_values_proper h f : proper f -> proper (map_values h f).
Proof.
  intros [[H1 H2] H3]. unfold map_values. split; [split|].
  - clear H2 H3. induction H1 as [|i f _ IH Hf]; cbn [map]; constructor; auto. rewrite Forall_map. cbn [ia ib]. exact Hf.
  - rewrite Forall_map. cbn [ia ib]. exact H2.
  - rewrite Forall_map. cbn [ia ib]. exact H3.
Qed.

Lemma map_values_value h f x y : h 0 = 0 -> value_at f x y -> value_at (map_values h f) x (h y).
Proof.
  intros H0 [(f1 & i & f2 & -> & Hi & <- & Hn)|[Hn ->]].
  - left. exists (map_values h f1), (Ind (ia i) (ib i) (h (iy i))), (map_values h f2). unfold map_values. rewrite !map_app. cbn [map ia ib iy].
    split; [reflexivity|]. split; [exact Hi|]. split; [reflexivity|]. rewrite <- map_app, Forall_map. cbn [ia ib]. exact Hn.
  - right. split; [|auto]. unfold map_values. rewrite Forall_map. cbn [ia ib]. exact Hn.
Qed.

(** scaling, negation and absolute values are pointwise wherever at most one interval contains the argument *)
Theorem C59_pointwise : forall f x y lambda, proper f -> value_at f x y ->
  sf_eval (sf_scale lambda f) x = y * lambda /\
  (exists g, sf_negate f = Ok g /\ sf_eval g x = - y) /\
  sf_eval (sf_abs f) x = Z.abs y.
Proof.
  intros f x y lambda Hp Hv. destruct (C59_operations f lambda Hp) as (-> & -> & _ & _ & ->).
  assert (G : forall h, h 0 = 0 -> sf_eval (map_values h f) x = h y).
  { intros h H0. apply value_eval; [apply (map_values_proper _ f Hp)|apply (map_values_value h f x y); auto]. }
  split; [exact (G (fun y => y * lambda) eq_refl)|]. split; [eexists; split; [reflexivity|exact (G Z.opp eq_refl)]|exact (G Z.abs eq_refl)].
Qed.

Lemma integral_sum f : forall v, fold_left (fun v i => v + ind_integral i) f v = v + fold_right (fun i acc => ind_integral i + acc) 0 f.
Proof. induction f as [|i f IH]; intro v; cbn [fold_left fold_right]; [lia|]. rewrite IH. lia. Qed.

Theorem C59_integral : forall f lambda, proper f ->
  sf_integral f = fold_right (fun i acc => iy i * (ib i - ia i) + acc) 0 f /\
  sf_integral (sf_scale lambda f) = lambda * sf_integral f /\
  (exists g, sf_negate f = Ok g /\ sf_integral g = - sf_integral f).
Proof.
  intros f lambda Hp. destruct (C59_operations f lambda Hp) as (-> & -> & _ & _ & _). unfold sf_integral. rewrite !integral_sum. split; [reflexivity|]. split.
  - unfold map_values. clear Hp. induction f as [|i f IH]; [simpl; lia|]. cbn [map fold_right]. unfold ind_integral in *. cbn [ia ib iy]. lia.
  - eexists. split; [reflexivity|]. rewrite integral_sum. unfold map_values. clear Hp. induction f as [|i f IH]; [reflexivity|]. cbn [map fold_right]. unfold ind_integral in *. cbn [ia ib iy]. lia.
Qed.

Theorem C59_max : forall lowest f, f <> [] -> (forall i, In i f -> lowest <= iy i) ->
  (forall i, In i f -> iy i <= sf_max lowest f) /\ exists i, In i f /\ iy i = sf_max lowest f.
Proof.
  intros lowest f Hn Hl. unfold sf_max. destruct f as [|k f]; [easy|]. set (l := k :: f) in *.
  assert (G : forall l v, let r := fold_left (fun m i => Z.max m (iy i)) l v in v <= r /\ (forall i, In i l -> iy i <= r) /\ (r = v \/ exists i, In i l /\ iy i = r)).
  { clear. induction l as [|i l IH]; intros v r; [split; [reflexivity|]; split; [intros i []|auto]|]. cbn [fold_left] in r.
    destruct (IH (Z.max v (iy i))) as (A & B & C). fold r in A, B, C. split; [lia|]. split; [intros j [<-|Hj]; [lia|auto]|].
    destruct C as [C|(j & Hj & C)]; [|right; exists j; simpl; auto]. destruct (Z.max_spec v (iy i)) as [[_ E]|[_ E]]; rewrite E in C; auto. right. exists i. simpl. auto. }
  destruct (G l lowest) as (A & B & C). split; [exact B|]. destruct C as [C|C]; [|exact C]. exists k. split; [simpl; auto|].
  specialize (B k (or_introl eq_refl)). specialize (Hl k (or_introl eq_refl)). rewrite C in *. lia.
Qed.

(** FINDING: with an integer image, [operator/=] multiplies by [1/lambda], which is 0. *)
Theorem C59_integer_division_refuted : exists f g x, proper f /\ sf_divide 2 f = Ok g /\ sf_eval f x = 4 /\ sf_eval g x = 0.
Proof.
  exists [Ind 0 1 4], [Ind 0 1 0], 0. split; [|vm_compute; auto]. split; [split|]; repeat constructor; cbn [ia ib]; lia.
Qed.

(** FINDING: [IndicatorFunction::operator/=] never returns. *)
Theorem C59_indicator_division_refuted : forall fuel f lambda r, ind_divide fuel f lambda <> Ok r.
Proof. induction fuel as [|fuel IH]; intros f lambda r; cbn [ind_divide]; [discriminate|]. destruct (lambda =? 0); [discriminate|apply IH]. Qed.

Example C59_example : exists f g, foldM (fun f i => sf_add (ia i) (ib i) (iy i) f) [Ind 4 6 5; Ind 0 2 (-3); Ind 2 4 1] [] = Ok f /\
  f = [Ind 0 2 (-3); Ind 2 4 1; Ind 4 6 5] /\ sf_negate f = Ok g /\ map (sf_eval f) [-1; 1; 3; 4; 5; 7] = [0; -3; 1; 5; 5; 0] /\
  map (sf_eval g) [1; 3; 5] = [3; -1; -5] /\ sf_integral f = 6 /\ sf_max (-100) f = 5.
Proof. eexists. eexists. split; [vm_compute; reflexivity|]. split; [reflexivity|]. split; [vm_compute; reflexivity|]. vm_compute. auto. Qed.

(** ** C60: sums *)
Lemma clean_run_rest y : forall l last r, clean_run y last l = Ok r -> snd r <> [].
Proof. induction l as [|c l IH]; intros last r; cbn [clean_run]; [discriminate|]. destruct (iy c =? y); [apply IH|]. intro E. injection E as <-. simpl. discriminate. Qed.

Lemma clean_loop_never : forall fuel l g r, clean_loop fuel l g = Ok r -> l = [].
Proof.
  induction fuel as [|fuel IH]; intros l g r; cbn [clean_loop]; [discriminate|]. destruct l as [|p l]; [reflexivity|].
  destruct (clean_run (iy p) p (p :: l)) as [q|e| |] eqn:E; cbn [bind]; try discriminate. destruct (indicator_of _ _ _); cbn [bind]; try discriminate.
  intro H. apply IH in H. apply clean_run_rest in E. easy.
Qed.

(** FINDING: whenever the sum of two step functions has an interval of positive
    length, [clean] dereferences [end()]: only the empty function is ever returned. *)
Theorem C60_sum_refuted : forall f g h, sf_plus f g = Ok h -> h = [].
Proof.
  intros f g h. unfold sf_plus. destruct (fold_left _ _ []) as [|d rest] eqn:E.
  - intro H. injection H as <-. destruct f as [|i f]; [reflexivity|]. exfalso. cbn [sf_domain flat_map app fold_left] in E.
    assert (G : forall l s, s <> [] -> fold_left (fun s x => Envelope.zset_insert x s) l s <> []).
    { induction l as [|x l IH]; intros s Hs; [exact Hs|]. cbn [fold_left]. apply IH. destruct s as [|y s]; [easy|]. cbn. destruct (y <? x); [discriminate|]. destruct (x <? y); discriminate. }
    revert E. apply G. cbn. destruct (ia i <? ib i); [discriminate|]. destruct (ib i <? ia i); discriminate.
  - destruct (plus_loop f g d rest []) as [k|e| |]; cbn [bind]; try discriminate. unfold sf_clean. destruct (filter _ k) as [|i l]; [congruence|].
    intro H. apply clean_loop_never in H. discriminate.
Qed.

Theorem C60_difference_refuted : forall f g h, sf_minus f g = Ok h -> h = [].
Proof. intros f g h. unfold sf_minus. destruct (sf_negate g); cbn [bind]; try discriminate. apply C60_sum_refuted. Qed.

Example C60_example : sf_plus [Ind 0 2 1] [Ind 1 3 1] = UB.
Proof. vm_compute. reflexivity. Qed.

Print Assumptions C38_indicator.
Print Assumptions C38_negative_diagonal_refuted.
Print Assumptions C38_mixed_refuted.
Print Assumptions C61_integral.
Print Assumptions C61_integer_refuted.
Print Assumptions C59_add.
Print Assumptions C59_overlap.
Print Assumptions C59_add_terminates.
Print Assumptions C59_eval.
Print Assumptions C59_eval_refuted.
Print Assumptions C59_operations.
Print Assumptions C59_pointwise.
Print Assumptions C59_integral.
Print Assumptions C59_max.
Print Assumptions C59_integer_division_refuted.
Print Assumptions C59_indicator_division_refuted.
Print Assumptions C60_sum_refuted.
Print Assumptions C60_difference_refuted.
