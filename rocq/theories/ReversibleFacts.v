(** * Facts about the reversible permutations. *)

From Coq Require Import List Arith Bool Lia Permutation.
From Verif Require Import Base BaseFacts TopDown CombinationFacts SpecCombine Combine CombineFacts Permute PermuteFacts EnumerateFacts Combine3Facts.
Import ListNotations.

Section Reversible.
Context {Elt : Type}.

(** [proc] calls its function object once for each vector in [Q] *)
Definition lists (proc : forall T : Type, (T -> list Elt -> outcome (bool * T * list Elt)) -> T -> list Elt -> outcome (bool * T * list Elt))
    (v fin : list Elt) (Q : list Elt -> Prop) : Prop :=
  exists L, enumerates proc v L fin /\ NoDup L /\ forall w, In w L <-> Q w.

Lemma lists_eq p q v fin Q : (forall T f st, p T f st v = q T f st v) -> lists q v fin Q -> lists p v fin Q.
Proof. intros E (L & H1 & H2 & H3). exists L. refine (conj _ (conj H2 H3)). intros T f g Hf st. rewrite E. apply H1. exact Hf. Qed.

Lemma lists_ext p v fin Q Q' : lists p v fin Q -> (forall w, Q w <-> Q' w) -> lists p v fin Q'.
Proof. intros (L & H1 & H2 & H3) E. exists L. refine (conj H1 (conj H2 _)). intro w. rewrite H3. apply E. Qed.

Lemma lists_seq p1 p2 v v1 v2 Q1 Q2 : lists p1 v v1 Q1 -> length v1 = length v -> lists p2 v1 v2 Q2 -> (forall w, Q1 w -> ~ Q2 w) ->
  lists (fun T f st v => until (p1 T f st v) (fun st v => p2 T f st v)) v v2 (fun w => Q1 w \/ Q2 w).
Proof.
  intros (L1 & A1 & A2 & A3) EL (L2 & B1 & B2 & B3) D. exists (L1 ++ L2). refine (conj _ (conj _ _)).
  - eapply enumerates_seq; eauto.
  - apply NoDup_app_disjoint; auto. intros w H1 H2. apply A3 in H1. apply B3 in H2. exact (D w H1 H2).
  - intro w. rewrite in_app_iff, A3, B3. reflexivity.
Qed.

Lemma lists_none (F : list Elt -> list Elt) v : lists (fun T f st v => Ok (false, st, F v)) v (F v) (fun _ => False).
Proof. exists []. refine (conj _ (conj (NoDup_nil _) _)); [|intro w; reflexivity]. intros T f g H st. reflexivity. Qed.

Lemma lists_then p v fin Q F : lists p v fin Q -> length fin = length v -> lists (fun T f st v => until (p T f st v) (fun st v => Ok (false, st, F v))) v (F fin) Q.
Proof.
  intros H EL. eapply lists_ext; [apply (lists_seq p (fun T f st v => Ok (false, st, F v)) v fin (F fin) Q (fun _ => False) H EL (lists_none F fin)); intros w _ []|].
  intro w. tauto.
Qed.

Lemma lists_swapped p (P : list Elt) x Q y R i j fin S : i = length P -> j = length P + 1 + length Q ->
  lists p (P ++ y :: Q ++ x :: R) fin S -> lists (fun T f st v => swapped i j v (fun v => p T f st v)) (P ++ x :: Q ++ y :: R) fin S.
Proof. intros Hi Hj (L & H1 & H2). exists L. split; [|exact H2]. apply enumerates_swapped; assumption. Qed.

Lemma lists_adj p (P : list Elt) x y R i j fin S : i = length P -> j = length P + 1 ->
  lists p (P ++ y :: x :: R) fin S -> lists (fun T f st v => swapped i j v (fun v => p T f st v)) (P ++ x :: y :: R) fin S.
Proof. intros Hi Hj H. apply (lists_swapped p P x [] y R); simpl; auto; lia. Qed.

Lemma split_unique (x : Elt) A : forall A' B B', ~ In x A -> ~ In x A' -> A ++ x :: B = A' ++ x :: B' -> A = A' /\ B = B'.
Proof.
  induction A as [|a A IH]; intros [|a' A'] B B' H1 H2 E; cbn [app] in E.
  - injection E as E. auto.
  - exfalso. injection E as E1 E2. apply H2. left. auto.
  - exfalso. injection E as E1 E2. apply H1. left. auto.
  - injection E as -> E. destruct (IH A' B B') as [-> ->]; auto; intro; [apply H1|apply H2]; right; auto.
Qed.

(** the first loop *)
Lemma rev_loop_lists (P R : list Elt) x s first n : first = length P -> forall i U V, i = S (length U) -> NoDup (x :: U ++ V) -> s = length U + length V + 1 -> n <= length V ->
  exists U' V', U' ++ V' = U ++ V /\ length U' = length U + n /\
    lists (fun T f => rev_loop f s first n i) (P ++ U ++ x :: V ++ R) (P ++ U' ++ x :: V' ++ R)
      (fun w => exists A B, w = P ++ A ++ x :: B ++ R /\ Permutation (A ++ B) (U ++ V) /\ length U < length A <= length U + n).
Proof.
  intro Hf. induction n as [|n IH]; intros i U V Hi ND Hs Hn.
  - exists U, V. refine (conj eq_refl (conj _ _)); [lia|]. eapply lists_eq; [|eapply lists_ext; [apply (lists_none (fun v => v))|]]; [reflexivity|].
    intro w. split; [intros []|intros (A & B & _ & _ & H); lia].
  - destruct V as [|y V]; [cbn [length] in Hn; lia|]. cbn [length] in Hn, Hs.
    assert (EUV : (U ++ [y]) ++ V = U ++ y :: V) by (rewrite <- app_assoc; reflexivity).
    destruct (IH (i + 1) (U ++ [y]) V) as (U' & V' & E1 & E2 & E3); try (rewrite app_length; simpl; lia); [rewrite EUV; exact ND|lia|].
    rewrite app_length in E2. cbn [length] in E2. rewrite app_length in E3. cbn [length] in E3. rewrite EUV in E1, E3.
    exists U', V'. refine (conj E1 (conj _ _)); [lia|].
    assert (ND2 : NoDup ((U ++ [y]) ++ V)) by (rewrite EUV; inversion ND; assumption).
    pose proof (arrange2 P (U ++ [y]) [x] V R first i (first + (i + 1)) (s - i - 1) ND2 Hf) as AR.
    rewrite app_length in AR. cbn [length] in AR. specialize (AR ltac:(lia) ltac:(lia) ltac:(lia)).
    change (lists (fun T f => combine_discontinuous (rev2 f first i (first + (i + 1)) (s - i - 1)) i first (first + (i + 1)) (s - i - 1) 0) (P ++ (U ++ [y]) ++ [x] ++ V ++ R) (P ++ (U ++ [y]) ++ [x] ++ V ++ R)
      (fun w => exists A' B', w = P ++ A' ++ [x] ++ B' ++ R /\ length A' = length U + 1 /\ Permutation (A' ++ B') ((U ++ [y]) ++ V))) in AR.
    rewrite EUV in AR. cbn [app] in AR.
    pose proof (lists_seq _ _ _ _ _ _ _ AR eq_refl E3) as SQ.
    rewrite app_assoc. cbn [app].
    eapply lists_eq with (q := fun T f st v => swapped (first + (i - 1)) (first + i) v (fun v => _)); [intros; cbn [rev_loop]; reflexivity|].
    eapply lists_ext; [apply lists_adj; [rewrite app_length; lia|rewrite app_length; lia|]|].
    + replace ((P ++ U) ++ y :: x :: V ++ R) with (P ++ (U ++ [y]) ++ x :: V ++ R) by (rewrite <- !app_assoc; reflexivity).
      apply SQ. intros w (A & B & Ew & LA & PA) (A2 & B2 & Ew2 & PA2 & LA2). rewrite Ew in Ew2. apply app_inv_head in Ew2.
      inversion ND as [|? ? NX NX2]; subst. apply split_unique in Ew2; [destruct Ew2 as [-> _]; lia| |]; intro HI; apply NX.
      * eapply Permutation_in; [exact PA|]. apply in_or_app. left. exact HI.
      * eapply Permutation_in; [exact PA2|]. apply in_or_app. left. exact HI.
    + intro w. split.
      * intros [(A & B & Ew & LA & PA)|(A & B & Ew & PA & LA)]; exists A, B; refine (conj Ew (conj PA _)); lia.
      * intros (A & B & Ew & PA & LA). destruct (Nat.eq_dec (length A) (length U + 1)); [left|right]; exists A, B; [|refine (conj Ew (conj PA _)); lia].
        exact (conj Ew (conj e PA)).
Qed.

(** the second loop *)
Lemma rev_middle_lists (P R : list Elt) x y C s s2 first n : first = length P -> C <> [] -> forall i U V, i = S (length U) -> NoDup (y :: U ++ V ++ C) ->
  s2 = length U + length V + 1 -> s = s2 + 1 + length C -> n < length V ->
  exists U' V', U' ++ V' = U ++ V /\ length U' = length U + n /\
    lists (fun T f => rev_middle_loop f s s2 first n i) (P ++ U ++ y :: V ++ x :: C ++ R) (P ++ U' ++ y :: V' ++ x :: C ++ R)
      (fun w => exists A B C', w = P ++ A ++ y :: B ++ x :: C' ++ R /\ Permutation (A ++ B ++ C') (U ++ V ++ C) /\ length A + length B = length U + length V /\ length U < length A <= length U + n).
Proof.
  intros Hf HC. induction n as [|n IH]; intros i U V Hi ND Hs2 Hs Hn.
  - exists U, V. refine (conj eq_refl (conj _ _)); [lia|]. eapply lists_eq; [|eapply lists_ext; [apply (lists_none (fun v => v))|]]; [reflexivity|].
    intro w. split; [intros []|intros (A & B & C' & _ & _ & _ & H); lia].
  - destruct V as [|z V]; [cbn [length] in Hn; lia|]. cbn [length] in Hn, Hs2.
    assert (EUV : (U ++ [z]) ++ V = U ++ z :: V) by (rewrite <- app_assoc; reflexivity).
    assert (EUC : (U ++ [z]) ++ V ++ C = U ++ (z :: V) ++ C) by (rewrite <- !app_assoc; reflexivity).
    destruct (IH (i + 1) (U ++ [z]) V) as (U' & V' & E1 & E2 & E3); try (rewrite app_length; simpl; lia); [rewrite EUC; exact ND|lia|lia|].
    rewrite app_length in E2. cbn [length] in E2. rewrite app_length in E3. cbn [length] in E3. rewrite EUV in E1. rewrite EUC in E3.
    exists U', V'. refine (conj E1 (conj _ _)); [lia|].
    assert (ND2 : NoDup ((U ++ [z]) ++ V ++ C)) by (rewrite EUC; inversion ND; assumption).
    pose proof (arrange3 P (U ++ [z]) [y] V [x] C R first i (first + (i + 1)) (s2 - i - 1) (first + (s2 + 1)) (s - s2 - 1) ND2) as AR.
    rewrite app_length in AR. cbn [length] in AR.
    specialize (AR ltac:(destruct U; discriminate) ltac:(destruct V; [cbn [length] in Hn; lia|discriminate]) HC Hf ltac:(lia) ltac:(lia) ltac:(lia) ltac:(lia) ltac:(lia)).
    change (lists (fun T f => combine_discontinuous3 (rev3 f first i (first + (i + 1)) (s2 - i - 1) (first + (s2 + 1)) (s - s2 - 1)) i first (first + (i + 1)) (s2 - i - 1) (first + (s2 + 1)) (s - s2 - 1))
      (P ++ (U ++ [z]) ++ [y] ++ V ++ [x] ++ C ++ R) (P ++ (U ++ [z]) ++ [y] ++ V ++ [x] ++ C ++ R)
      (fun w => exists A' B' C', w = P ++ A' ++ [y] ++ B' ++ [x] ++ C' ++ R /\ length A' = length U + 1 /\ length B' = length V /\ Permutation (A' ++ B' ++ C') ((U ++ [z]) ++ V ++ C))) in AR.
    rewrite EUC in AR. cbn [app] in AR, E3.
    pose proof (lists_seq _ _ _ _ _ _ _ AR eq_refl E3) as SQ.
    rewrite app_assoc. cbn [app].
    eapply lists_eq with (q := fun T f st v => swapped (first + (i - 1)) (first + i) v (fun v => _)); [intros; cbn [rev_middle_loop]; reflexivity|].
    eapply lists_ext; [apply lists_adj; [rewrite app_length; lia|rewrite app_length; lia|]|].
    + replace ((P ++ U) ++ z :: y :: V ++ x :: C ++ R) with (P ++ (U ++ [z]) ++ y :: V ++ x :: C ++ R) by (rewrite <- !app_assoc; reflexivity).
      apply SQ. intros w (A & B & C' & Ew & LA & LB & PA) (A2 & B2 & C2 & Ew2 & PA2 & _ & LA2). rewrite Ew in Ew2. apply app_inv_head in Ew2.
      inversion ND as [|? ? NX NX2]; subst. apply split_unique in Ew2; [destruct Ew2 as [-> _]; lia| |]; intro HI; apply NX.
      * eapply Permutation_in; [exact PA|]. apply in_or_app. left. exact HI.
      * eapply Permutation_in; [exact PA2|]. apply in_or_app. left. exact HI.
    + intro w. cbn [length]. split.
      * intros [(A & B & C' & Ew & LA & LB & PA)|(A & B & C' & Ew & PA & LB & LA)]; exists A, B, C'; refine (conj Ew (conj PA _)); lia.
      * intros (A & B & C' & Ew & PA & LB & LA). destruct (Nat.eq_dec (length A) (length U + 1)); [left|right]; exists A, B, C'; [|refine (conj Ew (conj PA _)); lia].
        refine (conj Ew (conj e (conj _ PA))). lia.
Qed.

Lemma first_lists (P R : list Elt) x X s first : first = length P -> s = S (length X) -> NoDup X ->
  lists (fun T f => permute f (s - 1) (first + 1)) (P ++ x :: X ++ R) (P ++ x :: X ++ R)
    (fun w => exists A B, w = P ++ A ++ x :: B ++ R /\ Permutation (A ++ B) X /\ length A = 0).
Proof.
  intros Hf Hs ND. pose proof (permute_ok (P ++ [x]) X R (first + 1) (s - 1)) as H. rewrite app_length in H. cbn [length] in H. specialize (H ltac:(lia) ltac:(lia)).
  rewrite <- app_assoc in H. cbn [app] in H. eexists. refine (conj H (conj _ _)).
  - apply NoDup_map_inj; [apply perms_NoDup; auto; lia|]. intros a b _ _ E. rewrite <- !app_assoc in E. apply app_inv_head in E. cbn [app] in E. injection E as E. apply app_inv_tail in E. exact E.
  - intro w. rewrite in_map_iff. split.
    + intros (b & <- & Hb). apply perms_In in Hb; [|lia]. exists [], b. refine (conj _ (conj Hb eq_refl)). rewrite <- app_assoc. reflexivity.
    + intros (A & B & -> & PB & LA). destruct A; [|discriminate LA]. exists B. split; [rewrite <- app_assoc; reflexivity|]. apply perms_In; [lia|]. exact PB.
Qed.

Lemma not_in_left (x : Elt) (A B X : list Elt) : ~ In x X -> Permutation (A ++ B) X -> ~ In x A.
Proof. intros H PA HI. apply H. eapply Permutation_in; [exact PA|]. apply in_or_app. left. exact HI. Qed.

(** an arrangement with [x] in the middle and [y] before it *)
Definition middle (P R : list Elt) (x y : Elt) (X : list Elt) (s2 : nat) (lo hi : nat) (w : list Elt) : Prop :=
  exists A B C, w = P ++ A ++ y :: B ++ x :: C ++ R /\ Permutation (A ++ B ++ C) X /\ length A + length B + 1 = s2 /\ lo <= length A < hi.
Definition early (P R : list Elt) (x : Elt) (X : list Elt) (lo hi : nat) (w : list Elt) : Prop :=
  exists A B, w = P ++ A ++ x :: B ++ R /\ Permutation (A ++ B) X /\ lo <= length A < hi.

Lemma middle_disjoint P R x y X s2 a b c d w : NoDup (y :: X) -> b <= c -> middle P R x y X s2 a b w -> ~ middle P R x y X s2 c d w.
Proof.
  intros ND Hbc (A & B & C & Ew & PA & LB & LA) (A2 & B2 & C2 & Ew2 & PA2 & LB2 & LA2). rewrite Ew in Ew2. apply app_inv_head in Ew2. inversion ND as [|? ? NX NX2]; subst.
  apply split_unique in Ew2; [destruct Ew2 as [-> _]; lia| |]; eapply not_in_left; eauto.
Qed.

Lemma early_disjoint P R x X a b c d w : NoDup (x :: X) -> b <= c -> early P R x X a b w -> ~ early P R x X c d w.
Proof.
  intros ND Hbc (A & B & Ew & PA & LA) (A2 & B2 & Ew2 & PA2 & LA2). rewrite Ew in Ew2. apply app_inv_head in Ew2. inversion ND as [|? ? NX NX2]; subst.
  apply split_unique in Ew2; [destruct Ew2 as [-> _]; lia| |]; eapply not_in_left; eauto.
Qed.

Lemma middle_early P R x y X s2 a b w : middle P R x y X s2 a b w -> early P R x (y :: X) s2 (S s2) w.
Proof.
  intros (A & B & C & Ew & PA & LB & LA). exists (A ++ y :: B), C. refine (conj _ (conj _ _)).
  - rewrite Ew, <- !app_assoc. reflexivity.
  - rewrite <- app_assoc. cbn [app]. rewrite <- Permutation_middle. apply perm_skip. exact PA.
  - rewrite app_length. cbn [length]. lia.
Qed.

Lemma middle_split P R x y X s2 a b c w : a <= b <= c -> middle P R x y X s2 a c w <-> middle P R x y X s2 a b w \/ middle P R x y X s2 b c w.
Proof.
  intro H. split.
  - intros (A & B & C & Ew & PA & LB & LA). destruct (Nat.lt_ge_cases (length A) b); [left|right]; exists A, B, C; refine (conj Ew (conj PA (conj LB _))); lia.
  - intros [(A & B & C & Ew & PA & LB & LA)|(A & B & C & Ew & PA & LB & LA)]; exists A, B, C; refine (conj Ew (conj PA (conj LB _))); lia.
Qed.

Lemma early_split P R x X a b c w : a <= b <= c -> early P R x X a c w <-> early P R x X a b w \/ early P R x X b c w.
Proof.
  intro H. split.
  - intros (A & B & Ew & PA & LA). destruct (Nat.lt_ge_cases (length A) b); [left|right]; exists A, B; refine (conj Ew (conj PA _)); lia.
  - intros [(A & B & Ew & PA & LA)|(A & B & Ew & PA & LA)]; exists A, B; refine (conj Ew (conj PA _)); lia.
Qed.

Lemma reverse_two (P A : list Elt) y x R first s2 : first = length P -> s2 = S (length A) ->
  std_reverse first (first + (s2 + 1)) (std_reverse first (first + (s2 - 1)) (P ++ A ++ y :: x :: R)) = P ++ x :: y :: A ++ R.
Proof.
  intros Hf Hs. rewrite (reverse_mid P A (y :: x :: R)) by lia.
  replace (P ++ rev A ++ y :: x :: R) with (P ++ (rev A ++ [y; x]) ++ R) by (rewrite <- app_assoc; reflexivity).
  rewrite reverse_mid; [|exact Hf|rewrite app_length, rev_length; cbn [length]; lia]. rewrite rev_app_distr, rev_involutive. reflexivity.
Qed.

(** all arrangements up to reversal: the first element is in the first half,
    or it is in the middle and the second element is before it *)
Lemma reversible_lists (P R : list Elt) x y X s first : first = length P -> s = S (S (length X)) -> 0 < length X -> NoDup (x :: y :: X) ->
  lists (fun T f => reversible_permutation f s first) (P ++ (x :: y :: X) ++ R) (P ++ (x :: y :: X) ++ R)
    (fun w => early P R x (y :: X) 0 (s / 2) w \/ 2 * (s / 2) <> s /\ middle P R x y X (s / 2) 0 (s / 2) w).
Proof.
  intros Hf Hs HX ND. set (s2 := s / 2). assert (Hs2 : 2 * s2 <= s < 2 * s2 + 2) by (unfold s2; pose proof (Nat.div_mod s 2 ltac:(lia)); pose proof (Nat.mod_upper_bound s 2 ltac:(lia)); lia).
  assert (NDr : NoDup (y :: X)) by (inversion ND; assumption).
  assert (H1 : lists (fun T f => permute f (s - 1) (first + 1)) (P ++ (x :: y :: X) ++ R) (P ++ (x :: y :: X) ++ R) (early P R x (y :: X) 0 1)).
  { eapply lists_ext; [apply (first_lists P R x (y :: X) s first Hf ltac:(cbn [length]; lia) NDr)|]. intro w. split; intros (A & B & E1 & E2 & E3); exists A, B; refine (conj E1 (conj E2 _)); lia. }
  destruct (rev_loop_lists P R x s first (s2 - 1) Hf 1 [] (y :: X) eq_refl ND ltac:(cbn [length]; lia) ltac:(cbn [length]; lia)) as (U & V & EU & LU & H2).
  cbn [length app] in LU, H2. cbn [app] in EU.
  assert (H2' : lists (fun T f => rev_loop f s first (s2 - 1) 1) (P ++ (x :: y :: X) ++ R) (P ++ U ++ x :: V ++ R) (early P R x (y :: X) 1 s2)).
  { eapply lists_ext; [exact H2|]. intro w. split; intros (A & B & E1 & E2 & E3); exists A, B; refine (conj E1 (conj E2 _)); lia. }
  clear H2. assert (LV : length U + length V = s - 1) by (rewrite <- app_length, EU; cbn [length]; lia).
  assert (EL : length (P ++ U ++ x :: V ++ R) = length (P ++ (x :: y :: X) ++ R)) by (rewrite !app_length; cbn [length]; rewrite !app_length; lia).
  destruct (Nat.eqb_spec (2 * s2) s) as [Ev|Od].
  - (* even *)
    pose proof (lists_then _ _ _ _ (rotate first (first + (s2 - 1)) (first + s2)) H2' EL) as H3.
    pose proof (lists_seq _ _ _ _ _ _ _ H1 eq_refl H3 ltac:(intros w; apply early_disjoint; auto)) as H4.
    assert (ER : rotate first (first + (s2 - 1)) (first + s2) (P ++ U ++ x :: V ++ R) = P ++ (x :: y :: X) ++ R).
    { change (x :: V ++ R) with ([x] ++ V ++ R). rewrite (rotate_split P U [x] (V ++ R)) by (cbn [length]; lia). cbn [app]. rewrite (app_assoc U V R), EU. reflexivity. }
    rewrite ER in H4. eapply lists_ext; [eapply lists_eq; [|exact H4]|].
    + intros T f st. unfold reversible_permutation. fold s2. assert (E3 : (s <? 3) = false) by (apply Nat.ltb_ge; lia). rewrite E3.
      assert (E2 : (2 * s2 =? s) = true) by (apply Nat.eqb_eq; lia). rewrite E2. reflexivity.
    + intro w. cbv beta. rewrite <- early_split by lia. tauto.
  - destruct V as [|v1 V].
    { cbn [length] in LV. lia. }
    destruct (Nat.eqb_spec s 3) as [E3|N3].
    + (* three elements *)
      assert (Es2 : s2 = 1) by lia. rewrite Es2 in *. destruct U; [|cbn [length] in LU; lia]. cbn [app] in *. injection EU as -> ->.
      destruct X as [|z [|z' X]]; cbn [length] in *; try lia. cbn [app] in *.
      assert (HF : lists (fun T f => f) (P ++ y :: x :: z :: R) (P ++ y :: x :: z :: R) (middle P R x y [z] 1 0 1)).
      { eexists. refine (conj (enumerates_one _) (conj _ _)); [repeat constructor; simpl; auto|]. intro w. split.
        - intros [<-|[]]. exists [], [], [z]. refine (conj eq_refl (conj _ _)); [reflexivity|]. cbn [length]. lia.
        - intros (A & B & C & Ew & PA & LB & LA). destruct A, B; cbn [length] in LA, LB; try lia. cbn [app] in *. apply Permutation_sym, Permutation_length_1_inv in PA. subst C. left. symmetry. exact Ew. }
      assert (HE : lists (fun T f st v => swapped (first + (1 - 1)) (first + 1) v (fun v => Ok (false, st, v))) (P ++ y :: x :: z :: R) (P ++ x :: y :: z :: R) (fun _ => False)).
      { apply lists_adj; [lia|lia|]. apply (lists_none (fun v => v)). }
      pose proof (lists_seq _ _ _ _ _ _ _ HF eq_refl HE ltac:(tauto)) as H3.
      assert (H3s : lists _ (P ++ x :: y :: z :: R) _ _) by (eapply (lists_adj _ P x y (z :: R) (first + (1 - 1)) (first + 1)); [lia|lia|exact H3]).
      pose proof (lists_seq _ _ _ _ _ _ _ H2' eq_refl H3s) as H4.
      assert (D4 : forall w, early P R x [y; z] 1 1 w -> ~ (middle P R x y [z] 1 0 1 w \/ False)) by (intros w (A & B & _ & _ & L); lia).
      specialize (H4 D4).
      pose proof (lists_seq _ _ _ _ _ _ _ H1 eq_refl H4) as H5.
      assert (D5 : forall w, early P R x [y; z] 0 1 w -> ~ (early P R x [y; z] 1 1 w \/ middle P R x y [z] 1 0 1 w \/ False)).
      { intros w HA [(A & B & _ & _ & L)|[HB|[]]]; [lia|]. apply middle_early in HB. revert HA HB. apply early_disjoint; auto. }
      specialize (H5 D5). eapply lists_ext; [eapply lists_eq; [|exact H5]|].
      * intros T f st. unfold reversible_permutation. fold s2. rewrite Es2. assert (EE : (s <? 3) = false) by (apply Nat.ltb_ge; lia). rewrite EE.
        assert (E2 : (2 * 1 =? s) = false) by (apply Nat.eqb_neq; lia). rewrite E2. assert (E33 : (s =? 3) = true) by (apply Nat.eqb_eq; lia). rewrite E33. reflexivity.
      * intro w. cbv beta. split; [intros [H|[(A & B & _ & _ & L)|[H|[]]]]; [left; exact H|lia|right; split; [lia|exact H]]|intros [H|[_ H]]; tauto].
    + (* five elements or more *)
      destruct U as [|u1 U]; [cbn [length] in LU; lia|]. cbn [app] in EU. injection EU as -> EU. cbn [length] in LU, LV.
      set (C := V). set (H := U ++ [v1]). assert (LH : length H = s2 - 1) by (unfold H; rewrite app_length; cbn [length]; lia).
      assert (EHC : H ++ C = X) by (unfold H, C; rewrite <- app_assoc; exact EU).
      assert (LC : length C = s2) by (unfold C; lia). assert (NC : C <> []) by (intro E; rewrite E in LC; cbn [length] in LC; lia).
      assert (ND1 : NoDup (y :: H ++ C)) by (rewrite EHC; exact NDr).
      assert (ND2 : NoDup (H ++ C)) by (inversion ND1; assumption).
      assert (H3 : lists (fun T f => combine_discontinuous (rev2 f (first + 1) (s2 - 1) (first + (s2 + 1)) (s - s2 - 1)) (s2 - 1) (first + 1) (first + (s2 + 1)) (s - s2 - 1) 0)
        (P ++ y :: H ++ x :: C ++ R) (P ++ y :: H ++ x :: C ++ R) (middle P R x y X s2 0 1)).
      { pose proof (arrange2 (P ++ [y]) H [x] C R (first + 1) (s2 - 1) (first + (s2 + 1)) (s - s2 - 1) ND2) as AR. rewrite app_length in AR. cbn [length] in AR.
        specialize (AR ltac:(lia) ltac:(lia) ltac:(lia) ltac:(lia)). rewrite <- app_assoc in AR. cbn [app] in AR. eapply lists_ext; [exact AR|]. intro w. split.
        - intros (A & B & Ew & LA & PA). exists [], A, B. refine (conj _ (conj _ _)); [rewrite Ew, <- app_assoc; reflexivity|rewrite <- EHC; exact PA|cbn [length]; lia].
        - intros (A & B & C' & Ew & PA & LB & LA). destruct A; [|cbn [length] in LA; lia]. cbn [length] in LB. exists B, C'. rewrite EHC. refine (conj _ (conj _ PA)); [rewrite Ew, <- app_assoc; reflexivity|lia]. }
      destruct (rev_middle_lists P R x y C s s2 first (s2 - 2) Hf NC 1 [] H eq_refl ND1 ltac:(cbn [length]; lia) ltac:(lia) ltac:(lia)) as (U' & V' & EU' & LU' & H4).
      cbn [app length] in EU', LU', H4.
      assert (H4' : lists (fun T f => rev_middle_loop f s s2 first (s2 - 2) 1) (P ++ y :: H ++ x :: C ++ R) (P ++ U' ++ y :: V' ++ x :: C ++ R) (middle P R x y X s2 1 (s2 - 1))).
      { eapply lists_ext; [exact H4|]. intro w. rewrite EHC. split; intros (A & B & C' & Ew & PA & LB & LA); exists A, B, C'; refine (conj Ew (conj PA _)); lia. }
      clear H4. assert (LV' : length V' = 1) by (apply (f_equal (@length Elt)) in EU'; rewrite app_length in EU'; lia).
      destruct V' as [|z [|? ?]]; cbn [length] in LV'; try lia. clear LV'. cbn [app] in H4'.
      assert (H5 : lists (fun T f => combine_discontinuous (rev2 f first (s2 - 1) (first + (s2 + 1)) (s - s2 - 1)) (s2 - 1) first (first + (s2 + 1)) (s - s2 - 1) 0)
        (P ++ H ++ y :: x :: C ++ R) (P ++ H ++ y :: x :: C ++ R) (middle P R x y X s2 (s2 - 1) s2)).
      { pose proof (arrange2 P H [y; x] C R first (s2 - 1) (first + (s2 + 1)) (s - s2 - 1) ND2 Hf ltac:(lia) ltac:(cbn [length]; lia) ltac:(lia)) as AR. cbn [app] in AR.
        eapply lists_ext; [exact AR|]. intro w. split.
        - intros (A & B & Ew & LA & PA). exists A, [], B. refine (conj Ew (conj _ _)); [rewrite <- EHC; exact PA|cbn [length]; lia].
        - intros (A & B & C' & Ew & PA & LB & LA). destruct B; [|cbn [length] in LB; lia]. exists A, C'. rewrite EHC. refine (conj Ew (conj _ PA)). cbn [length] in LB; lia. }
      pose proof (lists_then _ _ _ _ (fun v => std_reverse first (first + (s2 + 1)) (std_reverse first (first + (s2 - 1)) v)) H5 eq_refl) as H6.
      cbv beta in H6. rewrite (reverse_two P H y x (C ++ R) first s2 Hf ltac:(lia)) in H6. rewrite (app_assoc H C R), EHC in H6.
      assert (E5 : P ++ H ++ y :: x :: C ++ R = (P ++ U') ++ z :: y :: x :: C ++ R) by (rewrite <- EU', <- !app_assoc; reflexivity).
      rewrite E5 in H6. assert (L5 : length (P ++ U') = first + (s2 - 2)) by (rewrite app_length; lia).
      pose proof (lists_adj _ (P ++ U') y z (x :: C ++ R) (first + (s2 - 2)) (first + (s2 - 1)) _ _ ltac:(lia) ltac:(lia) H6) as H7.
      rewrite <- app_assoc in H7.
      pose proof (lists_seq _ _ _ _ _ _ _ H4' ltac:(rewrite <- EU', !app_length; cbn [length]; rewrite !app_length; cbn [length]; rewrite app_length; lia) H7 ltac:(intro w; apply middle_disjoint; auto)) as H8.
      pose proof (lists_ext _ _ _ _ (middle P R x y X s2 1 s2) H8 (fun w => iff_sym (middle_split P R x y X s2 1 (s2 - 1) s2 w ltac:(lia)))) as H8'.
      pose proof (lists_seq _ _ _ _ _ _ _ H3 eq_refl H8' ltac:(intro w; apply middle_disjoint; auto)) as H9.
      assert (E9 : P ++ y :: H ++ x :: C ++ R = (P ++ y :: U) ++ v1 :: x :: C ++ R) by (unfold H; rewrite <- !app_assoc; reflexivity).
      rewrite E9 in H9. pose proof (lists_adj _ (P ++ y :: U) x v1 (C ++ R) (first + (s2 - 1)) (first + s2) _ _ ltac:(rewrite app_length; cbn [length]; lia) ltac:(rewrite app_length; cbn [length]; lia) H9) as H10.
      rewrite <- app_assoc in H10.
      assert (D10 : forall w, early P R x (y :: X) 1 s2 w -> ~ (middle P R x y X s2 0 1 w \/ middle P R x y X s2 1 s2 w)).
      { intros w HA [HB|HB]; apply middle_early in HB; revert HA HB; apply early_disjoint; auto. }
      pose proof (lists_seq _ _ _ _ _ _ _ H2' EL H10 D10) as H11.
      assert (D11 : forall w, early P R x (y :: X) 0 1 w -> ~ (early P R x (y :: X) 1 s2 w \/ middle P R x y X s2 0 1 w \/ middle P R x y X s2 1 s2 w)).
      { intros w HA [HB|[HB|HB]]; [revert HA HB; apply early_disjoint; auto| |]; apply middle_early in HB; revert HA HB; apply early_disjoint; auto; lia. }
      pose proof (lists_seq _ _ _ _ _ _ _ H1 eq_refl H11 D11) as H12.
      eapply lists_ext; [eapply lists_eq; [|exact H12]|].
      * intros T f st. unfold reversible_permutation. fold s2. assert (EE : (s <? 3) = false) by (apply Nat.ltb_ge; lia). rewrite EE.
        assert (E2 : (2 * s2 =? s) = false) by (apply Nat.eqb_neq; lia). rewrite E2. assert (E33 : (s =? 3) = false) by (apply Nat.eqb_neq; lia). rewrite E33. reflexivity.
      * intro w. cbv beta. rewrite (early_split P R x (y :: X) 0 1 s2 w) by lia. rewrite (middle_split P R x y X s2 0 1 s2 w) by lia. tauto.
Qed.
End Reversible.
