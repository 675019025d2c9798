(** * Final theorems for the permutations in [math/Combinations.hh]. *)

From Coq Require Import List Arith Bool Lia Permutation Sorted Factorial.
From Verif Require Import Base BaseFacts TopDown CombinationFacts SpecCombine SpecPermute Combine CombineFacts Permute PermuteFacts EnumerateFacts Combine3Facts ReversibleFacts NaturalFacts PropertiesCombine TemplateFacts.
Import ListNotations.

Lemma seq_split n k : k <= n -> seq 0 n = seq 0 k ++ seq k (n - k).
Proof. intro H. rewrite <- (seq_app k (n - k) 0 : _ = seq 0 k ++ seq k (n - k)). f_equal. lia. Qed.

Lemma perm_bound k z i : Permutation z (seq 0 k) -> In i z -> i < k.
Proof. intros P H. eapply Permutation_in in H; [|exact P]. apply in_seq in H. lia. Qed.

Lemma cut_map k (R : list nat) Z : (forall z, In z Z -> length z = k) -> map (firstn k) (map (fun z => z ++ R) Z) = Z.
Proof. intro H. rewrite map_map. transitivity (map (fun z : list nat => z) Z); [|apply map_id]. apply map_ext_in. intros z Hz. apply firstn_len. symmetry. apply H, Hz. Qed.

(** ** all permutations *)
Lemma perms_ordered n : forall l, length l = n -> StronglySorted lt l -> StronglySorted before (perms n l).
Proof.
  induction n as [|n IH]; intros l Ln Sl; cbn [perms]; [repeat constructor|].
  assert (G : forall W U, length (U ++ W) = S n -> StronglySorted lt (U ++ W) -> StronglySorted before (flat_map (fun p => map (cons (fst p)) (perms n (snd p))) (picks_after U W))).
  { induction W as [|y W IW]; intros U LU SU; cbn [picks_after flat_map fst snd]; [constructor|].
    apply StronglySorted_app. refine (conj _ (conj _ _)).
    - assert (S1 : StronglySorted before (perms n (U ++ W))).
      { apply IH; [rewrite app_length in *; cbn [length] in LU; lia|]. apply StronglySorted_app in SU. destruct SU as (S1 & S2 & S3). apply StronglySorted_app. inversion S2; subst.
        refine (conj S1 (conj _ _)); [assumption|]. intros a b Ha Hb. apply S3; auto. right. exact Hb. }
      induction S1 as [|c r Hr IHr HFr]; cbn [map]; constructor; auto. apply Forall_forall. intros q Hq. apply in_map_iff in Hq. destruct Hq as (q' & <- & Hq'). rewrite Forall_forall in HFr.
      destruct (HFr q' Hq') as (c0 & a & b & p' & r' & -> & -> & Hab). exists (y :: c0), a, b, p', r'. auto.
    - apply IW; rewrite <- app_assoc; assumption.
    - intros p q Hp Hq. apply in_map_iff in Hp. destruct Hp as (p' & <- & _). apply in_flat_map in Hq. destruct Hq as ((z & Z) & Hz & Hq). apply in_map_iff in Hq. destruct Hq as (q' & <- & _). cbn [fst snd].
      apply picks_after_In in Hz. destruct Hz as (V & W' & EW & _). cbn [fst] in EW. exists [], y, z, p', q'. refine (conj eq_refl (conj eq_refl _)).
      apply StronglySorted_app in SU. destruct SU as (_ & S2 & _). inversion S2 as [|? ? _ HF]; subst. rewrite Forall_forall in HF. apply HF. apply in_or_app. right. left. reflexivity. }
  apply (G l []); assumption.
Qed.

Lemma permutation_template n k : k <= n -> forall T A (a : A) (g : T -> list A -> outcome (bool * T)) st w, length w = n ->
  matches (permute (bound_range g 0 k) k 0 st w) (visit g (map (pick a w) (perms k (seq 0 k))) st) w.
Proof.
  intros Hk T A a g st w Lw.
  pose proof (permute_ok [] (seq 0 k) (seq k (n - k)) 0 k eq_refl ltac:(rewrite seq_length; reflexivity)) as E. cbn [app] in E. rewrite <- seq_split in E by exact Hk.
  pose proof (template (fun T A f => permute f k 0) k n _ (fun T X Y h f fy H => permute_natural h f fy k 0 H) E T A a g st w Lw) as M.
  rewrite cut_map in M; [exact M|]. intros z Hz. apply perms_In in Hz; [|apply seq_length]. apply Permutation_length in Hz. rewrite seq_length in Hz. exact Hz.
Qed.

(** C96: the function object is called once for each arrangement of [k] of the
    elements: for the combinations in lexicographic order, and for each of them
    in lexicographic order; the vector is restored. *)
Theorem C96_for_each : forall (T A : Type) (a : A) (g : T -> list A -> outcome (bool * T)) k st v, k <= length v ->
  exists P, StronglySorted earlier P /\ NoDup P /\ (forall p, In p P <-> arrangement (length v) k p) /\
    matches (for_each_permutation g k st v) (visit g (map (map (fun i => nth i v a)) P) st) v.
Proof.
  intros T A a g k st v Hk. set (n := length v) in *. assert (HZ : forall z, In z (perms k (seq 0 k)) <-> Permutation z (seq 0 k)) by (intro z; apply perms_In, seq_length).
  assert (HZ1 : forall z, In z (perms k (seq 0 k)) -> Permutation z (seq 0 k)) by (intros z; apply HZ).
  exists (spread n k (perms k (seq 0 k))). refine (conj _ (conj _ (conj _ _))).
  - apply spread_ordered; auto. apply perms_ordered; [apply seq_length|apply seq_sorted].
  - apply spread_NoDup; auto. apply perms_NoDup; [apply seq_length|apply seq_NoDup].
  - intro p. split.
    + intro H. apply spread_arr in H; auto. destruct H as (c & z & Hc & Hz & ->). apply pick_arr; auto.
    + intro H. apply arr_pick in H. destruct H as (c & z & Hc & Hz & ->). apply spread_In; auto. apply HZ, Hz.
  - unfold for_each_permutation. destruct (Nat.ltb_spec (length v) k); [unfold n in Hk; lia|]. fold n. apply combine_template; auto.
    + intros s w Lw. apply (permutation_template n); auto.
    + intros z i Hz Hi. exact (perm_bound k z i (HZ1 z Hz) Hi).
Qed.

Example C96_example :
  for_each_permutation (fun st l => Ok (false, st ++ [l])) 2 [] [7; 5; 9] =
  Ok (false, [[7; 5]; [5; 7]; [7; 9]; [9; 7]; [5; 9]; [9; 5]], [7; 5; 9]) /\
  for_each_permutation (fun st l => Ok (9 =? hd 0 l, st ++ [l])) 2 [] [7; 5; 9] =
  Ok (true, [[7; 5]; [5; 7]; [7; 9]; [9; 7]], [9; 7; 5]).
Proof. split; vm_compute; reflexivity. Qed.

(** ** circular permutations *)
Definition circles (k : nat) : list (list nat) := match k with 0 => [[]] | S m => map (cons 0) (perms m (seq 1 m)) end.

Lemma circles_perm k z : In z (circles k) -> Permutation z (seq 0 k).
Proof.
  destruct k as [|m]; cbn [circles].
  - intros [<-|[]]. constructor.
  - intro H. apply in_map_iff in H. destruct H as (y & <- & Hy). apply perms_In in Hy; [|apply seq_length]. cbn [seq]. apply perm_skip. exact Hy.
Qed.

Lemma circular_template n k : k <= n -> forall T A (a : A) (g : T -> list A -> outcome (bool * T)) st w, length w = n ->
  matches (circular_permutation g k st w) (visit g (map (pick a w) (circles k)) st) w.
Proof.
  intros Hk T A a g st w Lw.
  assert (E : exists L, enumerates (fun T (f : T -> list nat -> outcome (bool * T * list nat)) st v => if k <=? 1 then f st v else permute f (k - 1) 1 st v) (seq 0 n) L (seq 0 n) /\ map (firstn k) L = circles k).
  { destruct k as [|[|m]]; cbn [Nat.leb].
    - exists [seq 0 n]. split; [apply enumerates_one|reflexivity].
    - exists [seq 0 n]. split; [apply enumerates_one|]. destruct n; [lia|]. reflexivity.
    - pose proof (permute_ok [0] (seq 1 (S m)) (seq (S (S m)) (n - S (S m))) 1 (S m) eq_refl ltac:(rewrite seq_length; reflexivity)) as E.
      replace ([0] ++ seq 1 (S m) ++ seq (S (S m)) (n - S (S m))) with (seq 0 n) in E by (rewrite (seq_split n (S (S m)) Hk); reflexivity).
      eexists. split; [exact E|]. rewrite map_map. cbn [circles]. apply map_ext_in. intros z Hz. apply perms_In in Hz; [|apply seq_length]. apply Permutation_length in Hz. rewrite seq_length in Hz.
      change (0 :: firstn (S m) (z ++ seq (S (S m)) (n - S (S m))) = 0 :: z). f_equal. apply firstn_len. lia. }
  destruct E as (L & E & EL).
  pose proof (template (fun T A f st v => if k <=? 1 then f st v else permute f (k - 1) 1 st v) k n L) as M. rewrite EL in M.
  apply (M (fun T X Y h f fy H st v => match (k <=? 1) as b return (if b then fy st (map h v) else permute fy (k - 1) 1 st (map h v)) = mo h (if b then f st v else permute f (k - 1) 1 st v) with true => H st v | false => permute_natural h f fy (k - 1) 1 H st v end) E T A a g st w Lw).
Qed.

Lemma rotation_pick {c z q} : rotation (pick 0 c z) q -> exists z', q = pick 0 c z' /\ rotation z z'.
Proof.
  intros (x & y & E & ->). unfold pick in E. apply map_eq_app in E. destruct E as (z1 & z2 & -> & <- & <-). exists (z2 ++ z1). split; [unfold pick; rewrite map_app; reflexivity|]. exists z1, z2. auto.
Qed.

Lemma pick_rotation c z z' : rotation z z' -> rotation (pick 0 c z) (pick 0 c z').
Proof. intros (x & y & -> & ->). exists (pick 0 c x), (pick 0 c y). unfold pick. rewrite !map_app. auto. Qed.

Lemma rotation_perm {A} (p q : list A) : rotation p q -> Permutation p q.
Proof. intros (a & b & -> & ->). apply Permutation_app_comm. Qed.

Lemma rotation_zero U V q y : ~ In 0 U -> rotation (U ++ 0 :: V) q -> q = 0 :: y -> ~ In 0 y -> y = V ++ U.
Proof.
  intros HU (a & b & E & Eq) -> Hy. destruct b as [|z b]; cbn [app] in Eq.
  - rewrite app_nil_r in E. subst a. destruct U as [|u U]; cbn [app] in Eq; [injection Eq as E2; rewrite app_nil_r; congruence|]. injection Eq as E1 E2. exfalso. apply HU. left. auto.
  - injection Eq as <- ->. apply split_unique in E; auto; [destruct E as [-> ->]; reflexivity|]. intro Ha. apply Hy. apply in_or_app. right. exact Ha.
Qed.

Lemma zero_split k z : 0 < k -> Permutation z (seq 0 k) -> exists U V, z = U ++ 0 :: V /\ ~ In 0 U /\ Permutation (V ++ U) (seq 1 (k - 1)) /\ ~ In 0 (V ++ U).
Proof.
  intros Hk P. assert (I : In 0 z) by (eapply Permutation_in; [apply Permutation_sym; exact P|apply in_seq; lia]). apply in_split in I. destruct I as (U & V & ->). exists U, V.
  assert (P2 : Permutation (V ++ U) (seq 1 (k - 1))).
  { destruct k as [|k]; [lia|]. cbn [seq Nat.sub] in *. rewrite Nat.sub_0_r. rewrite <- Permutation_middle in P. apply Permutation_cons_inv in P. rewrite <- P. apply Permutation_app_comm. }
  assert (N : ~ In 0 (V ++ U)) by (intro H; eapply Permutation_in in H; [|exact P2]; apply in_seq in H; lia).
  refine (conj eq_refl (conj _ (conj P2 N))). intro H. apply N. apply in_or_app. right. exact H.
Qed.

Lemma circles_rotation k z : Permutation z (seq 0 k) -> exists y, In y (circles k) /\ rotation z y /\ forall y', In y' (circles k) -> rotation z y' -> y' = y.
Proof.
  intro P. destruct k as [|k].
  - apply Permutation_sym, Permutation_nil in P. subst z. exists []. refine (conj (or_introl eq_refl) (conj _ _)); [exists [], []; auto|]. intros y' [<-|[]] _. reflexivity.
  - destruct (zero_split (S k) z ltac:(lia) P) as (U & V & -> & HU & P2 & N). cbn [Nat.sub] in P2. rewrite Nat.sub_0_r in P2. exists (0 :: V ++ U). refine (conj _ (conj _ _)).
    + cbn [circles]. apply in_map. apply perms_In; [apply seq_length|exact P2].
    + exists U, (0 :: V). auto.
    + intros y' Hy' R. cbn [circles] in Hy'. apply in_map_iff in Hy'. destruct Hy' as (y & <- & Hy). f_equal. apply (rotation_zero U V (0 :: y) y); auto.
      intro H. apply perms_In in Hy; [|apply seq_length]. eapply Permutation_in in H; [|exact Hy]. apply in_seq in H. lia.
Qed.

Lemma map_cons_ordered x l : StronglySorted before l -> StronglySorted before (map (cons x) l).
Proof.
  induction 1 as [|c r Hr IHr HFr]; cbn [map]; constructor; auto. apply Forall_forall. intros q Hq. apply in_map_iff in Hq. destruct Hq as (q' & <- & Hq'). rewrite Forall_forall in HFr.
  destruct (HFr q' Hq') as (c0 & a & b & p' & r' & -> & -> & Hab). exists (x :: c0), a, b, p', r'. auto.
Qed.

Lemma circles_NoDup k : NoDup (circles k).
Proof.
  destruct k as [|k]; cbn [circles]; [repeat constructor; simpl; auto|]. apply NoDup_map_inj; [apply perms_NoDup; [apply seq_length|apply seq_NoDup]|]. intros x y _ _ E. injection E as E. exact E.
Qed.

(** C97: every arrangement of [k] elements on a circle is met exactly once, up
    to its starting position. *)
Theorem C97_for_each : forall (T A : Type) (a : A) (g : T -> list A -> outcome (bool * T)) k st v, k <= length v ->
  exists P, StronglySorted earlier P /\ NoDup P /\ (forall p, In p P -> arrangement (length v) k p) /\
    (forall p, arrangement (length v) k p -> exists q, In q P /\ rotation p q /\ forall q', In q' P -> rotation p q' -> q' = q) /\
    matches (for_each_circular_permutation g k st v) (visit g (map (map (fun i => nth i v a)) P) st) v.
Proof.
  intros T A a g k st v Hk. set (n := length v) in *. pose proof (circles_perm k) as HZ. exists (spread n k (circles k)). refine (conj _ (conj _ (conj _ (conj _ _)))).
  - apply spread_ordered; auto. destruct k as [|k]; cbn [circles]; [repeat constructor|]. apply map_cons_ordered, perms_ordered; [apply seq_length|apply seq_sorted].
  - apply spread_NoDup; auto. apply circles_NoDup.
  - intros p H. apply spread_arr in H; auto. destruct H as (c & z & Hc & Hz & ->). apply pick_arr; auto.
  - intros p H. apply arr_pick in H. destruct H as (c & z & Hc & Hz & ->). destruct (circles_rotation k z Hz) as (y & Hy & R & U). exists (pick 0 c y). refine (conj _ (conj _ _)).
    + apply spread_In; auto.
    + apply pick_rotation, R.
    + intros q' Hq' R'. destruct (rotation_pick R') as (z' & -> & R2). f_equal. apply U; auto.
      assert (Pz : Permutation z' (seq 0 k)) by (transitivity z; [apply Permutation_sym, rotation_perm, R2|exact Hz]). exact (proj1 (spread_In n k _ c z' HZ Hc Pz) Hq').
  - unfold for_each_circular_permutation. destruct (Nat.ltb_spec (length v) k); [unfold n in Hk; lia|]. fold n. apply combine_template; auto.
    + intros s w Lw. apply (circular_template n); auto.
    + intros z i Hz Hi. exact (perm_bound k z i (HZ z Hz) Hi).
Qed.

Example C97_example :
  for_each_circular_permutation (fun st l => Ok (false, st ++ [l])) 3 [] [7; 5; 9; 2] =
  Ok (false, [[7; 5; 9]; [7; 9; 5]; [7; 5; 2]; [7; 2; 5]; [7; 9; 2]; [7; 2; 9]; [5; 9; 2]; [5; 2; 9]], [7; 5; 9; 2]).
Proof. vm_compute; reflexivity. Qed.

(** ** permutations up to reversal *)
Definition halves (X : list nat) (Z : list (list nat)) : Prop :=
  NoDup Z /\ (forall z, In z Z -> Permutation z X) /\ (forall z, Permutation z X -> In z Z \/ In (rev z) Z) /\ (forall z, In z Z -> In (rev z) Z -> z = rev z).

Lemma reversible_halves (P X R : list nat) s first : NoDup X -> s = length X -> first = length P ->
  exists Z, halves X Z /\ enumerates (fun T f => reversible_permutation f s first) (P ++ X ++ R) (map (fun z => P ++ z ++ R) Z) (P ++ X ++ R).
Proof.
  intros ND Hs Hf. destruct (Nat.lt_ge_cases s 3) as [Sm|Lg].
  - exists [X]. split.
    + refine (conj _ (conj _ (conj _ _))); [repeat constructor; simpl; auto|intros z [<-|[]]; reflexivity| |intros z [<-|[]] [E|[]]; auto].
      intros z Pz. destruct X as [|x [|y [|? ?]]]; cbn [length] in Hs; try lia.
      * apply Permutation_sym, Permutation_nil in Pz. left. left. auto.
      * apply Permutation_sym, Permutation_length_1_inv in Pz. left. left. auto.
      * apply Permutation_sym, Permutation_length_2_inv in Pz. destruct Pz as [-> | ->]; [left|right]; left; reflexivity.
    + cbn [map]. intros T f g Hg st. unfold reversible_permutation. destruct (Nat.ltb_spec s 3); [|lia]. rewrite visit_one. apply Hg. reflexivity.
  - destruct X as [|x [|y X]]; cbn [length] in Hs; try lia.
    destruct (reversible_lists P R x y X s first Hf Hs ltac:(lia) ND) as (L & E1 & E2 & E3).
    assert (Hs2 : 2 * (s / 2) <= s < 2 * (s / 2) + 2) by (pose proof (Nat.div_mod s 2 ltac:(lia)); pose proof (Nat.mod_upper_bound s 2 ltac:(lia)); lia).
    set (s2 := s / 2) in *.
    set (good := fun z => (exists A B, z = A ++ x :: B /\ length A < s2) \/ 2 * s2 <> s /\ exists A B C, z = A ++ y :: B ++ x :: C /\ length A + length B + 1 = s2).
    assert (HG : forall z, Permutation z (x :: y :: X) -> good z -> In (P ++ z ++ R) L).
    { intros z Pz G. apply E3. destruct G as [(A & B & -> & HA)|(Od & A & B & C & -> & HA)]; [left|right; split; [exact Od|]].
      - exists A, B. rewrite <- app_assoc. refine (conj eq_refl (conj _ _)); [|lia]. rewrite <- Permutation_middle in Pz. apply Permutation_cons_inv in Pz. exact Pz.
      - exists A, B, C. refine (conj _ (conj _ (conj HA _))); [rewrite <- !app_assoc; cbn [app]; rewrite <- app_assoc; reflexivity| |lia].
        assert (E : Permutation (x :: y :: A ++ B ++ C) (A ++ y :: B ++ x :: C)).
        { rewrite perm_swap. rewrite <- Permutation_middle. apply perm_skip. rewrite (app_assoc A B (x :: C)), <- (Permutation_middle (A ++ B) C x), <- app_assoc. reflexivity. }
        rewrite Pz in E. apply Permutation_cons_inv, Permutation_cons_inv in E. exact E. }
    assert (HB : forall w, In w L -> exists z, w = P ++ z ++ R /\ Permutation z (x :: y :: X) /\ good z).
    { intros w Hw. apply E3 in Hw. destruct Hw as [(A & B & -> & PA & HA)|(Od & A & B & C & -> & PA & HA & HA2)].
      - exists (A ++ x :: B). rewrite <- app_assoc. refine (conj eq_refl (conj _ _)); [rewrite <- Permutation_middle; apply perm_skip; exact PA|]. left. exists A, B. split; [reflexivity|lia].
      - exists (A ++ y :: B ++ x :: C). refine (conj _ (conj _ _)); [rewrite <- !app_assoc; cbn [app]; rewrite <- app_assoc; reflexivity| |right; split; [exact Od|exists A, B, C; auto]].
        rewrite <- Permutation_middle, (app_assoc A B (x :: C)), <- (Permutation_middle (A ++ B) C x), <- app_assoc, PA. apply perm_swap. }
    set (cut := fun w : list nat => firstn s (skipn first w)).
    assert (HC : forall z, Permutation z (x :: y :: X) -> cut (P ++ z ++ R) = z).
    { intros z Pz. unfold cut. rewrite skipn_len by exact Hf. apply firstn_len. apply Permutation_length in Pz. cbn [length] in Pz. lia. }
    assert (HI : forall z, In z (map cut L) <-> Permutation z (x :: y :: X) /\ good z).
    { intro z. rewrite in_map_iff. split.
      - intros (w & <- & Hw). destruct (HB w Hw) as (z & -> & Pz & G). rewrite HC by exact Pz. auto.
      - intros (Pz & G). exists (P ++ z ++ R). split; [apply HC, Pz|apply HG; auto]. }
    exists (map cut L). split.
    + refine (conj _ (conj _ (conj _ _))).
      * apply NoDup_map_inj; auto. intros w w' Hw Hw' E. destruct (HB w Hw) as (z & -> & Pz & _), (HB w' Hw') as (z' & -> & Pz' & _). rewrite !HC in E by assumption. subst. reflexivity.
      * intros z Hz. apply HI in Hz. apply Hz.
      * intros z Pz. assert (I : In x z) by (eapply Permutation_in; [apply Permutation_sym; exact Pz|left; reflexivity]). apply in_split in I. destruct I as (U & V & ->).
        pose proof (Permutation_length Pz) as LZ. rewrite app_length in LZ. cbn [length] in LZ.
        assert (ER : rev (U ++ x :: V) = rev V ++ x :: rev U) by (rewrite rev_app_distr; cbn [rev]; rewrite <- app_assoc; reflexivity).
        assert (PR : Permutation (rev (U ++ x :: V)) (x :: y :: X)) by (rewrite <- Permutation_rev; exact Pz).
        rewrite !HI. destruct (Nat.lt_ge_cases (length U) s2) as [L1|L1]; [left; split; [exact Pz|]; left; exists U, V; auto|].
        destruct (Nat.lt_ge_cases (length V) s2) as [L2|L2]; [right; split; [exact PR|]; left; exists (rev V), (rev U); rewrite rev_length; auto|].
        assert (IY : In y (U ++ V)).
        { assert (I : In y (U ++ x :: V)) by (eapply Permutation_in; [apply Permutation_sym; exact Pz|right; left; reflexivity]). apply in_app_or in I. destruct I as [I|[E|I]]; [apply in_or_app; auto| |apply in_or_app; auto].
          subst y. inversion ND as [|? ? N _]. exfalso. apply N. left. reflexivity. }
        apply in_app_or in IY. destruct IY as [IY|IY]; apply in_split in IY; destruct IY as (A & B & ->); rewrite app_length in *; cbn [length] in *.
        -- left. split; [exact Pz|]. right. split; [lia|]. exists A, B, V. rewrite <- app_assoc. split; [reflexivity|lia].
        -- right. split; [exact PR|]. right. split; [lia|]. exists (rev B), (rev A), (rev U). rewrite !rev_length. split; [|lia]. rewrite ER, rev_app_distr. cbn [rev]. rewrite <- !app_assoc. reflexivity.
      * intros z Hz Hr. exfalso. apply HI in Hz, Hr. destruct Hz as (Pz & Gz), Hr as (Pr & Gr). pose proof (Permutation_length Pz) as LZ. cbn [length] in LZ.
        assert (NZ : NoDup z) by (eapply Permutation_NoDup; [apply Permutation_sym; exact Pz|exact ND]).
        assert (IX : exists U V, z = U ++ x :: V) by (apply in_split; eapply Permutation_in; [apply Permutation_sym; exact Pz|left; reflexivity]). destruct IX as (U & V & ->).
        assert (ER : rev (U ++ x :: V) = rev V ++ x :: rev U) by (rewrite rev_app_distr; cbn [rev]; rewrite <- app_assoc; reflexivity).
        rewrite app_length in LZ. cbn [length] in LZ. pose proof (NoDup_remove_2 _ _ _ NZ) as NX. rewrite in_app_iff in NX.
        assert (UQ : forall A B, U ++ x :: V = A ++ x :: B -> length A = length U /\ length B = length V /\ A = U).
        { intros A B E. assert (NA : ~ In x A) by (rewrite E in NZ; apply NoDup_remove_2 in NZ; rewrite in_app_iff in NZ; tauto). apply split_unique in E; [|tauto|exact NA]. destruct E as [-> ->]. auto. }
        assert (GU : forall A B, rev (U ++ x :: V) = A ++ x :: B -> length A = length V /\ A = rev V).
        { intros A B E. rewrite ER in E. assert (NR : NoDup (rev V ++ x :: rev U)) by (rewrite <- ER; apply NoDup_rev; exact NZ).
          assert (NA : ~ In x A) by (rewrite E in NR; apply NoDup_remove_2 in NR; rewrite in_app_iff in NR; tauto).
          apply split_unique in E; [|rewrite <- in_rev; tauto|exact NA]. destruct E as [<- _]. rewrite rev_length. auto. }
        destruct Gz as [(A & B & Ez & HA)|(Od & A & B & C & Ez & HA)].
        -- destruct (UQ A B Ez) as (LA & _ & _). destruct Gr as [(A2 & B2 & Er & HA2)|(Od2 & A2 & B2 & C2 & Er & HA2)].
           ++ destruct (GU _ _ Er) as (LA2 & _). lia.
           ++ change (A2 ++ y :: B2 ++ x :: C2) with (A2 ++ (y :: B2) ++ x :: C2) in Er. rewrite app_assoc in Er. destruct (GU _ _ Er) as (LA2 & _). rewrite app_length in LA2. cbn [length] in LA2. lia.
        -- change (A ++ y :: B ++ x :: C) with (A ++ (y :: B) ++ x :: C) in Ez. rewrite app_assoc in Ez. destruct (UQ _ _ Ez) as (LA & _ & EU). rewrite app_length in LA. cbn [length] in LA.
           destruct Gr as [(A2 & B2 & Er & HA2)|(Od2 & A2 & B2 & C2 & Er & HA2)].
           ++ destruct (GU _ _ Er) as (LA2 & _). lia.
           ++ change (A2 ++ y :: B2 ++ x :: C2) with (A2 ++ (y :: B2) ++ x :: C2) in Er. rewrite app_assoc in Er. destruct (GU _ _ Er) as (_ & EV).
              assert (YU : In y U) by (rewrite <- EU; apply in_or_app; right; left; reflexivity). assert (YV : In y V) by (apply in_rev; rewrite <- EV; apply in_or_app; right; left; reflexivity).
              apply NoDup_remove_1 in NZ. clear -NZ YU YV. induction U as [|u U IH]; [destruct YU|]. cbn [app] in NZ. inversion NZ; subst. destruct YU as [->|YU]; auto. apply H1. apply in_or_app. right. exact YV.
    + rewrite map_map, (map_ext_in _ (fun w => w)); [rewrite map_id; exact E1|]. intros w Hw. destruct (HB w Hw) as (z & -> & Pz & _). rewrite HC by exact Pz. reflexivity.
Qed.

Lemma reversible_template n k : k <= n -> exists Z, halves (seq 0 k) Z /\
  forall T A (a : A) (g : T -> list A -> outcome (bool * T)) st w, length w = n ->
  matches (reversible_permutation (bound_range g 0 k) k 0 st w) (visit g (map (pick a w) Z) st) w.
Proof.
  intro Hk. destruct (reversible_halves [] (seq 0 k) (seq k (n - k)) k 0 (seq_NoDup _ _) ltac:(rewrite seq_length; reflexivity) eq_refl) as (Z & HZ & E). exists Z. split; [exact HZ|].
  intros T A a g st w Lw. cbn [app] in E. rewrite <- seq_split in E by exact Hk.
  pose proof (template (fun T A f => reversible_permutation f k 0) k n _ (fun T X Y h f fy H => reversible_natural h f fy k 0 H) E T A a g st w Lw) as M.
  rewrite cut_map in M; [exact M|]. intros z Hz. apply (proj1 (proj2 HZ)) in Hz. apply Permutation_length in Hz. rewrite seq_length in Hz. exact Hz.
Qed.

(** C98: of every arrangement of [k] elements and its reversal exactly one is
    met, and it is met once. *)
Theorem C98_for_each : forall (T A : Type) (a : A) (g : T -> list A -> outcome (bool * T)) k st v, k <= length v ->
  exists P, NoDup P /\ (forall p, In p P -> arrangement (length v) k p) /\
    (forall p, arrangement (length v) k p -> In p P \/ In (rev p) P) /\
    (forall p, In p P -> In (rev p) P -> p = rev p) /\
    matches (for_each_reversible_permutation g k st v) (visit g (map (map (fun i => nth i v a)) P) st) v.
Proof.
  intros T A a g k st v Hk. set (n := length v) in *. destruct (reversible_template n k Hk) as (Z & (Z1 & Z2 & Z3 & Z4) & HM).
  assert (RP : forall c z, rev (pick 0 c z) = pick 0 c (rev z)) by (intros; unfold pick; rewrite map_rev; reflexivity).
  exists (spread n k Z). refine (conj _ (conj _ (conj _ (conj _ _)))).
  - apply spread_NoDup; auto.
  - intros p H. apply spread_arr in H; auto. destruct H as (c & z & Hc & Hz & ->). apply pick_arr; auto.
  - intros p H. apply arr_pick in H. destruct H as (c & z & Hc & Hz & ->). rewrite RP. rewrite !spread_In by (auto; rewrite <- Permutation_rev; auto). apply Z3, Hz.
  - intros p H1 H2. apply spread_arr in H1; auto. destruct H1 as (c & z & Hc & Hz & ->). rewrite RP in H2. rewrite RP. apply spread_In in H2; auto; [|rewrite <- Permutation_rev; auto].
    rewrite <- (Z4 z Hz H2). reflexivity.
  - unfold for_each_reversible_permutation. destruct (Nat.ltb_spec (length v) k); [unfold n in Hk; lia|]. fold n. apply combine_template; auto.
    intros z i Hz Hi. exact (perm_bound k z i (Z2 z Hz) Hi).
Qed.

Example C98_example :
  for_each_reversible_permutation (fun st l => Ok (false, st ++ [l])) 3 [] [7; 5; 9] =
  Ok (false, [[7; 5; 9]; [7; 9; 5]; [5; 7; 9]], [7; 5; 9]) /\
  for_each_reversible_permutation (fun n l => Ok (false, n + 1)) 5 0 [7; 5; 9; 1; 2] = Ok (false, 60, [7; 5; 9; 1; 2]).
Proof. split; vm_compute; reflexivity. Qed.

(** ** circular permutations up to reversal *)
Lemma reversible_circular_template n k : k <= n -> 0 < n -> exists Z, NoDup Z /\ (forall z, In z Z -> Permutation z (seq 0 k)) /\
  (k = 0 -> Z = [[]]) /\ (0 < k -> exists Y, halves (seq 1 (k - 1)) Y /\ Z = map (cons 0) Y) /\
  forall T A (a : A) (g : T -> list A -> outcome (bool * T)) st w, length w = n ->
  matches (reverse_circular_permutation g k st w) (visit g (map (pick a w) Z) st) w.
Proof.
  intros Hk Hn. set (proc := fun (T A : Type) (f : T -> list A -> outcome (bool * T * list A)) (st : T) (v : list A) =>
    if k =? 1 then f st v else if k =? 0 then match v with [] => UB | _ => f st v end else reversible_permutation f (k - 1) 1 st v).
  assert (PN : forall T X Y (h : X -> Y) f fy, natural h f fy -> natural h (proc T X f) (proc T Y fy)).
  { intros T X Y h f fy H st v. unfold proc. destruct (k =? 1); [apply H|]. destruct (k =? 0); [|apply reversible_natural, H]. destruct v; [reflexivity|]. apply (H st (x :: v)). }
  assert (G : exists Z L, NoDup Z /\ (forall z, In z Z -> Permutation z (seq 0 k)) /\ (k = 0 -> Z = [[]]) /\ (0 < k -> exists Y, halves (seq 1 (k - 1)) Y /\ Z = map (cons 0) Y) /\
    enumerates (fun T => proc T nat) (seq 0 n) L (seq 0 n) /\ map (firstn k) L = Z).
  { destruct k as [|m].
    - exists [[]], [seq 0 n]. refine (conj _ (conj _ (conj (fun _ => eq_refl) (conj _ (conj _ eq_refl))))); [repeat constructor; simpl; auto|intros z [<-|[]]; constructor|lia|].
      intros T f g Hg st. unfold proc. cbn [Nat.eqb]. destruct n; [lia|]. cbn [seq]. rewrite visit_one. apply Hg. reflexivity.
    - destruct (reversible_halves [0] (seq 1 m) (seq (S m) (n - S m)) m 1 (seq_NoDup _ _) ltac:(rewrite seq_length; reflexivity) eq_refl) as (Y & HY & E).
      assert (ES : [0] ++ seq 1 m ++ seq (S m) (n - S m) = seq 0 n) by (rewrite (seq_split n (S m) Hk); reflexivity). rewrite ES in E.
      exists (map (cons 0) Y), (map (fun z => [0] ++ z ++ seq (S m) (n - S m)) Y). refine (conj _ (conj _ (conj _ (conj _ (conj _ _))))).
      + apply NoDup_map_inj; [apply HY|]. intros x y _ _ EE. injection EE as EE. exact EE.
      + intros z Hz. apply in_map_iff in Hz. destruct Hz as (y & <- & Hy). apply (proj1 (proj2 HY)) in Hy. cbn [seq]. apply perm_skip, Hy.
      + discriminate.
      + intros _. exists Y. cbn [Nat.sub]. rewrite Nat.sub_0_r. auto.
      + intros T f g Hg st. unfold proc. cbn [Nat.eqb Nat.sub]. rewrite Nat.sub_0_r. destruct (Nat.eqb_spec m 0) as [->|Hm]; [|apply E; exact Hg].
        specialize (E T f g Hg st). unfold reversible_permutation in E. cbn [Nat.ltb Nat.leb] in E. exact E.
      + rewrite map_map. apply map_ext_in. intros z Hz. change (0 :: firstn m (z ++ seq (S m) (n - S m)) = 0 :: z). f_equal. apply firstn_len. apply (proj1 (proj2 HY)) in Hz. apply Permutation_length in Hz. rewrite seq_length in Hz. lia. }
  destruct G as (Z & L & G1 & G2 & G3 & G4 & G5 & G6). exists Z. refine (conj G1 (conj G2 (conj G3 (conj G4 _)))). intros T A a g st w Lw. rewrite <- G6. exact (template proc k n L PN G5 T A a g st w Lw).
Qed.

Lemma rev_zero U V : rev (U ++ 0 :: V) = rev V ++ 0 :: rev U.
Proof. rewrite rev_app_distr. cbn [rev]. rewrite <- app_assoc. reflexivity. Qed.

Lemma necklace_halves k Y z : 0 < k -> halves (seq 1 (k - 1)) Y -> Permutation z (seq 0 k) ->
  exists y, In y (map (cons 0) Y) /\ necklace z y /\ forall y', In y' (map (cons 0) Y) -> necklace z y' -> y' = y.
Proof.
  intros Hk (Y1 & Y2 & Y3 & Y4) P. destruct (zero_split k z Hk P) as (U & V & -> & HU & P2 & N).
  assert (HV : ~ In 0 (rev V)) by (rewrite <- in_rev; intro H; apply N; apply in_or_app; left; exact H).
  assert (NY : forall y, In y Y -> ~ In 0 y) by (intros y Hy H; eapply Permutation_in in H; [|exact (Y2 y Hy)]; apply in_seq in H; lia).
  assert (UQ : forall y, In y Y -> necklace (U ++ 0 :: V) (0 :: y) -> y = V ++ U \/ y = rev (V ++ U)).
  { intros y Hy [R|R]; [left|right].
    - apply (rotation_zero U V (0 :: y) y); auto.
    - rewrite rev_zero in R. rewrite rev_app_distr. apply (rotation_zero (rev V) (rev U) (0 :: y) y); auto. }
  assert (N1 : necklace (U ++ 0 :: V) (0 :: V ++ U)) by (left; exists U, (0 :: V); auto).
  assert (N2 : necklace (U ++ 0 :: V) (0 :: rev (V ++ U))) by (right; exists (rev V), (0 :: rev U); rewrite rev_zero, rev_app_distr; auto).
  destruct (Y3 _ P2) as [H|H].
  - exists (0 :: V ++ U). refine (conj (in_map _ _ _ H) (conj N1 _)). intros y' Hy' R. apply in_map_iff in Hy'. destruct Hy' as (y & <- & Hy). f_equal. destruct (UQ y Hy R) as [->| ->]; auto. symmetry. apply Y4; auto.
  - exists (0 :: rev (V ++ U)). refine (conj (in_map _ _ _ H) (conj N2 _)). intros y' Hy' R. apply in_map_iff in Hy'. destruct Hy' as (y & <- & Hy). f_equal. destruct (UQ y Hy R) as [->| ->]; auto.
Qed.

(** C99: every arrangement of [k] elements on a circle is met exactly once, up
    to its starting position and its direction. *)
Theorem C99_for_each : forall (T A : Type) (a : A) (g : T -> list A -> outcome (bool * T)) k st v, k <= length v -> v <> [] ->
  exists P, NoDup P /\ (forall p, In p P -> arrangement (length v) k p) /\
    (forall p, arrangement (length v) k p -> exists q, In q P /\ necklace p q /\ forall q', In q' P -> necklace p q' -> q' = q) /\
    matches (for_each_reversible_circular_permutation g k st v) (visit g (map (map (fun i => nth i v a)) P) st) v.
Proof.
  intros T A a g k st v Hk Hv. set (n := length v) in *. assert (Hn : 0 < n) by (unfold n; destruct v; [easy|cbn [length]; lia]).
  destruct (reversible_circular_template n k Hk Hn) as (Z & Z1 & Z2 & Z3 & Z4 & HM).
  exists (spread n k Z). refine (conj _ (conj _ (conj _ _))).
  - apply spread_NoDup; auto.
  - intros p H. apply spread_arr in H; auto. destruct H as (c & z & Hc & Hz & ->). apply pick_arr; auto.
  - intros p H. apply arr_pick in H. destruct H as (c & z & Hc & Hz & ->).
    assert (G : exists y, In y Z /\ necklace z y /\ forall y', In y' Z -> necklace z y' -> y' = y).
    { destruct (Nat.eq_dec k 0) as [E0|N0].
      - rewrite (Z3 E0). subst k. apply Permutation_sym, Permutation_nil in Hz. subst z. exists []. refine (conj (or_introl eq_refl) (conj _ _)); [left; exists [], []; auto|]. intros y' [<-|[]] _. reflexivity.
      - destruct (Z4 ltac:(lia)) as (Y & HY & ->). apply (necklace_halves k); auto. lia. }
    destruct G as (y & Hy & R & U). exists (pick 0 c y). refine (conj _ (conj _ _)).
    + apply spread_In; auto.
    + destruct R as [R|R]; [left; apply pick_rotation, R|right]. replace (rev (pick 0 c z)) with (pick 0 c (rev z)) by (unfold pick; rewrite map_rev; reflexivity). apply pick_rotation, R.
    + intros q' Hq' R'.
      assert (R2 : exists z', q' = pick 0 c z' /\ necklace z z').
      { destruct R' as [R'|R']; [destruct (rotation_pick R') as (z' & E & R2); exists z'; split; [exact E|left; exact R2]|].
        replace (rev (pick 0 c z)) with (pick 0 c (rev z)) in R' by (unfold pick; rewrite map_rev; reflexivity). destruct (rotation_pick R') as (z' & E & R2); exists z'; split; [exact E|right; exact R2]. }
      destruct R2 as (z' & -> & R2). f_equal. apply U; auto.
      assert (Pz : Permutation z' (seq 0 k)) by (transitivity z; [|exact Hz]; destruct R2 as [R2|R2]; apply rotation_perm in R2; rewrite <- R2; [reflexivity|symmetry; apply Permutation_rev]).
      exact (proj1 (spread_In n k _ c z' Z2 Hc Pz) Hq').
  - unfold for_each_reversible_circular_permutation. destruct (Nat.ltb_spec (length v) k); [unfold n in Hk; lia|]. fold n. apply combine_template; auto.
    intros z i Hz Hi. exact (perm_bound k z i (Z2 z Hz) Hi).
Qed.

Example C99_example :
  for_each_reversible_circular_permutation (fun st l => Ok (false, st ++ [l])) 4 [] [7; 5; 9; 2] =
  Ok (false, [[7; 5; 9; 2]; [7; 5; 2; 9]; [7; 9; 5; 2]], [7; 5; 9; 2]).
Proof. vm_compute; reflexivity. Qed.

(** no element of an empty vector: the first position after the start of an
    empty vector is formed, while the other algorithms make one call *)
Theorem C99_empty_refuted : forall (T A : Type) (g : T -> list A -> outcome (bool * T)) st,
  for_each_reversible_circular_permutation g 0 st [] = UB /\
  matches (for_each_reversible_permutation g 0 st []) (g st []) [].
Proof.
  intros T A g st. split; [reflexivity|]. cbv -[matches]. destruct (g st []) as [[[|] s]| | |]; cbn [matches]; [eexists|..]; reflexivity.
Qed.
