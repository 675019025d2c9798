(** * Facts about [next_combination] *)
From Coq Require Import List Arith Bool ZArith Lia Permutation Sorted.
From Verif Require Import Base BaseFacts Simplex SimplexFacts SpecComplex Matrix PairingFacts DualFacts Complex ComplexFacts MaximalCliques TopDown.
Import ListNotations.

Lemma rotate_split {A} (x y z w : list A) a b c : a = length x -> b = a + length y -> c = b + length z ->
  rotate a b c (x ++ y ++ z ++ w) = x ++ z ++ y ++ w.
Proof.
  intros -> -> ->. unfold rotate.
  assert (E1 : firstn (length x) (x ++ y ++ z ++ w) = x) by (rewrite firstn_app, Nat.sub_diag, firstn_all; simpl; apply app_nil_r).
  assert (E2 : firstn (length x + length y + length z) (x ++ y ++ z ++ w) = x ++ y ++ z).
  { replace (x ++ y ++ z ++ w) with ((x ++ y ++ z) ++ w) by (rewrite <- !app_assoc; auto).
    replace (length x + length y + length z) with (length (x ++ y ++ z)) by (rewrite !app_length; lia).
    rewrite firstn_app, Nat.sub_diag, firstn_all. simpl. apply app_nil_r. }
  assert (E3 : firstn (length x + length y) (x ++ y ++ z ++ w) = x ++ y).
  { replace (x ++ y ++ z ++ w) with ((x ++ y) ++ z ++ w) by (rewrite <- !app_assoc; auto).
    replace (length x + length y) with (length (x ++ y)) by (rewrite app_length; lia).
    rewrite firstn_app, Nat.sub_diag, firstn_all. simpl. apply app_nil_r. }
  assert (E4 : forall (u v : list A), skipn (length u) (u ++ v) = v) by (intros u v; rewrite skipn_app, Nat.sub_diag, skipn_all; auto).
  rewrite E1, E2, E3, E4. replace (length x + length y) with (length (x ++ y)) by (rewrite app_length; lia).
  rewrite (app_assoc x y z), E4. replace (x ++ y ++ z ++ w) with ((x ++ y ++ z) ++ w) by (rewrite <- !app_assoc; auto).
  replace (length (x ++ y) + length z) with (length (x ++ y ++ z)) by (rewrite !app_length; lia). rewrite E4. reflexivity.
Qed.

Lemma nc_search_found P a Q R last : a < last -> (forall q, In q Q -> last <= q) ->
  nc_search (P ++ a :: Q ++ R) (length P + S (length Q)) last = Some (length P).
Proof.
  intros Ha HQ. revert R. induction Q as [|q Q IH] using rev_ind; intro R.
  - simpl app. rewrite Nat.add_1_r. cbn [nc_search]. rewrite app_nth2, Nat.sub_diag by lia. simpl. destruct (Nat.ltb_spec a last); [auto|lia].
  - replace (length P + S (length (Q ++ [q]))) with (S (length P + S (length Q))) by (rewrite app_length; simpl; lia). cbn [nc_search].
    rewrite app_nth2 by lia. replace (length P + S (length Q) - length P) with (S (length Q)) by lia. cbn [nth].
    rewrite <- app_assoc. rewrite app_nth2, Nat.sub_diag by lia. cbn [app nth].
    destruct (Nat.ltb_spec q last) as [Hq|_]; [specialize (HQ q ltac:(apply in_or_app; simpl; auto)); lia|].
    apply IH. intros; apply HQ, in_or_app; auto.
Qed.

Lemma nc_search_none A R last : (forall a, In a A -> last <= a) -> nc_search (A ++ R) (length A) last = None.
Proof.
  revert R. induction A as [|a A IH] using rev_ind; intros R H; auto. rewrite app_length, Nat.add_1_r. cbn [nc_search].
  rewrite <- app_assoc, app_nth2, Nat.sub_diag by lia. cbn [app nth].
  destruct (Nat.ltb_spec a last) as [Hq|_]; [specialize (H a ltac:(apply in_or_app; simpl; auto)); lia|].
  apply IH. intros; apply H, in_or_app; auto.
Qed.

Lemma position_app {A} (p : A -> bool) l x r : (forall y, In y l -> p y = false) -> p x = true -> position p (l ++ x :: r) = Some (length l).
Proof.
  induction l as [|y l IH]; intros H Hx; simpl; [rewrite Hx; auto|]. rewrite (H y) by (simpl; auto). rewrite IH; auto. intros; apply H; simpl; auto.
Qed.

Definition lst (l : list nat) : nat := last l 0.

Lemma lst_app l m : m <> [] -> lst (l ++ m) = lst m.
Proof.
  intro H. unfold lst. induction l as [|x l IH]; simpl; auto. destruct (l ++ m) eqn:E; auto. apply app_eq_nil in E. destruct E; easy.
Qed.

(** one step *)
Inductive next_state : list nat * list nat -> list nat * list nat -> Prop :=
| next_intro P a Q B1 b B2 : (forall q, In q Q -> lst (B1 ++ b :: B2) <= q) -> a < lst (B1 ++ b :: B2) ->
    (forall c, In c B1 -> c <= a) -> a < b ->
    next_state (P ++ a :: Q, B1 ++ b :: B2)
      (P ++ b :: firstn (length Q) (B2 ++ Q), (B1 ++ [a]) ++ skipn (length Q) (B2 ++ Q)).
Definition stuck (st : list nat * list nat) : Prop :=
  fst st = [] \/ snd st = [] \/ forall a, In a (fst st) -> lst (snd st) <= a.

Lemma nth_last_lst A B : B <> [] -> nth (length (A ++ B) - 1) (A ++ B) 0 = lst B.
Proof.
  intro H. rewrite <- (lst_app A B H). unfold lst. generalize (A ++ B) as l. induction l as [|x l IH]; simpl; auto.
  destruct l as [|y l]; auto. simpl length in *. rewrite Nat.sub_0_r in *. simpl in IH. rewrite Nat.sub_0_r in IH. exact IH.
Qed.

Lemma upd_app {A} (l : list A) x r y : upd (l ++ x :: r) (length l) y = l ++ y :: r.
Proof. induction l; simpl; congruence. Qed.

Lemma next_step A B A' B' : next_state (A, B) (A', B') ->
  next_combination (length A) (A ++ B) = Ok (true, A' ++ B') /\ length A' = length A /\ length B' = length B.
Proof.
  intro H. inversion H as [P a Q B1 b B2 HQ Ha HB Hb EA EB]. subst. clear H.
  assert (Hlen : length (P ++ b :: firstn (length Q) (B2 ++ Q)) = length (P ++ a :: Q)).
  { rewrite !app_length. cbn [length]. rewrite firstn_length, app_length. lia. }
  split; [|split; [exact Hlen|]].
  2:{ rewrite !app_length, skipn_length, app_length. cbn [length]. lia. }
  set (B := B1 ++ b :: B2) in *. assert (HBne : B <> []) by (unfold B; destruct B1; discriminate).
  assert (Hl : length (A:=nat) ((P ++ a :: Q) ++ B) = length P + S (length Q) + length B) by (rewrite !app_length; cbn [length]; lia).
  assert (HlB : length B = length B1 + S (length B2)) by (unfold B; rewrite app_length; auto).
  assert (HlA : length (P ++ a :: Q) = length P + S (length Q)) by (rewrite app_length; auto).
  unfold next_combination. rewrite nth_last_lst by auto. rewrite Hl, HlA.
  destruct (Nat.ltb_spec (length P + S (length Q) + length B) (length P + S (length Q))); [lia|].
  destruct (Nat.eqb_spec (length P + S (length Q) + length B) 0); [lia|].
  destruct (Nat.eqb_spec (length P + S (length Q)) 0); [lia|].
  destruct (Nat.eqb_spec (length P + S (length Q) + length B) (length P + S (length Q))); [lia|].
  destruct (Nat.eqb_spec (length P + S (length Q) + length B) 1); [lia|]. cbn [orb].
  rewrite <- (app_assoc P). change ((a :: Q) ++ B) with (a :: Q ++ B). rewrite nc_search_found by auto.
  assert (En : nth (length P) (P ++ a :: Q ++ B) 0 = a) by (rewrite app_nth2, Nat.sub_diag by lia; reflexivity).
  rewrite En.
  assert (Es : skipn (length P + S (length Q)) (P ++ a :: Q ++ B) = B).
  { replace (P ++ a :: Q ++ B) with ((P ++ a :: Q) ++ B) by (rewrite <- app_assoc; auto).
    rewrite <- HlA. rewrite skipn_app, Nat.sub_diag, skipn_all. reflexivity. }
  rewrite Es. unfold B at 1. rewrite position_app; [|intros y Hy; apply Nat.ltb_ge, HB; auto|apply Nat.ltb_lt; auto]. cbv zeta.
  set (j := length P + S (length Q) + length B1).
  assert (Ej : nth j (P ++ a :: Q ++ B) 0 = b).
  { replace (P ++ a :: Q ++ B) with ((P ++ a :: Q ++ B1) ++ b :: B2) by (unfold B; cbn [app]; rewrite <- !app_assoc; cbn [app]; rewrite <- app_assoc; auto).
    assert (length (P ++ a :: Q ++ B1) = j) by (unfold j; rewrite app_length; cbn [length]; rewrite app_length; lia).
    rewrite app_nth2 by lia. rewrite H0, Nat.sub_diag. reflexivity. }
  rewrite Ej, upd_app.
  assert (Eu : upd (P ++ b :: Q ++ B) j a = P ++ b :: Q ++ B1 ++ a :: B2).
  { replace (P ++ b :: Q ++ B) with ((P ++ b :: Q ++ B1) ++ b :: B2) by (unfold B; cbn [app]; rewrite <- !app_assoc; cbn [app]; rewrite <- app_assoc; auto).
    assert (Hj : length (P ++ b :: Q ++ B1) = j) by (unfold j; rewrite app_length; cbn [length]; rewrite app_length; lia).
    rewrite <- Hj, upd_app. rewrite <- !app_assoc. cbn [app]. rewrite <- !app_assoc. reflexivity. }
  rewrite Eu.
  assert (R1 : rotate (length P + 1) (j + 1) (length P + S (length Q) + length B) (P ++ b :: Q ++ B1 ++ a :: B2) =
               (P ++ [b]) ++ B2 ++ (Q ++ B1 ++ [a]) ++ []).
  { replace (P ++ b :: Q ++ B1 ++ a :: B2) with ((P ++ [b]) ++ (Q ++ B1 ++ [a]) ++ B2 ++ []).
    - apply rotate_split; rewrite ?app_length; cbn [length]; unfold j; lia.
    - rewrite app_nil_r. rewrite <- !app_assoc. cbn [app]. reflexivity. }
  rewrite R1. rewrite app_nil_r.
  set (q := length Q) in *.
  assert (R2 : rotate (length P + S q) (length P + S q + (length P + S q + length B - (j + 1))) (length P + S q + length B)
      ((P ++ [b]) ++ B2 ++ Q ++ B1 ++ [a]) =
      (P ++ b :: firstn q (B2 ++ Q)) ++ (B1 ++ [a]) ++ skipn q (B2 ++ Q) ++ []).
  { replace ((P ++ [b]) ++ B2 ++ Q ++ B1 ++ [a]) with ((P ++ b :: firstn q (B2 ++ Q)) ++ skipn q (B2 ++ Q) ++ (B1 ++ [a]) ++ []).
    - apply rotate_split; rewrite ?app_length; cbn [length]; rewrite ?firstn_length, ?skipn_length, ?app_length; fold q; unfold j; lia.
    - rewrite app_nil_r. rewrite <- (app_assoc P). cbn [app]. rewrite (app_assoc (firstn q (B2 ++ Q))), firstn_skipn. rewrite <- !app_assoc. reflexivity. }
  rewrite R2, app_nil_r. reflexivity.
Qed.

Lemma next_stuck A B : stuck (A, B) -> next_combination (length A) (A ++ B) = Ok (false, B ++ A).
Proof.
  intro H. unfold next_combination. rewrite app_length.
  destruct (Nat.ltb_spec (length A + length B) (length A)); [lia|].
  destruct (Nat.eqb_spec (length A + length B) 0) as [E|]; [destruct A, B; simpl in E; try lia; reflexivity|].
  destruct (Nat.eqb_spec (length A) 0) as [E|EA]; [destruct A; [simpl; rewrite app_nil_r; reflexivity|simpl in E; lia]|].
  destruct (Nat.eqb_spec (length A + length B) (length A)) as [E|EB]; [destruct B; [rewrite app_nil_r; reflexivity|simpl in E; lia]|]. cbn [orb].
  destruct (Nat.eqb_spec (length A + length B) 1); [lia|].
  assert (HB : B <> []) by (intros ->; simpl in EB; lia).
  rewrite <- (app_length A B), nth_last_lst by auto. destruct H as [H|[H|H]]; cbn [fst snd] in H; [subst A; simpl in EA; lia|contradiction|].
  rewrite nc_search_none by auto. f_equal. f_equal.
  replace (A ++ B) with ([] ++ A ++ B ++ []) at 2 by (cbn [app]; rewrite app_nil_r; reflexivity).
  rewrite rotate_split; [cbn [app]; rewrite app_nil_r; reflexivity|reflexivity|reflexivity|rewrite app_length; simpl; lia].
Qed.

(** ** all steps *)
Inductive run : list nat * list nat -> list (list nat) -> list nat * list nat -> Prop :=
| run_last st : stuck st -> run st [fst st] st
| run_step st st' l fin : next_state st st' -> run st' l fin -> run st (fst st :: l) fin.

Fixpoint combs {A} (k : nat) (l : list A) : list (list A) :=
  match k, l with
  | 0, _ => [[]]
  | S _, [] => []
  | S k', x :: r => map (cons x) (combs k' r) ++ combs k r
  end.

Lemma next_members A B A' B' x : next_state (A, B) (A', B') -> (In x A' \/ In x B' <-> In x A \/ In x B).
Proof.
  intro H. inversion H as [P a Q B1 b B2 HQ Ha HB Hb EA EB]. subst.
  assert (E : In x (firstn (length Q) (B2 ++ Q)) \/ In x (skipn (length Q) (B2 ++ Q)) <-> In x B2 \/ In x Q).
  { rewrite <- !in_app_iff, firstn_skipn. tauto. }
  rewrite !in_app_iff. cbn [In]. tauto.
Qed.

Lemma run_cons_A x st l fin : run st l fin -> forall B L F, next_state (x :: fst fin, snd fin) B -> run B L F ->
  run (x :: fst st, snd st) (map (cons x) l ++ L) F.
Proof.
  induction 1 as [st Hs|[A0 B0] [A1 B1'] l fin Hn Hr IH]; intros B L F HB HL.
  - cbn [map app fst]. apply (run_step (x :: fst st, snd st) B L F); auto.
  - cbn [map app fst snd]. apply (run_step (x :: A0, B0) (x :: A1, B1')).
    + inversion Hn as [P a Q C1 b C2 HQ Ha HB1 Hb]; subst. apply (next_intro (x :: P)); auto.
    + apply (IH B L F); auto.
Qed.

Lemma run_cons_last x st l fin : run st l fin -> snd fin = [] -> run (x :: fst st, snd st) (map (cons x) l) (x :: fst fin, []).
Proof.
  induction 1 as [st Hs|[A0 B0] [A1 B1'] l fin Hn Hr IH]; intro E.
  - cbn [map]. rewrite E. apply (run_last (x :: fst st, [])). right. left. reflexivity.
  - cbn [map fst snd]. apply (run_step (x :: A0, B0) (x :: A1, B1')); auto.
    inversion Hn as [P a Q C1 b C2 HQ Ha HB1 Hb]; subst. apply (next_intro (x :: P)); auto.
Qed.

Lemma run_cons_B x st l fin : run st l fin -> (forall y, In y (fst st) \/ In y (snd st) -> x < y) ->
  run (fst st, x :: snd st) l (fst fin, x :: snd fin).
Proof.
  induction 1 as [st Hs|[A0 B0] [A1 B1'] l fin Hn Hr IH]; intro Hx.
  - apply (run_last (fst st, x :: snd st)). destruct Hs as [H|[H|H]].
    + left. auto.
    + right. right. cbn [fst snd]. rewrite H. intros a Ha. specialize (Hx a (or_introl Ha)). unfold lst. simpl. lia.
    + destruct (snd st) as [|y B] eqn:E.
      * right. right. cbn [fst snd]. intros a Ha. specialize (Hx a (or_introl Ha)). unfold lst. simpl. lia.
      * right. right. cbn [fst snd]. change (x :: y :: B) with ([x] ++ y :: B). rewrite lst_app by discriminate. auto.
  - cbn [fst snd] in *. apply (run_step (A0, x :: B0) (A1, x :: B1')).
    + inversion Hn as [P a Q C1 b C2 HQ Ha HB1 Hb]; subst.
      assert (El : lst ((x :: C1) ++ b :: C2) = lst (C1 ++ b :: C2)).
      { change ((x :: C1) ++ b :: C2) with ([x] ++ C1 ++ b :: C2). apply lst_app. destruct C1; discriminate. }
      change (x :: C1 ++ b :: C2) with ((x :: C1) ++ b :: C2).
      change (x :: (C1 ++ [a]) ++ skipn (length Q) (C2 ++ Q)) with (((x :: C1) ++ [a]) ++ skipn (length Q) (C2 ++ Q)).
      apply (next_intro P a Q (x :: C1) b C2); rewrite ?El; auto. intros c [<-|Hc]; auto.
      assert (x < a) by (apply Hx; left; apply in_or_app; simpl; auto). lia.
    + apply IH. intros y Hy. apply Hx. apply (next_members _ _ _ _ y Hn). auto.
Qed.

Lemma run_lengths st l fin : run st l fin -> length (fst fin) = length (fst st).
Proof.
  induction 1 as [st Hs|[A0 B0] [A1 B1'] l fin Hn Hr IH]; auto. rewrite IH. destruct (next_step _ _ _ _ Hn) as (_ & E & _). auto.
Qed.

Lemma run_stuck st l fin : run st l fin -> stuck fin.
Proof. induction 1; auto. Qed.

Lemma combs_large {A} k (l : list A) : length l < k -> combs k l = [].
Proof.
  revert k. induction l as [|x l IH]; intros [|k] H; simpl in *; try lia; auto. rewrite !IH by lia. auto.
Qed.

Lemma run_all l : StronglySorted lt l -> forall k, k <= length l ->
  exists A B, run (firstn k l, skipn k l) (combs k l) (A, B) /\ B ++ A = l.
Proof.
  induction 1 as [|x l HS IH HF]; intros k Hk.
  - simpl in Hk. replace k with 0 by lia. exists [], []. split; auto. apply (run_last ([], [])). left. auto.
  - rewrite Forall_forall in HF. destruct k as [|k].
    + exists [], (x :: l). split; [|apply app_nil_r]. apply (run_last ([], x :: l)). left. auto.
    + simpl in Hk. cbn [firstn skipn combs]. destruct (IH k ltac:(lia)) as (A & B & HR & E).
      destruct (list_eq_dec Nat.eq_dec B []) as [->|HB].
      * exists (x :: A), []. simpl in E. subst A. split; auto. pose proof (run_lengths _ _ _ HR) as HL. cbn [fst] in HL.
        rewrite firstn_length in HL. rewrite (combs_large (S k) l) by lia. rewrite app_nil_r.
        apply (run_cons_last x _ _ _ HR). reflexivity.
      * pose proof (run_lengths _ _ _ HR) as HL. cbn [fst] in HL. rewrite firstn_length in HL.
        assert (HlB : length B + length A = length l) by (rewrite <- E, app_length; lia).
        destruct B as [|b B2]; [easy|]. cbn [length] in HlB.
        destruct (IH (S k) ltac:(lia)) as (A' & B' & HR' & E'). exists A', (x :: B'). split; [|simpl; rewrite E'; auto].
        apply (run_cons_A x _ _ _ HR (firstn (S k) l, x :: skipn (S k) l)).
        -- cbn [fst snd].
           assert (E1 : firstn (S k) l = b :: firstn (length A) (B2 ++ A)) by (rewrite <- E; cbn [app firstn]; f_equal; f_equal; lia).
           assert (E2 : skipn (S k) l = skipn (length A) (B2 ++ A)) by (rewrite <- E; cbn [app skipn]; f_equal; lia).
           rewrite E1, E2. change (x :: A, b :: B2) with ([] ++ x :: A, [] ++ b :: B2).
           change (b :: firstn (length A) (B2 ++ A), x :: skipn (length A) (B2 ++ A)) with
             ([] ++ b :: firstn (length A) (B2 ++ A), ([] ++ [x]) ++ skipn (length A) (B2 ++ A)).
           assert (Hin : In (lst (b :: B2)) l).
           { rewrite <- E. apply in_or_app. left. unfold lst. clear. revert b. induction B2 as [|c B2 IH]; intro b; [simpl; auto|]. right. apply IH. }
           apply next_intro.
           ++ pose proof (run_stuck _ _ _ HR) as [Hs|[Hs|Hs]]; cbn [fst snd] in Hs; [rewrite Hs; intros q []|discriminate|exact Hs].
           ++ apply HF, Hin.
           ++ intros c [].
           ++ apply HF. rewrite <- E. simpl. auto.
        -- apply (run_cons_B x _ _ _ HR'). cbn [fst snd]. intros y Hy. apply HF. rewrite <- (firstn_skipn (S k) l). apply in_or_app. auto.
Qed.

Lemma run_loop fuel k st l fin acc : run st l fin -> length (fst st) = k -> length l <= fuel ->
  combinations_loop fuel k (fst st ++ snd st) acc = Ok (acc ++ l, snd fin ++ fst fin).
Proof.
  intro H. revert fuel acc. induction H as [[A B] Hs|[A0 B0] [A1 B1'] l fin Hn Hr IH]; intros fuel acc Hk Hf.
  - simpl in Hf. destruct fuel as [|fuel]; [lia|]. cbn [combinations_loop fst snd] in *.
    rewrite firstn_app, Hk, Nat.sub_diag, <- Hk, firstn_all. cbn [firstn]. rewrite app_nil_r. rewrite next_stuck by auto. reflexivity.
  - simpl in Hf. destruct fuel as [|fuel]; [lia|]. cbn [combinations_loop fst snd] in *.
    destruct (next_step _ _ _ _ Hn) as (E1 & E2 & _).
    assert (Ef : firstn k (A0 ++ B0) = A0) by (rewrite firstn_app, Hk, Nat.sub_diag, <- Hk, firstn_all; cbn [firstn]; apply app_nil_r).
    rewrite Ef. rewrite <- Hk at 1. rewrite E1. cbn [bind fst snd]. rewrite IH by (try congruence; lia). rewrite <- app_assoc. reflexivity.
Qed.

Lemma combs_length {A} k (l : list A) : length (combs k l) <= 2 ^ length l.
Proof.
  revert k. induction l as [|x l IH]; intros [|k]; simpl; try lia.
  - pose proof (Nat.pow_nonzero 2 (length l)). lia.
  - rewrite app_length, map_length. pose proof (IH k). pose proof (IH (S k)). lia.
Qed.

Lemma combs_In l : StronglySorted lt l -> forall k vs, In vs (combs k l) <-> StronglySorted lt vs /\ length vs = k /\ subset vs l.
Proof.
  induction 1 as [|x l HS IH HF]; intros k vs.
  - destruct k as [|k]; simpl; split.
    + intros [<-|[]]. refine (conj (SSorted_nil _) (conj eq_refl (fun v F => F))).
    + intros (_ & L & _). destruct vs; [auto|simpl in L; lia].
    + easy.
    + intros (_ & L & Hs). destruct vs as [|v vs]; simpl in L; [lia|]. apply (Hs v). simpl. auto.
  - rewrite Forall_forall in HF. destruct k as [|k]; cbn [combs].
    + split.
      * intros [<-|[]]. refine (conj (SSorted_nil _) (conj eq_refl _)). intros v [].
      * intros (_ & L & _). destruct vs; [simpl; auto|simpl in L; lia].
    + rewrite in_app_iff, in_map_iff, IH. split.
      * intros [(ws & <- & Hw)|(S1 & L1 & H1)].
        -- apply IH in Hw. destruct Hw as (S1 & L1 & H1). refine (conj _ (conj _ _)).
           ++ apply SSorted_cons; auto. apply Forall_forall. intros v Hv. apply HF, H1; auto.
           ++ simpl. lia.
           ++ intros v [<-|Hv]; simpl; auto.
        -- refine (conj S1 (conj L1 _)). intros v Hv. right. apply H1; auto.
      * intros (S1 & L1 & H1). destruct vs as [|v vs]; [simpl in L1; lia|]. inversion S1 as [|? ? S2 F2]; subst. rewrite Forall_forall in F2.
        destruct (Nat.eq_dec v x) as [->|Hne].
        -- left. exists vs. split; auto. apply IH. refine (conj S2 (conj _ _)); [simpl in L1; lia|]. intros w Hw.
           destruct (H1 w ltac:(simpl; auto)) as [->|]; auto. specialize (F2 _ Hw). lia.
        -- right. refine (conj S1 (conj L1 _)). assert (Hv : In v l) by (destruct (H1 v ltac:(simpl; auto)); [congruence|auto]).
           intros w [<-|Hw]; auto. destruct (H1 w ltac:(simpl; auto)) as [->|]; auto. specialize (F2 _ Hw). specialize (HF _ Hv). lia.
Qed.

Lemma combs_NoDup {A} (l : list A) : NoDup l -> forall k, NoDup (combs k l).
Proof.
  induction 1 as [|x l Hx Hn IH]; intros [|k]; cbn [combs]; try (repeat constructor; easy).
  apply NoDup_app_intro; auto.
  - apply NoDup_map_inj_in; auto. intros a b _ _ E. injection E; auto.
  - intros vs H1 H2. apply in_map_iff in H1. destruct H1 as (ws & <- & _). apply Hx.
    clear - H2. revert H2. generalize (S k) as m. induction l as [|y l IH]; intros [|m] H; cbn [combs] in H.
    + destruct H as [H|[]]; discriminate.
    + destruct H.
    + destruct H as [H|[]]; discriminate.
    + apply in_app_or in H. destruct H as [H|H]; [|right; eapply IH; eauto].
      apply in_map_iff in H. destruct H as (us & E & _). injection E as -> _. simpl. auto.
Qed.

Lemma combinations_ok k l : StronglySorted lt l -> k <= length l -> combinations k l = Ok (combs k l, l).
Proof.
  intros Hl Hk. destruct (run_all l Hl k Hk) as (A & B & HR & E). unfold combinations.
  pose proof (run_loop (2 ^ length l) k _ _ _ [] HR) as H. cbn [fst snd] in H. rewrite firstn_skipn in H. rewrite H.
  - rewrite E. reflexivity.
  - rewrite firstn_length. lia.
  - apply combs_length.
Qed.
