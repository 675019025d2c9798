(** * Facts about the permutation algorithms. *)

From Coq Require Import List Arith Bool Lia Permutation.
From Verif Require Import Base BaseFacts TopDown CombinationFacts SpecCombine Combine CombineFacts Permute.
Import ListNotations.

Section Perms.
Context {Elt : Type}.

(** the ways to take one element out of [U ++ l] at a position of [l] *)
Fixpoint picks_after (U l : list Elt) : list (Elt * list Elt) :=
  match l with [] => [] | y :: W => (y, U ++ W) :: picks_after (U ++ [y]) W end.

(** the arrangements of [n] elements of [l], in lexicographic order of the positions *)
Fixpoint perms (n : nat) (l : list Elt) : list (list Elt) :=
  match n with
  | 0 => [[]]
  | S n => flat_map (fun p => map (cons (fst p)) (perms n (snd p))) (picks_after [] l)
  end.

Lemma picks_after_In l : forall U p, In p (picks_after U l) <-> exists V W, l = V ++ fst p :: W /\ snd p = U ++ V ++ W.
Proof.
  induction l as [|y l IH]; intros U p; cbn [picks_after].
  - split; [intros []|]. intros (V & W & E & _). destruct V; discriminate E.
  - cbn [In]. rewrite IH. split.
    + intros [<-|(V & W & -> & E)]; [exists [], l; auto|]. exists (y :: V), W. split; [reflexivity|]. rewrite E, <- app_assoc. reflexivity.
    + intros ([|z V] & W & E & E2).
      * left. injection E as -> ->. destruct p as [a b]. cbn [fst snd] in *. subst b. reflexivity.
      * right. injection E as <- ->. exists V, W. split; [reflexivity|]. rewrite E2, <- app_assoc. reflexivity.
Qed.

Lemma picks_perm l p : In p (picks_after [] l) -> Permutation (fst p :: snd p) l.
Proof. intro H. apply picks_after_In in H. destruct H as (V & W & -> & E). cbn [app] in E. rewrite E. apply Permutation_middle. Qed.

Lemma perms_In n : forall l x, length l = n -> In x (perms n l) <-> Permutation x l.
Proof.
  induction n as [|n IH]; intros l x L.
  - destruct l; [|discriminate L]. cbn [perms In]. split; [intros [<-|[]]; constructor|]. intro P. apply Permutation_sym, Permutation_nil in P. auto.
  - cbn [perms]. rewrite in_flat_map. split.
    + intros (p & Hp & Hx). apply in_map_iff in Hx. destruct Hx as (z & <- & Hz). pose proof (picks_perm l p Hp) as P.
      apply IH in Hz; [|apply Permutation_length in P; simpl in P; lia]. rewrite Hz. exact P.
    + intro P. destruct x as [|a x]; [apply Permutation_length in P; simpl in P; lia|].
      assert (Ha : In a l) by (eapply Permutation_in; [exact P|left; reflexivity]). apply in_split in Ha. destruct Ha as (V & W & ->).
      exists (a, V ++ W). split; [apply picks_after_In; exists V, W; auto|]. cbn [fst snd]. apply in_map. apply IH; [rewrite app_length in *; simpl in L; lia|].
      apply Permutation_cons_app_inv in P. exact P.
Qed.

Lemma picks_after_fst l : forall U, map fst (picks_after U l) = l.
Proof. induction l as [|y l IH]; intro U; cbn [picks_after map fst]; [reflexivity|]. f_equal. apply IH. Qed.

Lemma perms_NoDup n : forall l, length l = n -> NoDup l -> NoDup (perms n l).
Proof.
  induction n as [|n IH]; intros l L ND; cbn [perms]; [repeat constructor; intros []|].
  assert (G : forall ps : list (Elt * list Elt), NoDup (map fst ps) -> (forall p, In p ps -> NoDup (perms n (snd p))) ->
     NoDup (flat_map (fun p => map (cons (fst p)) (perms n (snd p))) ps)).
  { induction ps as [|p ps IHp]; intros N1 N2; cbn [flat_map]; [constructor|]. cbn [map] in N1. inversion N1; subst.
    assert (NA : forall (a b : list (list Elt)), NoDup a -> NoDup b -> (forall x, In x a -> ~ In x b) -> NoDup (a ++ b)).
    { induction a as [|u a IHa]; intros b Na Nb D; [exact Nb|]. inversion Na; subst. cbn [app]. constructor.
      - intro F. apply in_app_or in F. destruct F as [F|F]; [tauto|]. exact (D u (or_introl eq_refl) F).
      - apply IHa; auto. intros x Hx. apply D. right. exact Hx. }
    apply NA.
    - apply FinFun.Injective_map_NoDup; [intros u w E; injection E; auto|]. apply N2. left. reflexivity.
    - apply IHp; auto. intros q Hq. apply N2. right. exact Hq.
    - intros x Hx F. apply in_map_iff in Hx. destruct Hx as (z & <- & _). apply in_flat_map in F. destruct F as (q & Hq & Hz).
      apply in_map_iff in Hz. destruct Hz as (z' & E & _). injection E as E _. apply H1. rewrite <- E. apply in_map. exact Hq. }
  apply G; [rewrite picks_after_fst; exact ND|]. intros p Hp. pose proof (picks_perm l p Hp) as P. apply IH.
  - apply Permutation_length in P. simpl in P. lia.
  - apply Permutation_sym, Permutation_NoDup in P; auto. inversion P. assumption.
Qed.
End Perms.

Section Calls.
Context {T Elt : Type}.

Lemma until_matches (r : outcome (bool * T * list Elt)) (q : outcome (bool * T)) fin k q2 fin2 : matches r q fin -> (forall s, matches (k s fin) (q2 s) fin2) ->
  matches (until r k) (let* q := q in if fst q then Ok q else q2 (snd q)) fin2.
Proof. apply matches_bind. Qed.

Lemma until_last (r : outcome (bool * T * list Elt)) (q : outcome (bool * T)) fin k fin2 : matches r q fin -> (forall s, k s fin = Ok (false, s, fin2)) ->
  matches (until r k) q fin2.
Proof.
  unfold matches, until. intros H H2. destruct q as [[[|] s]|e| |]; [destruct H as [v ->]|rewrite H|rewrite H|rewrite H|rewrite H]; cbn [bind fst snd]; auto.
  exists v. reflexivity.
Qed.

Lemma visit_cons (g : T -> list Elt -> outcome (bool * T)) x l st : visit g (x :: l) st = let* q := g st x in if fst q then Ok q else visit g l (snd q).
Proof. reflexivity. Qed.

(** a call of the enumeration [L2] for every element of [L] *)
Lemma visit_nested (g : T -> list Elt -> outcome (bool * T)) (L2 : list Elt -> list (list Elt)) L : forall st,
  visit (fun st v => visit g (L2 v) st) L st = visit g (flat_map L2 L) st.
Proof.
  induction L as [|x L IH]; intro st; cbn [visit flat_map]; [reflexivity|]. rewrite visit_app.
  destruct (visit g (L2 x) st) as [[[|] s]|e| |]; cbn [bind fst snd]; auto.
Qed.

Lemma swapped_mid (P : list Elt) x Q y R i j (k : list Elt -> outcome (bool * T * list Elt)) : i = length P -> j = length P + 1 + length Q ->
  swapped i j (P ++ x :: Q ++ y :: R) k = k (P ++ y :: Q ++ x :: R).
Proof. intros Hi Hj. unfold swapped. rewrite swap_app by assumption. reflexivity. Qed.

Lemma reverse_mid (P X R : list Elt) a b : a = length P -> b = length P + length X -> std_reverse a b (P ++ X ++ R) = P ++ rev X ++ R.
Proof.
  intros -> ->. unfold std_reverse. rewrite firstn_len, skipn_len by reflexivity. rewrite firstn_len by lia.
  replace (skipn (length P + length X) (P ++ X ++ R)) with R; [reflexivity|]. symmetry. rewrite app_assoc. apply skipn_len. rewrite app_length. reflexivity.
Qed.

End Calls.

Section Enumerate.
Context {Elt : Type}.

(** the calls of [proc] for the vector [v]; its contents at the end are [fin] *)
Definition enumerates (proc : forall T : Type, (T -> list Elt -> outcome (bool * T * list Elt)) -> T -> list Elt -> outcome (bool * T * list Elt))
    (v : list Elt) (L : list (list Elt)) (fin : list Elt) : Prop :=
  forall (T : Type) f g, (forall st w, length w = length v -> matches (f st w) (g st w) w) -> forall st : T, matches (proc T f st v) (visit g L st) fin.

Lemma permute3_ok (P : list Elt) a b c R first1 : first1 = length P ->
  enumerates (fun T f => permute3 f first1) (P ++ a :: b :: c :: R)
    (map (fun x => P ++ x ++ R) [[a; b; c]; [a; c; b]; [b; a; c]; [b; c; a]; [c; a; b]; [c; b; a]]) (P ++ c :: b :: a :: R).
Proof.
  intros Hf T f g H st. unfold permute3. cbn [map app].
  assert (S23 : forall x y z k, swapped (S := T) (first1 + 1) (first1 + 2) (P ++ x :: y :: z :: R) k = k (P ++ x :: z :: y :: R)).
  { intros x y z k. pose proof (swapped_mid (P ++ [x]) y [] z R (first1 + 1) (first1 + 2) k) as E. rewrite <- !app_assoc in E. cbn [app] in E. apply E; rewrite app_length; simpl; lia. }
  assert (S13 : forall x y z k, swapped (S := T) first1 (first1 + 2) (P ++ x :: y :: z :: R) k = k (P ++ z :: y :: x :: R)).
  { intros x y z k. pose proof (swapped_mid P x [y] z R first1 (first1 + 2) k) as E. cbn [app] in E. apply E; simpl; lia. }
  assert (S12 : forall x y z k, swapped (S := T) first1 (first1 + 1) (P ++ x :: y :: z :: R) k = k (P ++ y :: x :: z :: R)).
  { intros x y z k. pose proof (swapped_mid P x [] y (z :: R) first1 (first1 + 1) k) as E. cbn [app] in E. apply E; simpl; lia. }
  assert (L : forall x y z, length (P ++ x :: y :: z :: R) = length (P ++ a :: b :: c :: R)) by (intros; rewrite !app_length; reflexivity).
  rewrite visit_cons. eapply until_matches; [apply H, L|]. intro s1. rewrite S23.
  rewrite visit_cons. eapply until_matches; [apply H, L|]. intro s2. rewrite S13, S23.
  rewrite visit_cons. eapply until_matches; [apply H, L|]. intro s3. rewrite S23.
  rewrite visit_cons. eapply until_matches; [apply H, L|]. intro s4. rewrite S12, S23.
  rewrite visit_cons. eapply until_matches; [apply H, L|]. intro s5. rewrite S23.
  rewrite visit_one. apply H, L.
Qed.

Lemma permute_loop_ok {T} sub (P R : list Elt) n first1 d1 : first1 = length P -> d1 = S n ->
  forall sz f g, sz = length P + S n + length R ->
  (forall st w, length w = sz -> matches (f st w) (g st w) w) ->
  (forall x X st, length X = n -> matches (sub st (P ++ x :: X ++ R)) (visit g (map (fun z => P ++ (x :: z) ++ R) (perms n X)) st) (P ++ x :: rev X ++ R)) ->
  forall y X st, length X = n ->
  matches (permute_loop (S := T) sub first1 d1 st (P ++ (y :: X) ++ R)) (visit g (map (fun z => P ++ z ++ R) (perms (S n) (y :: X))) st) (P ++ rev (y :: X) ++ R).
Proof.
  intros Hf Hd sz f g Hsz H Hsub y X st LX. subst first1 d1. unfold permute_loop.
  match goal with |- matches (?L _ _ _ _) _ _ => set (loop := L) end.
  replace (S n - 1) with n by lia.
  assert (G : forall W U y st, length U + length W = n ->
    matches (loop (length W) (length P + 1 + length U) st (P ++ (y :: U ++ W) ++ R))
      (visit g (map (fun z => P ++ z ++ R) (flat_map (fun p => map (cons (fst p)) (perms n (snd p))) (picks_after U (y :: W)))) st)
      (P ++ rev (U ++ y :: W) ++ R)).
  { clear y X LX st. intros W. induction W as [|w W IH]; intros U y st L.
    - cbn [length picks_after flat_map fst snd]. rewrite !app_nil_r, map_map.
      change (loop 0 (length P + 1 + length U) st (P ++ (y :: U) ++ R)) with (sub st (P ++ y :: U ++ R)).
      rewrite rev_app_distr. cbn [rev app]. apply Hsub. simpl in L. lia.
    - cbn [length].
      change (loop (S (length W)) (length P + 1 + length U) st (P ++ (y :: U ++ w :: W) ++ R)) with
        (until (sub st (P ++ y :: (U ++ w :: W) ++ R)) (fun st v =>
           let v := std_reverse (length P + 1) (length P + S n) v in
           swapped (length P) (length P + 1 + length U) v (fun v => loop (length W) (length P + 1 + length U + 1) st v))).
      cbn [picks_after flat_map fst snd]. rewrite map_app, visit_app, map_map.
      eapply until_matches; [apply Hsub; rewrite app_length; exact L|]. intro s. cbv zeta.
      pose proof (reverse_mid (P ++ [y]) (rev (U ++ w :: W)) R (length P + 1) (length P + S n)) as E.
      rewrite <- !app_assoc in E. cbn [app] in E. rewrite E, rev_involutive by (rewrite ?rev_length, ?app_length; simpl; simpl in L; lia). clear E.
      replace (P ++ y :: (U ++ w :: W) ++ R) with (P ++ y :: U ++ w :: W ++ R) by (rewrite <- app_assoc; reflexivity).
      rewrite swapped_mid by lia.
      specialize (IH (U ++ [y]) w s). rewrite app_length in IH. simpl in IH, L. specialize (IH ltac:(lia)).
      replace (length P + 1 + (length U + 1)) with (length P + 1 + length U + 1) in IH by lia.
      rewrite <- !app_assoc in IH. cbn [app] in IH. rewrite <- !app_assoc. cbn [app]. exact IH. }
  specialize (G X [] y st ltac:(simpl; lia)). cbn [app length] in G. rewrite Nat.add_0_r, LX in G. exact G.
Qed.

Lemma permute_ok_ n : forall (P X R : list Elt) first1, first1 = length P -> length X = n ->
  enumerates (fun T f => permute_ f n first1) (P ++ X ++ R) (map (fun x => P ++ x ++ R) (perms n X)) (P ++ rev X ++ R).
Proof.
  induction n as [|n IH]; intros P X R first1 Hf LX T f g H st.
  - destruct X; [|discriminate LX]. cbn [permute_ perms map rev]. rewrite visit_one. apply H. reflexivity.
  - destruct n as [|[|[|n]]].
    + destruct X as [|a [|b X]]; try discriminate LX. cbn [permute_ perms picks_after flat_map map rev app fst snd]. rewrite visit_one. apply H. reflexivity.
    + destruct X as [|a [|b [|c X]]]; try discriminate LX. cbn [permute_ perms picks_after flat_map map rev app fst snd].
      rewrite visit_cons. eapply until_matches; [apply H; reflexivity|]. intro s.
      rewrite (swapped_mid P a [] b R) by (simpl; lia). cbn [app]. rewrite visit_one. apply H. rewrite !app_length. reflexivity.
    + destruct X as [|a [|b [|c [|d X]]]]; try discriminate LX. exact (permute3_ok P a b c R first1 Hf T f g H st).
    + destruct X as [|y X]; [discriminate LX|]. simpl in LX. injection LX as LX.
      change (permute_ f (S (S (S (S n)))) first1 st) with (permute_loop (permute_ f (S (S (S n))) (first1 + 1)) first1 (S (S (S (S n)))) st).
      apply (permute_loop_ok _ P R (S (S (S n))) first1 _ Hf eq_refl (length (P ++ (y :: X) ++ R)) f g); auto; [rewrite !app_length; simpl; lia|].
      intros x X' st' LX'. specialize (IH (P ++ [x]) X' R (first1 + 1) ltac:(rewrite app_length; simpl; lia) LX' T f g). cbn beta in IH.
      rewrite <- !app_assoc in IH. cbn [app] in IH.
      assert (EL : length (P ++ x :: X' ++ R) = length (P ++ (y :: X) ++ R)) by (rewrite !app_length; simpl; rewrite !app_length; lia).
      rewrite EL in IH. specialize (IH H st').
      assert (EM : map (fun z => P ++ (x :: z) ++ R) (perms (S (S (S n))) X') = map (fun x0 => (P ++ [x]) ++ x0 ++ R) (perms (S (S (S n))) X')).
      { apply map_ext. intro z. rewrite <- app_assoc. reflexivity. }
      rewrite EM. exact IH.
Qed.

Lemma permute_ok (P X R : list Elt) first1 n : first1 = length P -> n = length X ->
  enumerates (fun T f => permute f n first1) (P ++ X ++ R) (map (fun x => P ++ x ++ R) (perms n X)) (P ++ X ++ R).
Proof.
  intros Hf Hn T f g H st. symmetry in Hn. destruct n as [|[|[|[|n]]]].
  - destruct X; [|discriminate Hn]. cbn [permute perms map]. rewrite visit_one. apply H. reflexivity.
  - destruct X as [|a [|b X]]; try discriminate Hn. cbn [permute perms picks_after flat_map map app fst snd]. rewrite visit_one. apply H. reflexivity.
  - destruct X as [|a [|b [|c X]]]; try discriminate Hn. cbn [permute perms picks_after flat_map map app fst snd].
    rewrite visit_cons. eapply until_matches; [apply H; reflexivity|]. intro s.
    rewrite (swapped_mid P a [] b R) by (simpl; lia). cbn [app].
    rewrite visit_cons. eapply until_matches; [apply H; rewrite !app_length; reflexivity|]. intro s2.
    rewrite (swapped_mid P b [] a R) by (simpl; lia). reflexivity.
  - destruct X as [|a [|b [|c [|d X]]]]; try discriminate Hn. cbn [permute].
    pose proof (permute3_ok P a b c R first1 Hf T f g H st) as E.
    change (map (fun x => P ++ x ++ R) (perms 3 [a; b; c])) with (map (fun x => P ++ x ++ R) [[a; b; c]; [a; c; b]; [b; a; c]; [b; c; a]; [c; a; b]; [c; b; a]]).
    eapply until_last; [exact E|]. intro s. pose proof (swapped_mid P c [b] a R first1 (first1 + 2) (fun v => Ok (false, s, v)) Hf) as E2.
    cbn [app] in E2. rewrite E2 by (simpl; lia). reflexivity.
  - destruct X as [|y X]; [discriminate Hn|]. simpl in Hn. injection Hn as LX.
    change (permute f (S (S (S (S n)))) first1 st) with (fun v => until (permute_loop (permute_ f (S (S (S n))) (first1 + 1)) first1 (S (S (S (S n)))) st v)
      (fun st v => Ok (false, st, std_reverse first1 (first1 + S (S (S (S n)))) v))). cbn beta.
    assert (G : matches (permute_loop (permute_ f (S (S (S n))) (first1 + 1)) first1 (S (S (S (S n)))) st (P ++ (y :: X) ++ R))
       (visit g (map (fun z => P ++ z ++ R) (perms (S (S (S (S n)))) (y :: X))) st) (P ++ rev (y :: X) ++ R)).
    { apply (permute_loop_ok _ P R (S (S (S n))) first1 _ Hf eq_refl (length (P ++ (y :: X) ++ R)) f g); auto; [rewrite !app_length; simpl; lia|].
      intros x X' st' LX'. pose proof (permute_ok_ (S (S (S n))) (P ++ [x]) X' R (first1 + 1) ltac:(rewrite app_length; simpl; lia) LX' T f g) as IH. cbn beta in IH.
      rewrite <- !app_assoc in IH. cbn [app] in IH.
      assert (EL : length (P ++ x :: X' ++ R) = length (P ++ (y :: X) ++ R)) by (rewrite !app_length; simpl; rewrite !app_length; lia).
      rewrite EL in IH. specialize (IH H st').
      assert (EM : map (fun z => P ++ (x :: z) ++ R) (perms (S (S (S n))) X') = map (fun x0 => (P ++ [x]) ++ x0 ++ R) (perms (S (S (S n))) X')).
      { apply map_ext. intro z. rewrite <- app_assoc. reflexivity. }
      rewrite EM. exact IH. }
    eapply until_last; [exact G|]. intro s. rewrite reverse_mid by (rewrite ?rev_length; simpl; lia). rewrite rev_involutive. reflexivity.
Qed.
End Enumerate.
