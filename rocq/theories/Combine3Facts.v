(** * Facts about [combine_discontinuous3]. *)

From Coq Require Import List Arith Bool Lia Permutation.
From Verif Require Import Base BaseFacts TopDown CombinationFacts SpecCombine Combine CombineFacts Permute PermuteFacts EnumerateFacts.
Import ListNotations.

Section Combine3.
Context {Elt : Type}.

(** the vector with the ranges [firstn a l], the next [b] elements and the
    remaining elements of [l] *)
Definition lay (P M1 M2 R : list Elt) (a b : nat) (l : list Elt) : list Elt :=
  P ++ firstn a l ++ M1 ++ firstn b (skipn a l) ++ M2 ++ skipn b (skipn a l) ++ R.

Lemma lay_app P M1 M2 R A B C : lay P M1 M2 R (length A) (length B) (A ++ B ++ C) = P ++ A ++ M1 ++ B ++ M2 ++ C ++ R.
Proof. unfold lay. rewrite (firstn_len _ A), (skipn_len _ A), (firstn_len _ B), (skipn_len _ B) by reflexivity. reflexivity. Qed.

Lemma lay_length P M1 M2 R a b l : length (lay P M1 M2 R a b l) = length P + length l + length M1 + length M2 + length R.
Proof.
  unfold lay. rewrite !app_length. pose proof (f_equal (@length Elt) (firstn_skipn a l)) as E1. pose proof (f_equal (@length Elt) (firstn_skipn b (skipn a l))) as E2.
  rewrite app_length in E1, E2. lia.
Qed.

Lemma rotate3_ok (P X M1 Y M2 Z R : list Elt) a d1 b d2 c d3 : a = length P -> d1 = length X -> b = length P + length X + length M1 -> d2 = length Y ->
  c = length P + length X + length M1 + length Y + length M2 -> d3 = length Z ->
  rotate_discontinuous3 a d1 b d2 c d3 (P ++ X ++ M1 ++ Y ++ M2 ++ Z ++ R) = Ok (lay P M1 M2 R d1 d2 (Y ++ Z ++ X)).
Proof.
  intros Ha H1 Hb H2 Hc H3. unfold rotate_discontinuous3, lay.
  rewrite (rotate_disc P X M1 Y (M2 ++ Z ++ R)) by assumption. cbn [bind].
  destruct (Nat.leb_spec d1 d2) as [Hd|Hd].
  - rewrite <- (firstn_skipn d1 Y). set (Y1 := firstn d1 Y). set (Y2 := skipn d1 Y).
    assert (L1 : length Y1 = d1) by (unfold Y1; rewrite firstn_length; lia). assert (L2 : length Y2 = d2 - d1) by (unfold Y2; rewrite skipn_length; lia).
    rewrite <- !app_assoc. rewrite !(firstn_len _ Y1), !(skipn_len _ Y1) by lia.
    pose proof (rotate_disc (P ++ Y1 ++ M1 ++ Y2) X M2 Z R (b + (d2 - d1)) d1 c d3) as E. rewrite <- !app_assoc in E.
    rewrite <- !app_assoc. rewrite E by (rewrite ?app_length; lia). f_equal. f_equal. f_equal. f_equal.
    rewrite (firstn_app d2 Y2), (skipn_app d2 Y2). rewrite (firstn_all2 Y2), (skipn_all2 Y2) by lia. rewrite <- !app_assoc. cbn [app].
    rewrite L2. replace (d2 - (d2 - d1)) with d1 by lia. rewrite H1. reflexivity.
  - rewrite <- (firstn_skipn (d1 - d2) X). set (X1 := firstn (d1 - d2) X). set (X2 := skipn (d1 - d2) X).
    assert (L1 : length X1 = d1 - d2) by (unfold X1; rewrite firstn_length; lia). assert (L2 : length X2 = d2) by (unfold X2; rewrite skipn_length; lia).
    replace (length (X1 ++ X2)) with d1 by (rewrite app_length; lia).
    replace (firstn d1 (Y ++ X1 ++ X2)) with (Y ++ X1) by (rewrite app_assoc; symmetry; apply firstn_len; rewrite app_length; lia).
    replace (skipn d1 (Y ++ X1 ++ X2)) with X2 by (rewrite app_assoc; symmetry; apply skipn_len; rewrite app_length; lia).
    pose proof (rotate_disc (P ++ Y) X1 (M1 ++ X2 ++ M2) Z R (a + d2) (d1 - d2) c d3) as E. rewrite <- !app_assoc in E. rewrite <- !app_assoc.
    rewrite E by (rewrite ?app_length; lia). cbn [bind]. rewrite L1. set (V1 := firstn (d1 - d2) (Z ++ X1)). set (V2 := skipn (d1 - d2) (Z ++ X1)).
    assert (LV1 : length V1 = d1 - d2) by (unfold V1; rewrite firstn_length, app_length; lia).
    assert (LV2 : length V2 = length Z) by (unfold V2; rewrite skipn_length, app_length; lia).
    pose proof (rotate_disc (P ++ Y ++ V1 ++ M1) X2 M2 V2 R b d2 c d3) as E2. rewrite <- !app_assoc in E2. rewrite E2 by (rewrite ?app_length; lia).
    assert (EV : Y ++ Z ++ X1 ++ X2 = (Y ++ V1) ++ V2 ++ X2). { rewrite <- !app_assoc. f_equal. rewrite (app_assoc V1). unfold V1, V2. rewrite firstn_skipn, <- app_assoc. reflexivity. }
    rewrite EV. rewrite !(firstn_len d1 (Y ++ V1)), !(skipn_len d1 (Y ++ V1)) by (rewrite app_length; lia). rewrite <- !app_assoc, L2. reflexivity.
Qed.

(** the range without its first element, which stays at the first place of the
    second range *)
Definition final3 (d a b : nat) (P M1 M2 R l : list Elt) : list Elt :=
  if d =? 0 then lay P M1 M2 R a b l else lay P (M1 ++ firstn 1 l) M2 R a (b - 1) (tl l).

Lemma firstn_app_le {X} n (l m : list X) : n <= length l -> firstn n (l ++ m) = firstn n l.
Proof. intro H. rewrite firstn_app. replace (n - length l) with 0 by lia. simpl. apply app_nil_r. Qed.

Lemma skipn_app_le {X} n (l m : list X) : n <= length l -> skipn n (l ++ m) = skipn n l ++ m.
Proof. intro H. rewrite skipn_app. replace (n - length l) with 0 by lia. reflexivity. Qed.

(** the rotations at the end *)
Lemma finish3 (P M1 M2 R X D E : list Elt) d d1 first1 first2 d2 first3 d3 : X <> [] -> D <> [] -> E <> [] -> first1 = length P -> d1 = length X ->
  first2 = length P + length X + length M1 -> d2 = length D -> first3 = length P + length X + length M1 + length D + length M2 -> d3 = length E ->
  (if d =? 0 then rotate_discontinuous3 first1 d1 first2 d2 first3 d3 (P ++ X ++ M1 ++ D ++ M2 ++ E ++ R)
   else if 1 <? d2 then rotate_discontinuous3 first1 d1 (first2 + 1) (d2 - 1) first3 d3 (P ++ X ++ M1 ++ D ++ M2 ++ E ++ R)
   else rotate_discontinuous first1 d1 first3 d3 (P ++ X ++ M1 ++ D ++ M2 ++ E ++ R)) = Ok (final3 d d1 d2 P M1 M2 R (D ++ E ++ X)).
Proof.
  intros HX HD HE H1 H2 H3 H4 H5 H6. unfold final3. destruct (Nat.eqb_spec d 0) as [->|Hd]; [apply rotate3_ok; assumption|].
  destruct D as [|x D]; [easy|]. cbn [length] in *. cbn [app firstn tl]. destruct (Nat.ltb_spec 1 d2) as [Hl|Hl].
  - pose proof (rotate3_ok P X (M1 ++ [x]) D M2 E R first1 d1 (first2 + 1) (d2 - 1) first3 d3) as RR. rewrite <- !app_assoc in RR. cbn [app] in RR.
    apply RR; rewrite ?app_length; simpl; lia.
  - destruct D; [|simpl in H4; lia]. subst d2. cbn [length app Nat.sub].
    pose proof (rotate_disc P X (M1 ++ [x] ++ M2) E R first1 d1 first3 d3) as RR. rewrite <- !app_assoc in RR. cbn [app] in RR.
    rewrite RR by (rewrite ?app_length; simpl; rewrite ?app_length; lia). unfold lay. cbn [firstn skipn app]. rewrite <- !app_assoc. cbn [app]. rewrite H2. reflexivity.
Qed.

(** ** the loops *)
Lemma last_cons {X} (w : X) W d : last (w :: W) d = last W w.
Proof. revert w d. induction W as [|u W IH]; intros w d; [reflexivity|]. change (last (w :: u :: W) d) with (last (u :: W) d). rewrite !IH. reflexivity. Qed.

Lemma simple_loop {T} f g sz (pre Q R : list Elt) : (forall st w, length w = sz -> matches (f st w) (g st w) w) ->
  forall W U y (st : T) i2, i2 = length pre + 1 + length Q + length U -> length pre + 1 + length Q + length U + length W + length R = sz ->
  matches (swap_loop (fun _ _ => f) (length pre) (length W) i2 st (pre ++ y :: Q ++ U ++ W ++ R))
    (visit g (map (fun p => pre ++ fst p :: Q ++ snd p ++ R) (removelast (picks_after U (y :: W)))) st)
    (pre ++ last W y :: Q ++ U ++ removelast (y :: W) ++ R).
Proof.
  intros Hf. induction W as [|w W IH]; intros U y st i2 Hi Hs; [reflexivity|].
  cbn [length swap_loop]. change (removelast (picks_after U (y :: w :: W))) with ((y, U ++ w :: W) :: removelast (picks_after (U ++ [y]) (w :: W))).
  cbn [map fst snd]. rewrite visit_cons. eapply until_matches.
  - rewrite <- !app_assoc. apply Hf. rewrite !app_length. simpl. rewrite !app_length. simpl. simpl in Hs. rewrite app_length. lia.
  - intro s. pose proof (swapped_mid pre y (Q ++ U) w (W ++ R) (length pre) i2 (fun v => swap_loop (fun _ _ => f) (length pre) (length W) (i2 + 1) s v) eq_refl) as E.
    rewrite <- !app_assoc in E. cbn [app] in E |- *. rewrite E by (rewrite app_length; lia). clear E.
    specialize (IH (U ++ [y]) w s (i2 + 1)). rewrite app_length in IH. cbn [length] in IH, Hs. specialize (IH ltac:(lia) ltac:(lia)).
    set (LL := removelast (picks_after (U ++ [y]) (w :: W))) in *. change (removelast (y :: w :: W)) with (y :: removelast (w :: W)). set (ww := removelast (w :: W)) in *.
    rewrite <- !app_assoc in IH. cbn [app] in IH. rewrite last_cons. exact IH.
Qed.

Lemma combs_tail d1 (x : Elt) l : combs (S d1) (x :: l) = map (cons x) (combs d1 l) ++ combs (S d1) l.
Proof. reflexivity. Qed.

Lemma combs_all (l : list Elt) : combs (length l) l = [l].
Proof. rewrite <- splits_combs, splits_all. reflexivity. Qed.

Lemma loop2_ok (P M R : list Elt) d1 d : forall m B1 B2 x A, length B2 = m -> length A = S d1 ->
  exists K, map fst K ++ [skipn m (x :: A ++ B2)] = combs (S (S d1)) (x :: A ++ B2) /\
    (forall p, In p K -> length (fst p) = S (S d1) /\ Permutation (fst p ++ snd p) (B1 ++ x :: A ++ B2)) /\
    forall (T : Type) f g, (forall st w, length w = length P + S (S d1) + length M + length B1 + m + length R -> matches (f st w) (g st w) w) -> forall (st : T) i2,
    i2 = length P + S (S d1) + length M + length B1 ->
    matches (swap_loop (fun d22 i2 => combine_discontinuous f (S d1) (length P + 1) i2 d22 (d + 1)) (length P) m i2 st (P ++ (x :: A) ++ M ++ B1 ++ B2 ++ R))
      (visit g (map (fun p => P ++ fst p ++ M ++ snd p ++ R) K) st)
      (P ++ skipn m (x :: A ++ B2) ++ M ++ B1 ++ firstn m (x :: A ++ B2) ++ R).
Proof.
  induction m as [|m IH]; intros B1 B2 x A LB LA.
  - exists []. destruct B2; [|discriminate LB]. cbn [map app skipn firstn]. refine (conj _ (conj _ _)).
    + rewrite app_nil_r. replace (S (S d1)) with (length (x :: A)) by (simpl; lia). rewrite combs_all. reflexivity.
    + intros p [].
    + intros T f g Hf st i2 Hi. rewrite !app_nil_r. reflexivity.
  - destruct B2 as [|b B2]; [discriminate LB|]. simpl in LB. injection LB as LB.
    destruct (A ++ b :: B2) as [|y r] eqn:Er; [apply app_eq_nil in Er; destruct Er; discriminate|].
    assert (Lr : length r = S d1 + m) by (apply (f_equal (@length Elt)) in Er; rewrite app_length in Er; simpl in Er; lia).
    set (A2 := firstn (S d1) r). set (B3 := skipn (S d1) r).
    assert (L1 : length A2 = S d1) by (unfold A2; rewrite firstn_length; lia). assert (L2 : length B3 = m) by (unfold B3; rewrite skipn_length; lia).
    assert (ER : A2 ++ B3 = r) by apply firstn_skipn.
    destruct (IH (B1 ++ [x]) B3 y A2 L2 L1) as (K & K1 & K2 & K3). rewrite ER in K1, K2, K3.
    exists (map (fun p => (x :: fst p, B1 ++ snd p)) (splits (S d1) (y :: r)) ++ K). refine (conj _ (conj _ _)).
    + rewrite map_app, map_map. cbn [fst skipn]. rewrite (combs_tail (S d1)). rewrite <- K1, app_assoc. f_equal. f_equal. rewrite <- splits_combs, map_map. reflexivity.
    + intros p Hp. apply in_app_or in Hp. destruct Hp as [Hp|Hp].
      * apply in_map_iff in Hp. destruct Hp as (q & <- & Hq). destruct (splits_perm _ _ _ Hq) as [PQ LQ]. cbn [fst snd length]. split; [lia|].
        cbn [app]. rewrite <- PQ. apply Permutation_cons_app. apply Permutation_app_swap_app.
      * destruct (K2 p Hp) as [LP PP]. split; [exact LP|]. rewrite <- app_assoc in PP. exact PP.
    + intros T f g Hf st i2 Hi. cbn [swap_loop]. rewrite map_app, visit_app, map_map. cbn [fst snd].
      assert (HC : matches (combine_discontinuous f (S d1) (length P + 1) i2 (S m) (d + 1) st (P ++ (x :: A) ++ M ++ B1 ++ (b :: B2) ++ R))
         (visit g (map (fun p => P ++ (x :: fst p) ++ M ++ (B1 ++ snd p) ++ R) (splits (S d1) (y :: r))) st)
         (P ++ x :: (A2 ++ M ++ B1) ++ y :: B3 ++ R)).
      { pose proof (combine_spec f g _ Hf R d1 (P ++ [x]) (d + 1) A (M ++ B1) (b :: B2) st i2 LA ltac:(discriminate)) as C.
        rewrite !app_length in C. cbn [length] in C. specialize (C ltac:(lia) ltac:(lia)). rewrite Er in C. rewrite LB in C. rewrite <- !app_assoc in C. cbn [app] in C.
        assert (EM : map (fun p => P ++ (x :: fst p) ++ M ++ (B1 ++ snd p) ++ R) (splits (S d1) (y :: r)) = map (layout (P ++ [x]) (M ++ B1) R) (splits (S d1) (y :: r))).
        { apply map_ext. intro p. unfold layout. rewrite <- !app_assoc. reflexivity. }
        rewrite EM. unfold final in C. destruct (Nat.eqb_spec (d + 1) 0); [lia|]. rewrite Er in C. cbn [tl firstn] in C. rewrite <- !app_assoc in C |- *. cbn [app] in C |- *.
        exact C. }
      eapply until_matches; [exact HC|]. intro s. rewrite swapped_mid by (rewrite ?app_length; lia).
      assert (Hf' : forall st w, length w = length P + S (S d1) + length M + length (B1 ++ [x]) + m + length R -> matches (f st w) (g st w) w).
      { intros s0 w Lw. apply Hf. rewrite Lw, app_length. simpl. lia. }
      specialize (K3 T f g Hf' s (i2 + 1) ltac:(rewrite app_length; simpl; lia)).
      rewrite <- !app_assoc in K3. cbn [app] in K3 |- *. rewrite <- !app_assoc. cbn [skipn firstn app]. exact K3.
Qed.
Definition lay3 (P M1 M2 R : list Elt) (t : list Elt * list Elt * list Elt) : list Elt := P ++ fst (fst t) ++ M1 ++ snd (fst t) ++ M2 ++ snd t ++ R.

Definition spec3 (d1 : nat) : Prop := forall (P A M1 B M2 C R : list Elt) d, length A = d1 -> B <> [] -> C <> [] ->
  exists Ls, map (fun t => fst (fst t)) Ls = combs d1 (A ++ B ++ C) /\
    (forall t, In t Ls -> length (fst (fst t)) = d1 /\ length (snd (fst t)) = length B /\ Permutation (fst (fst t) ++ snd (fst t) ++ snd t) (A ++ B ++ C)) /\
    forall (T : Type) f g, (forall st w, length w = length (P ++ A ++ M1 ++ B ++ M2 ++ C ++ R) -> matches (f st w) (g st w) w) -> forall (st : T) first1 first2 d2 first3 d3,
    first1 = length P -> first2 = length P + d1 + length M1 -> d2 = length B -> first3 = length P + d1 + length M1 + length B + length M2 -> d3 = length C ->
    matches (combine_discontinuous3_ f d1 first1 first2 d2 first3 d3 d st (P ++ A ++ M1 ++ B ++ M2 ++ C ++ R))
      (visit g (map (lay3 P M1 M2 R) Ls) st) (final3 d d1 d2 P M1 M2 R (A ++ B ++ C)).

Lemma loop1_ok (P M1 M2 R : list Elt) d1 d : spec3 (S d1) -> forall m B1 B2 x A C, length B2 = m -> length A = S d1 -> C <> [] ->
  exists K, map (fun t => fst (fst t)) K ++ combs (S (S d1)) (skipn m (x :: A ++ B2 ++ C)) = combs (S (S d1)) (x :: A ++ B2 ++ C) /\
    (forall t, In t K -> length (fst (fst t)) = S (S d1) /\ length (snd (fst t)) = length B1 + m /\ Permutation (fst (fst t) ++ snd (fst t) ++ snd t) (B1 ++ x :: A ++ B2 ++ C)) /\
    forall (T : Type) f g, (forall st w, length w = length P + S (S d1) + length M1 + length B1 + m + length M2 + length C + length R -> matches (f st w) (g st w) w) ->
    forall (st : T) i2 first3 d3, i2 = length P + S (S d1) + length M1 + length B1 -> first3 = length P + S (S d1) + length M1 + length B1 + m + length M2 -> d3 = length C ->
    matches (swap_loop (fun d22 i2 => combine_discontinuous3_ f (S d1) (length P + 1) i2 d22 first3 d3 (d + 1)) (length P) m i2 st (P ++ (x :: A) ++ M1 ++ B1 ++ B2 ++ M2 ++ C ++ R))
      (visit g (map (lay3 P M1 M2 R) K) st)
      (P ++ firstn (S (S d1)) (skipn m (x :: A ++ B2 ++ C)) ++ M1 ++ B1 ++ firstn m (x :: A ++ B2 ++ C) ++ M2 ++ skipn (S (S d1)) (skipn m (x :: A ++ B2 ++ C)) ++ R).
Proof.
  intro HS. induction m as [|m IH]; intros B1 B2 x A C LB LA HC.
  - exists []. destruct B2; [|discriminate LB]. cbn [map app]. change (skipn 0 (x :: A ++ C)) with (x :: A ++ C). change (firstn 0 (x :: A ++ C)) with (@nil Elt).
    refine (conj eq_refl (conj _ _)); [intros t []|].
    intros T f g Hf st i2 first3 d3 Hi H3 Hd. cbn [swap_loop visit map matches].
    replace (firstn (S (S d1)) (x :: A ++ C)) with (x :: A) by (symmetry; apply (firstn_len (S (S d1)) (x :: A) C); simpl; lia).
    replace (skipn (S (S d1)) (x :: A ++ C)) with C by (symmetry; apply (skipn_len (S (S d1)) (x :: A) C); simpl; lia). reflexivity.
  - destruct B2 as [|b B2]; [discriminate LB|]. simpl in LB. injection LB as LB.
    assert (LC : 0 < length C) by (destruct C; [easy|simpl; lia]).
    destruct (HS (P ++ [x]) A (M1 ++ B1) (b :: B2) M2 C R (d + 1) LA ltac:(discriminate) HC) as (Ls & S1 & S2 & S3).
    destruct (A ++ (b :: B2) ++ C) as [|y r] eqn:Er; [apply app_eq_nil in Er; destruct Er as [_ Er]; discriminate|].
    assert (Lr : length r = S d1 + m + length C) by (apply (f_equal (@length Elt)) in Er; rewrite !app_length in Er; simpl in Er; lia).
    set (A2 := firstn (S d1) r) in *. set (B3 := firstn m (skipn (S d1) r)) in *. set (C2 := skipn m (skipn (S d1) r)) in *.
    assert (L1 : length A2 = S d1) by (unfold A2; rewrite firstn_length; lia). assert (L2 : length B3 = m) by (unfold B3; rewrite firstn_length, skipn_length; lia).
    assert (L3 : length C2 = length C) by (unfold C2; rewrite !skipn_length; lia).
    assert (ER : A2 ++ B3 ++ C2 = r) by (unfold A2, B3, C2; rewrite !firstn_skipn; reflexivity).
    destruct (IH (B1 ++ [x]) B3 y A2 C2 L2 L1) as (K & K1 & K2 & K3); [intro F; rewrite F in L3; simpl in L3; lia|]. rewrite ER in K1, K2, K3.
    exists (map (fun t => (x :: fst (fst t), B1 ++ snd (fst t), snd t)) Ls ++ K). refine (conj _ (conj _ _)).
    + rewrite map_app, map_map. cbn [fst skipn]. rewrite (combs_tail (S d1)). rewrite <- K1, <- app_assoc. f_equal. rewrite <- S1, map_map. reflexivity.
    + intros p Hp. apply in_app_or in Hp. destruct Hp as [Hp|Hp].
      * apply in_map_iff in Hp. destruct Hp as (q & <- & Hq). destruct (S2 q Hq) as (LQ & LQ2 & PQ). cbn [fst snd length]. refine (conj _ (conj _ _)); [lia|rewrite app_length; simpl in LQ2; lia|].
        cbn [app]. rewrite <- PQ. apply Permutation_cons_app. rewrite <- app_assoc. apply Permutation_app_swap_app.
      * destruct (K2 p Hp) as (LP & LP2 & PP). refine (conj LP (conj _ _)); [rewrite app_length in LP2; simpl in LP2; lia|]. rewrite <- app_assoc in PP. exact PP.
    + intros T f g Hf st i2 first3 d3 Hi H3 Hd. cbn [swap_loop]. rewrite map_app, visit_app, map_map.
      assert (HC2 : matches (combine_discontinuous3_ f (S d1) (length P + 1) i2 (S m) first3 d3 (d + 1) st (P ++ (x :: A) ++ M1 ++ B1 ++ (b :: B2) ++ M2 ++ C ++ R))
         (visit g (map (fun t => lay3 P M1 M2 R (x :: fst (fst t), B1 ++ snd (fst t), snd t)) Ls) st)
         (P ++ x :: (A2 ++ M1 ++ B1) ++ y :: B3 ++ M2 ++ C2 ++ R)).
      { assert (Hf2 : forall st w, length w = length ((P ++ [x]) ++ A ++ (M1 ++ B1) ++ (b :: B2) ++ M2 ++ C ++ R) -> matches (f st w) (g st w) w).
        { intros s w Lw. apply Hf. rewrite Lw, !app_length. simpl. lia. }
        specialize (S3 T f g Hf2 st (length P + 1) i2 (S m) first3 d3). rewrite !app_length in S3. cbn [length] in S3.
        specialize (S3 ltac:(lia) ltac:(lia) ltac:(lia) ltac:(lia) ltac:(lia)).
        assert (EM : map (fun t => lay3 P M1 M2 R (x :: fst (fst t), B1 ++ snd (fst t), snd t)) Ls = map (lay3 (P ++ [x]) (M1 ++ B1) M2 R) Ls).
        { apply map_ext. intro p. unfold lay3. cbn [fst snd]. rewrite <- !app_assoc. reflexivity. }
        rewrite EM. unfold final3 in S3. destruct (Nat.eqb_spec (d + 1) 0); [lia|]. unfold lay in S3. change (firstn 1 (y :: r)) with [y] in S3. change (tl (y :: r)) with r in S3. replace (S m - 1) with m in S3 by lia.
        fold A2 B3 C2 in S3. rewrite <- !app_assoc in S3. rewrite <- !app_assoc. cbn [app] in S3 |- *. exact S3. }
      eapply until_matches; [exact HC2|]. intro s. rewrite swapped_mid by (rewrite ?app_length; lia).
      assert (Hf' : forall st w, length w = length P + S (S d1) + length M1 + length (B1 ++ [x]) + m + length M2 + length C2 + length R -> matches (f st w) (g st w) w).
      { intros s0 w Lw. apply Hf. rewrite Lw, app_length. simpl. lia. }
      specialize (K3 T f g Hf' s (i2 + 1) first3 d3 ltac:(rewrite app_length; simpl; lia) ltac:(rewrite app_length; simpl; lia) ltac:(lia)).
      rewrite <- !app_assoc in K3. cbn [app] in K3 |- *. rewrite <- !app_assoc. cbn [skipn firstn app]. exact K3.
Qed.

Lemma removelast_app_last {X} (l : list X) d : l <> [] -> exists u, l = u ++ [last l d] /\ removelast l = u.
Proof. intro H. destruct (exists_last H) as (u & z & ->). exists u. rewrite last_last, removelast_last. auto. Qed.

Lemma spec3_one : spec3 1.
Proof.
  intros P A M1 B M2 C R d LA HB HC. destruct A as [|x [|? A]]; try discriminate LA. destruct C as [|c C]; [easy|].
  (* the contents after the first loop *)
  set (z := last B x). set (D := removelast (x :: B)).
  assert (EB : x :: B = D ++ [z]). { destruct (removelast_app_last (x :: B) x ltac:(discriminate)) as (u & E1 & E2). rewrite last_cons in E1. unfold D, z. rewrite E2. exact E1. }
  assert (LD : length D = length B). { apply (f_equal (@length Elt)) in EB. rewrite app_length in EB. simpl in EB. lia. }
  assert (HD : D <> []) by (intro F; rewrite F in LD; destruct B; [easy|discriminate LD]).
  destruct (exists_last HD) as (D' & e & ED).
  set (zc := last C c). set (F := removelast (c :: C)).
  assert (EC : c :: C = F ++ [zc]). { destruct (removelast_app_last (c :: C) c ltac:(discriminate)) as (u & E1 & E2). rewrite last_cons in E1. unfold F, zc. rewrite E2. exact E1. }
  assert (LF : length F = length C). { apply (f_equal (@length Elt)) in EC. rewrite app_length in EC. simpl in EC. lia. }
  set (K1 := map (fun p => ([fst p], snd p, c :: C)) (removelast (picks_after [] (x :: B)))).
  set (K2 := map (fun p => ([fst p], D' ++ [z], e :: snd p)) (removelast (picks_after [] (c :: C)))).
  exists (K1 ++ [([z], D, c :: C)] ++ K2 ++ [([zc], D' ++ [z], e :: F)]).
  assert (PR : forall U y W, map fst (removelast (picks_after U (y :: W))) = removelast (y :: W : list Elt)).
  { intros U y W. revert U y. induction W as [|w W IH]; intros U y; [reflexivity|]. change (removelast (picks_after U (y :: w :: W))) with ((y, U ++ w :: W) :: removelast (picks_after (U ++ [y]) (w :: W))).
    cbn [map fst]. rewrite IH. reflexivity. }
  assert (PP : forall U W p, In p (removelast (picks_after U W)) -> Permutation (fst p :: snd p) (U ++ W : list Elt)).
  { intros U W p Hp. assert (Hi : In p (picks_after U W)). { destruct (picks_after U W) as [|q Q] eqn:EQ; [destruct Hp|]. rewrite <- EQ in *. destruct (removelast_app_last (picks_after U W) q) as (u & E1 & E2); [rewrite EQ; discriminate|].
      rewrite E1. apply in_or_app. left. rewrite <- E2. exact Hp. }
    apply picks_after_In in Hi. destruct Hi as (V & W' & -> & E). rewrite E. rewrite app_assoc. rewrite (app_assoc U V). apply Permutation_middle. }
  refine (conj _ (conj _ _)).
  - unfold K1, K2. rewrite !map_app, !map_map. cbn [map fst]. cbn [app].
    assert (E1 : forall l : list (Elt * list Elt), map (fun p => [fst p]) l = map (fun y => [y]) (map fst l)) by (intro; rewrite map_map; reflexivity).
    rewrite !E1, !PR. fold D F.
    assert (EC1 : forall l : list Elt, combs 1 l = map (fun y => [y]) l).
    { induction l as [|u l IHl]; [reflexivity|]. cbn [combs map]. rewrite <- IHl. destruct l; reflexivity. }
    rewrite EC1. change (x :: B ++ c :: C) with ((x :: B) ++ c :: C). rewrite EB, EC, !map_app. cbn [map]. rewrite <- !app_assoc. reflexivity.
  - assert (PT : forall t, In t (K1 ++ [([z], D, c :: C)] ++ K2 ++ [([zc], D' ++ [z], e :: F)]) ->
       (exists y W, t = ([y], W, c :: C) /\ Permutation (y :: W) (x :: B)) \/ (exists y W, t = ([y], D' ++ [z], e :: W) /\ Permutation (y :: W) (c :: C))).
    { intros t Ht. apply in_app_or in Ht. destruct Ht as [Ht|Ht]; [left; apply in_map_iff in Ht; destruct Ht as (p & <- & Hp); exists (fst p), (snd p); split; [reflexivity|exact (PP [] _ p Hp)]|].
      cbn [app In] in Ht. destruct Ht as [<-|Ht]; [left; exists z, D; split; [reflexivity|]; rewrite EB; apply Permutation_cons_append|].
      apply in_app_or in Ht. destruct Ht as [Ht|[<-|[]]]; right; [apply in_map_iff in Ht; destruct Ht as (p & <- & Hp); exists (fst p), (snd p); split; [reflexivity|exact (PP [] _ p Hp)]|].
      exists zc, F. split; [reflexivity|]. rewrite EC. apply Permutation_cons_append. }
    intros t Ht. destruct (PT t Ht) as [(y & W & -> & HP)|(y & W & -> & HP)]; cbn [fst snd length].
    + refine (conj eq_refl (conj _ _)); [apply Permutation_length in HP; simpl in HP; lia|]. cbn [app]. change (y :: W ++ c :: C) with ((y :: W) ++ c :: C). rewrite HP. reflexivity.
    + refine (conj eq_refl (conj _ _)); [rewrite ED in LD; rewrite app_length in *; simpl in *; lia|]. cbn [app]. change (x :: B ++ c :: C) with ((x :: B) ++ c :: C). rewrite EB, ED, <- HP.
      rewrite <- !app_assoc. cbn [app]. transitivity (y :: D' ++ e :: z :: W); [apply perm_skip, Permutation_app_head, perm_swap|].
      change (e :: z :: y :: W) with ([e; z] ++ y :: W). rewrite app_assoc. apply Permutation_cons_app. rewrite <- app_assoc. reflexivity.
  - intros T f g Hf st first1 first2 d2 first3 d3 H1 H2 H3 H4 H5. subst first1 d2 d3.
    assert (Hl : forall w : list Elt, length w = length P + 1 + length M1 + length B + length M2 + S (length C) + length R -> length w = length (P ++ [x] ++ M1 ++ B ++ M2 ++ (c :: C) ++ R)).
    { intros w Lw. rewrite Lw, !app_length. simpl. lia. }
    cbn [combine_discontinuous3_]. cbn [Nat.eqb].
    replace (map (lay3 P M1 M2 R) (K1 ++ [([z], D, c :: C)] ++ K2 ++ [([zc], D' ++ [z], e :: F)])) with
      ((map (lay3 P M1 M2 R) K1 ++ map (lay3 P M1 M2 R) ([([z], D, c :: C)] ++ K2)) ++ map (lay3 P M1 M2 R) [([zc], D' ++ [z], e :: F)]) by (rewrite <- !map_app, <- !app_assoc; reflexivity).
    rewrite (visit_app g _ (map _ [_])). eapply until_matches.
    + rewrite visit_app. eapply until_matches.
      * pose proof (simple_loop f g _ P M1 (M2 ++ (c :: C) ++ R) Hf B [] x st first2 ltac:(simpl; lia) ltac:(rewrite !app_length; simpl; rewrite ?app_length; simpl; lia)) as SL.
        cbn [app] in SL. unfold K1. rewrite map_map. unfold lay3 at 1. cbn [fst snd app]. exact SL.
      * intro s. cbn [map app]. rewrite visit_cons. unfold lay3 at 1. cbn [fst snd app].
        eapply until_matches; [apply Hf, Hl; rewrite !app_length; simpl; rewrite !app_length; simpl; rewrite app_length; lia|].
        intro s2. fold z D. rewrite ED.
        pose proof (swapped_mid P z (M1 ++ D') e (M2 ++ c :: C ++ R) (length P) (first2 + (length B - 1)) (fun v => swapped (length P) first3 v (fun v => swap_loop (fun _ _ => f) (length P) (S (length C) - 1) (first3 + 1) s2 v)) eq_refl) as E1.
        assert (LD' : length B = length D' + 1) by (rewrite ED, app_length in LD; simpl in LD; lia).
        rewrite <- !app_assoc in E1 |- *. cbn [app length] in E1 |- *. rewrite E1 by (rewrite app_length; lia). clear E1.
        pose proof (swapped_mid P e (M1 ++ D' ++ z :: M2) c (C ++ R) (length P) first3 (fun v => swap_loop (fun _ _ => f) (length P) (S (length C) - 1) (first3 + 1) s2 v) eq_refl) as E2.
        rewrite <- !app_assoc in E2. cbn [app] in E2. rewrite <- (app_assoc M1 D'). rewrite E2 by (rewrite !app_length; simpl; lia). clear E2.
        pose proof (simple_loop f g _ P (M1 ++ D' ++ z :: M2 ++ [e]) R Hf C [] c s2 (first3 + 1)) as SL. 
        assert (LQ : length (M1 ++ D' ++ z :: M2 ++ [e]) = length M1 + length D' + length M2 + 2) by (rewrite !app_length; simpl; rewrite app_length; simpl; lia).
        rewrite LQ in SL. specialize (SL ltac:(simpl; lia) ltac:(rewrite !app_length; simpl; rewrite ?app_length; simpl; lia)). replace (S (length C) - 1) with (length C) by lia.
        unfold K2. rewrite map_map. unfold lay3. cbn [fst snd app].
        assert (EM : map (fun p : Elt * list Elt => P ++ fst p :: M1 ++ (D' ++ [z]) ++ M2 ++ e :: snd p ++ R) (removelast (picks_after [] (c :: C))) =
                     map (fun p : Elt * list Elt => P ++ fst p :: (M1 ++ D' ++ z :: M2 ++ [e]) ++ snd p ++ R) (removelast (picks_after [] (c :: C)))).
        { apply map_ext. intro p. rewrite <- !app_assoc. cbn [app]. rewrite <- !app_assoc. reflexivity. }
        rewrite EM. fold F zc in SL. rewrite <- !app_assoc in SL. cbn [app] in SL. rewrite <- !app_assoc in SL. cbn [app] in SL. exact SL.
    + intro s. cbn [map]. rewrite visit_one. unfold lay3. cbn [fst snd app].
      match goal with |- matches (until (f s ?v) _) (g s ?w) _ => assert (EV : v = w) by (rewrite <- !app_assoc; reflexivity); rewrite EV; clear EV end.
      eapply until_last.
      { apply Hf, Hl. rewrite !app_length; simpl. rewrite !app_length. simpl. rewrite app_length. rewrite ED in LD. rewrite app_length in LD. simpl in LD. lia. }
      intro s2. cbn beta.
      assert (LD' : length B = length D' + 1) by (rewrite ED, app_length in LD; simpl in LD; lia).
      pose proof (swap_app (P ++ zc :: M1 ++ D') z M2 e (F ++ R) (first2 + (length B - 1)) first3) as E1.
      rewrite <- !app_assoc in E1. cbn [app] in E1. rewrite <- !app_assoc in E1. rewrite <- !app_assoc. cbn [app].
      rewrite E1 by (rewrite !app_length; simpl; rewrite ?app_length; lia). clear E1. cbn [bind].
      pose proof (finish3 P M1 M2 R [zc] D (z :: F) d 1 (length P) first2 (length B) first3 (S (length C))) as FN. cbn [length] in FN.
      specialize (FN ltac:(discriminate) HD ltac:(discriminate) eq_refl eq_refl ltac:(lia) ltac:(lia) ltac:(lia) ltac:(lia)).
      rewrite ED in FN. rewrite <- !app_assoc in FN. cbn [app] in FN. cbn [length]. rewrite FN. cbn [bind]. f_equal. f_equal. f_equal.
      change (D' ++ e :: z :: F ++ [zc]) with (D' ++ [e] ++ [z] ++ F ++ [zc]). rewrite <- EC, (app_assoc D'), <- ED, app_assoc, <- EB. reflexivity.
Qed.
Lemma spec3_step d1 : spec3 (S d1) -> spec3 (S (S d1)).
Proof.
  intros HS P A M1 B M2 C R d LA HB HC. destruct A as [|x A]; [discriminate LA|]. simpl in LA. injection LA as LA.
  destruct (loop1_ok P M1 M2 R d1 d HS (length B) [] B x A C eq_refl LA HC) as (K1 & C1 & Q1 & V1).
  set (Y := x :: A ++ B ++ C) in *. assert (LY : length Y = S (S d1) + length B + length C) by (unfold Y; simpl; rewrite !app_length; lia).
  (* the contents after the first loop *)
  set (D := firstn (length B) Y) in *. assert (LD : length D = length B) by (unfold D; rewrite firstn_length; lia).
  destruct (skipn (length B) Y) as [|y r] eqn:Ey; [apply (f_equal (@length Elt)) in Ey; rewrite skipn_length, LY in Ey; cbn [length] in Ey; lia|].
  assert (EY : Y = D ++ y :: r) by (unfold D; rewrite <- Ey, firstn_skipn; reflexivity).
  assert (Lr : length r = S d1 + length C) by (apply (f_equal (@length Elt)) in EY; rewrite app_length, LY in EY; cbn [length] in EY; lia).
  set (A2 := firstn (S d1) r). set (C2 := skipn (S d1) r).
  assert (L1 : length A2 = S d1) by (unfold A2; rewrite firstn_length; lia). assert (L2 : length C2 = length C) by (unfold C2; rewrite skipn_length; lia).
  assert (ER : A2 ++ C2 = r) by apply firstn_skipn.
  destruct (loop2_ok P (M1 ++ D ++ M2) R d1 d (length C) [] C2 y A2 L2 L1) as (K2 & C2' & Q2 & V2). rewrite ER in C2', Q2, V2.
  set (X := skipn (length C) (y :: r)) in *. set (E := firstn (length C) (y :: r)) in *.
  assert (EE : y :: r = E ++ X) by (unfold E, X; rewrite firstn_skipn; reflexivity).
  assert (LX : length X = S (S d1)) by (unfold X; rewrite skipn_length; cbn [length]; lia). assert (LE : length E = length C) by (unfold E; rewrite firstn_length; cbn [length]; lia).
  exists (K1 ++ map (fun p => (fst p, D, snd p)) K2 ++ [(X, D, E)]).
  refine (conj _ (conj _ _)).
  - rewrite !map_app, map_map. transitivity (map (fun t => fst (fst t)) K1 ++ (map fst K2 ++ [X])); [reflexivity|]. rewrite C2'. exact C1.
  - intros t Ht. apply in_app_or in Ht. destruct Ht as [Ht|Ht]; [exact (Q1 t Ht)|]. apply in_app_or in Ht. destruct Ht as [Ht|[<-|[]]].
    + apply in_map_iff in Ht. destruct Ht as (p & <- & Hp). destruct (Q2 p Hp) as [LP PP]. cbn [fst snd]. refine (conj LP (conj LD _)).
      change ((x :: A) ++ B ++ C) with Y. rewrite EY. cbn [app] in PP. rewrite <- PP. apply Permutation_app_swap_app.
    + cbn [fst snd]. refine (conj LX (conj LD _)). change ((x :: A) ++ B ++ C) with Y. rewrite EY, EE. rewrite (Permutation_app_comm X), <- app_assoc. reflexivity.
  - intros T f g Hf st first1 first2 d2 first3 d3 H1 H2 H3 H4 H5. subst first1 d2 d3. rewrite !app_length in Hf. cbn [length] in Hf.
    cbn [combine_discontinuous3_]. cbn [Nat.eqb].
    replace (map (lay3 P M1 M2 R) (K1 ++ map (fun p => (fst p, D, snd p)) K2 ++ [(X, D, E)])) with
      ((map (lay3 P M1 M2 R) K1 ++ map (lay3 P M1 M2 R) (map (fun p => (fst p, D, snd p)) K2)) ++ map (lay3 P M1 M2 R) [(X, D, E)]) by (rewrite <- !map_app, <- !app_assoc; reflexivity).
    rewrite (visit_app g _ (map _ [_])). eapply until_matches.
    + rewrite visit_app. eapply until_matches.
      * cbn [app length] in V1. apply V1; try lia. intros s w Lw. apply Hf. lia.
      * intro s. cbn [app].
        replace (firstn (S (S d1)) (y :: r)) with (y :: A2) by reflexivity. replace (skipn (S (S d1)) (y :: r)) with C2 by reflexivity.
        assert (V2' := V2 T f g). rewrite !app_length in V2'. cbn [length] in V2'. specialize (V2' ltac:(intros s0 w Lw; apply Hf; lia) s first3 ltac:(lia)).
        rewrite map_map. unfold lay3 at 1. cbn [fst snd].
        assert (EM : map (fun p : list Elt * list Elt => P ++ fst p ++ M1 ++ D ++ M2 ++ snd p ++ R) K2 = map (fun p => P ++ fst p ++ (M1 ++ D ++ M2) ++ snd p ++ R) K2).
        { apply map_ext. intro p. rewrite <- !app_assoc. reflexivity. }
        rewrite EM. rewrite <- !app_assoc in V2'. cbn [app] in V2'. cbn [app]. exact V2'.
    + intro s. cbn [map]. rewrite visit_one. unfold lay3. cbn [fst snd app].
      eapply until_last; [apply Hf; rewrite !app_length; lia|]. intro s2. cbn beta. cbn [bind].
      rewrite (finish3 P M1 M2 R X D E); try (intro F; first [rewrite F in LX|rewrite F in LD|rewrite F in LE]; simpl in *; destruct B; [easy|]; destruct C; [easy|]; simpl in *; lia); try lia.
      cbn [bind]. rewrite EE in EY. change (x :: A ++ B ++ C) with Y. rewrite EY. reflexivity.
Qed.

Lemma spec3_all d1 : spec3 (S d1).
Proof. induction d1 as [|d1 IH]; [exact spec3_one|]. apply spec3_step, IH. Qed.

(** ** all arrangements of three ranges *)
Lemma perm3_In (P A M1 B M2 C R : list Elt) i n j m l o w : i = length P -> n = length A -> j = length P + length A + length M1 -> m = length B ->
  l = length P + length A + length M1 + length B + length M2 -> o = length C ->
  In w (flat_map (fun w => flat_map (perm_at l o) (perm_at j m w)) (perm_at i n (P ++ A ++ M1 ++ B ++ M2 ++ C ++ R))) <->
  exists A' B' C', w = P ++ A' ++ M1 ++ B' ++ M2 ++ C' ++ R /\ Permutation A' A /\ Permutation B' B /\ Permutation C' C.
Proof.
  intros Hi Hn Hj Hm Hl Ho. rewrite perm_at_mid by assumption. rewrite in_flat_map.
  assert (E : forall x w, length x = length A -> In w (flat_map (perm_at l o) (perm_at j m (P ++ x ++ M1 ++ B ++ M2 ++ C ++ R))) <->
     exists B' C', w = P ++ x ++ M1 ++ B' ++ M2 ++ C' ++ R /\ Permutation B' B /\ Permutation C' C).
  { intros x u Lx. pose proof (perm2_In (P ++ x ++ M1) B M2 C R j m l o u) as E. rewrite !app_length in E. specialize (E ltac:(lia) Hm ltac:(lia) Ho).
    rewrite <- !app_assoc in E. rewrite E. split; intros (B' & C' & -> & H1 & H2); exists B', C'; rewrite <- !app_assoc; auto. }
  split.
  - intros (u & Hu & Hw). apply in_map_iff in Hu. destruct Hu as (x & <- & Hx). apply perms_In in Hx; [|auto]. apply E in Hw; [|apply Permutation_length; exact Hx].
    destruct Hw as (B' & C' & -> & H1 & H2). exists x, B', C'. auto.
  - intros (A' & B' & C' & -> & PA & PB & PC). exists (P ++ A' ++ M1 ++ B ++ M2 ++ C ++ R). split.
    + apply in_map_iff. exists A'. split; [reflexivity|]. apply perms_In; auto.
    + apply E; [apply Permutation_length; exact PA|]. exists B', C'. auto.
Qed.

(** the calls for one choice of the elements of the second range *)
Lemma enumerates_ext p q (v : list Elt) L fin : (forall T f st, p T f st v = q T f st v) -> enumerates p v L fin -> enumerates q v L fin.
Proof. intros E H T f g Hf st. rewrite <- E. apply H. exact Hf. Qed.

(** with the first range fixed *)
Lemma arrange_inner (P A M1 B M2 C R : list Elt) i n j m l o : NoDup A -> NoDup (B ++ C) -> i = length P -> n = length A -> j = length P + length A + length M1 -> m = length B ->
  l = length P + length A + length M1 + length B + length M2 -> o = length C ->
  exists L, enumerates (fun T f => combine_discontinuous (rev3 f i n j m l o) m j l o 0) (P ++ A ++ M1 ++ B ++ M2 ++ C ++ R) L (P ++ A ++ M1 ++ B ++ M2 ++ C ++ R) /\
    NoDup L /\ forall w, In w L <-> exists A' B' C', w = P ++ A' ++ M1 ++ B' ++ M2 ++ C' ++ R /\ Permutation A' A /\ length B' = length B /\ Permutation (B' ++ C') (B ++ C).
Proof.
  intros NA ND Hi Hn Hj Hm Hl Ho.
  set (F := fun w : list Elt => flat_map (fun w => flat_map (perm_at l o) (perm_at j m w)) (perm_at i n w)).
  exists (flat_map F (map (layout (P ++ A ++ M1) M2 R) (splits (length B) (B ++ C)))).
  assert (HS : forall p, In p (splits (length B) (B ++ C)) -> length (fst p) = length B /\ length (snd p) = length C /\ Permutation (fst p ++ snd p) (B ++ C)).
  { intros p Hp. destruct (splits_perm _ _ _ Hp) as [Pp Lp]. refine (conj Lp (conj _ Pp)). apply Permutation_length in Pp. rewrite !app_length in Pp. lia. }
  assert (EL : forall p, layout (P ++ A ++ M1) M2 R p = P ++ A ++ M1 ++ fst p ++ M2 ++ snd p ++ R) by (intro p; unfold layout; rewrite <- !app_assoc; reflexivity).
  assert (HI : forall p w, In p (splits (length B) (B ++ C)) -> In w (F (layout (P ++ A ++ M1) M2 R p)) <->
     exists A' B' C', w = P ++ A' ++ M1 ++ B' ++ M2 ++ C' ++ R /\ Permutation A' A /\ Permutation B' (fst p) /\ Permutation C' (snd p)).
  { intros p w Hp. destruct (HS p Hp) as (L1 & L2 & _). rewrite EL. unfold F. apply perm3_In; lia. }
  refine (conj _ (conj _ _)).
  - apply (enumerates_nest (fun T f => combine_discontinuous f m j l o 0) (fun T f => rev3 f i n j m l o)).
    + pose proof (combine_enumerates (P ++ A ++ M1) B M2 C R j l m o) as CE. rewrite !app_length in CE. specialize (CE ltac:(lia) Hm ltac:(lia) Ho). rewrite <- !app_assoc in CE. exact CE.
    + intros w Lw. rewrite !app_length in Lw. apply rev3_at; lia.
  - apply NoDup_flat_map.
    + apply NoDup_map_inj; [apply splits_NoDup; exact ND|]. intros p q Hp Hq E. rewrite !EL in E. do 3 apply app_inv_head in E.
      apply app_inj_len in E; [|rewrite (proj1 (HS p Hp)), (proj1 (HS q Hq)); reflexivity]. destruct E as [E1 E2]. apply app_inv_head in E2. apply app_inv_tail in E2.
      destruct p, q. cbn [fst snd] in *. subst. reflexivity.
    + intros w Hw. apply in_map_iff in Hw. destruct Hw as (p & <- & Hp). destruct (HS p Hp) as (L1 & L2 & Pp). rewrite EL. unfold F.
      apply Permutation_sym, Permutation_NoDup in Pp; auto.
      rewrite (perm_at_mid P A) by assumption. apply NoDup_flat_map.
      * apply NoDup_map_inj; [apply perms_NoDup; auto|]. intros x y _ _ E. apply app_inv_head in E. apply app_inv_tail in E. exact E.
      * intros u Hu. apply in_map_iff in Hu. destruct Hu as (x & <- & Hx). apply perms_In in Hx; [|auto]. apply Permutation_length in Hx.
        pose proof (perm2_NoDup (P ++ x ++ M1) (fst p) M2 (snd p) R j m l o) as N2. rewrite !app_length in N2. rewrite <- !app_assoc in N2.
        apply N2; try lia; [apply NoDup_app_l in Pp|apply NoDup_app_r in Pp]; exact Pp.
      * intros u w z Hu Hw Hz Fz. apply in_map_iff in Hu, Hw. destruct Hu as (x & <- & Hx). destruct Hw as (y & <- & Hy). apply perms_In in Hx, Hy; [|auto..].
        apply Permutation_length in Hx, Hy.
        assert (G : forall x z, length x = length A -> In z (flat_map (perm_at l o) (perm_at j m (P ++ x ++ M1 ++ fst p ++ M2 ++ snd p ++ R))) -> exists r, z = P ++ x ++ r).
        { clear -HS Hp Hi Hn Hj Hm Hl Ho. intros x z Lx Hz. destruct (HS p Hp) as (L1 & L2 & _). pose proof (perm2_In (P ++ x ++ M1) (fst p) M2 (snd p) R j m l o z) as N2. rewrite !app_length in N2. rewrite <- !app_assoc in N2.
          apply N2 in Hz; try lia. destruct Hz as (B' & C' & -> & _). rewrite <- !app_assoc. eexists. reflexivity. }
        destruct (G x z Hx Hz) as (r1 & ->). destruct (G y _ Hy Fz) as (r2 & E). apply app_inv_head in E. apply app_inj_len in E; [|lia]. destruct E as [-> _]. reflexivity.
    + intros u w z Hu Hw Hz Fz. apply in_map_iff in Hu, Hw. destruct Hu as (p & <- & Hp). destruct Hw as (q & <- & Hq). apply (HI p z Hp) in Hz. apply (HI q z Hq) in Fz.
      destruct Hz as (A' & B' & C' & -> & PA & PB & PC). destruct Fz as (A2 & B2 & C2 & E & PA2 & PB2 & PC2). apply app_inv_head in E.
      apply app_inj_len in E; [|apply Permutation_length in PA, PA2; lia]. destruct E as [_ E]. apply app_inv_head in E.
      apply app_inj_len in E; [|apply Permutation_length in PB, PB2; destruct (HS p Hp) as (L1 & _), (HS q Hq) as (L2 & _); lia]. destruct E as [-> _].
      f_equal. apply (splits_inj (B ++ C) ND (length B)); auto. intros x Hx. eapply Permutation_in; [exact PB2|]. eapply Permutation_in; [apply Permutation_sym; exact PB|exact Hx].
  - intro w. rewrite in_flat_map. split.
    + intros (u & Hu & Hw). apply in_map_iff in Hu. destruct Hu as (p & <- & Hp). apply (HI p w Hp) in Hw. destruct Hw as (A' & B' & C' & -> & PA & PB & PC).
      destruct (HS p Hp) as (L1 & L2 & Pp). exists A', B', C'. refine (conj eq_refl (conj PA (conj _ _))); [apply Permutation_length in PB; lia|].
      rewrite <- Pp. apply Permutation_app; assumption.
    + intros (A' & B' & C' & -> & PA & LB & PP). destruct (splits_complete (B ++ C) ND B' C' PP) as (p & Hp & P1 & P2). rewrite LB in Hp.
      exists (layout (P ++ A ++ M1) M2 R p). split; [apply in_map; exact Hp|]. apply (HI p _ Hp). exists A', B', C'. refine (conj eq_refl (conj PA (conj _ _))); apply Permutation_sym; assumption.
Qed.
Lemma four_split (w : list Elt) j m l o : j + m <= l -> l + o <= length w -> exists P B M C R, w = P ++ B ++ M ++ C ++ R /\ j = length P /\ m = length B /\ l = length P + length B + length M /\ o = length C.
Proof.
  intros H1 H2. destruct (range_split w j m ltac:(lia)) as (P & B & R & -> & HP & HB). rewrite !app_length in H2.
  destruct (range_split R (l - j - m) o ltac:(lia)) as (M & C & R' & -> & HM & HC). exists P, B, M, C, R'. refine (conj eq_refl (conj HP (conj HB (conj _ HC)))). lia.
Qed.

Lemma inner_trace (w : list Elt) i n j m l o : i + n <= length w -> j + m <= l -> l + o <= length w ->
  enumerates (fun T f => combine_discontinuous (rev3 f i n j m l o) m j l o 0) w (trace (fun T f => combine_discontinuous (rev3 f i n j m l o) m j l o 0) w) w.
Proof.
  intros H1 H2 H3. assert (G : exists L, enumerates (fun T f => combine_discontinuous (rev3 f i n j m l o) m j l o 0) w L w).
  { destruct (four_split w j m l o H2 H3) as (P & B & M & C & R & -> & HP & HB & HM & HC). eexists.
    apply (enumerates_nest (fun T f => combine_discontinuous f m j l o 0) (fun T f => rev3 f i n j m l o)); [apply combine_enumerates; assumption|].
    intros w Lw. apply rev3_at; lia. }
  destruct G as (L & HL). rewrite (enumerates_trace _ _ _ _ HL). exact HL.
Qed.

(** all arrangements of a range of three parts *)
Lemma arrange3 (P A M1 B M2 C R : list Elt) i n j m l o : NoDup (A ++ B ++ C) -> A <> [] -> B <> [] -> C <> [] ->
  i = length P -> n = length A -> j = length P + length A + length M1 -> m = length B ->
  l = length P + length A + length M1 + length B + length M2 -> o = length C ->
  exists L, enumerates (fun T f => combine_discontinuous3 (rev3 f i n j m l o) n i j m l o) (P ++ A ++ M1 ++ B ++ M2 ++ C ++ R) L (P ++ A ++ M1 ++ B ++ M2 ++ C ++ R) /\
    NoDup L /\ forall w, In w L <-> exists A' B' C', w = P ++ A' ++ M1 ++ B' ++ M2 ++ C' ++ R /\ length A' = length A /\ length B' = length B /\ Permutation (A' ++ B' ++ C') (A ++ B ++ C).
Proof.
  intros ND HA HB HC Hi Hn Hj Hm Hl Ho.
  destruct A as [|a0 A0]; [easy|]. set (A := a0 :: A0) in *. assert (LA : length A = S (length A0)) by reflexivity. clearbody A.
  destruct (spec3_all (length A0) P A M1 B M2 C R 0 LA HB HC) as (Ls & S1 & S2 & S3).
  set (inner := fun (T : Type) (f : T -> list Elt -> outcome (bool * T * list Elt)) => combine_discontinuous (rev3 f i n j m l o) m j l o 0).
  assert (S2' : forall t, In t Ls -> length (fst (fst t)) = length A /\ length (snd (fst t)) = length B /\ length (snd t) = length C /\ Permutation (fst (fst t) ++ snd (fst t) ++ snd t) (A ++ B ++ C)).
  { intros t Ht. destruct (S2 t Ht) as (L1 & L2 & PP). refine (conj _ (conj L2 (conj _ PP))); [lia|]. apply Permutation_length in PP. rewrite !app_length in PP. lia. }
  assert (HI : forall t, In t Ls -> NoDup (trace inner (lay3 P M1 M2 R t)) /\ forall w, In w (trace inner (lay3 P M1 M2 R t)) <->
     exists A' B' C', w = P ++ A' ++ M1 ++ B' ++ M2 ++ C' ++ R /\ Permutation A' (fst (fst t)) /\ length B' = length B /\ Permutation (B' ++ C') (snd (fst t) ++ snd t)).
  { intros t Ht. destruct (S2' t Ht) as (L1 & L2 & L3 & PP). apply Permutation_sym, Permutation_NoDup in PP; auto.
    destruct (arrange_inner P (fst (fst t)) M1 (snd (fst t)) M2 (snd t) R i n j m l o) as (L & E1 & E2 & E3); try lia; [exact (NoDup_app_l _ _ PP)|exact (NoDup_app_r _ _ PP)|].
    apply enumerates_trace in E1. change (trace inner (lay3 P M1 M2 R t) = L) in E1. rewrite E1. split; [exact E2|]. intro w. rewrite E3, L2. reflexivity. }
  assert (NS : NoDup Ls /\ forall t u, In t Ls -> In u Ls -> (forall z, In z (fst (fst t)) -> In z (fst (fst u))) -> t = u).
  { pose proof (splits_NoDup (A ++ B ++ C) ND (S (length A0))) as N1.
    assert (N2 : NoDup (map (fun t => fst (fst t)) Ls)).
    { rewrite S1, <- splits_combs. apply NoDup_map_inj; [exact N1|]. intros p q Hp Hq E. apply (splits_inj _ ND (S (length A0))); auto. rewrite E. auto. }
    split; [exact (NoDup_map_inv _ _ N2)|]. intros t u Ht Hu Hz.
    assert (E : fst (fst t) = fst (fst u)).
    { assert (Ht' : In (fst (fst t)) (map fst (splits (S (length A0)) (A ++ B ++ C)))) by (rewrite splits_combs, <- S1; apply (in_map (fun t => fst (fst t))); exact Ht).
      assert (Hu' : In (fst (fst u)) (map fst (splits (S (length A0)) (A ++ B ++ C)))) by (rewrite splits_combs, <- S1; apply (in_map (fun t => fst (fst t))); exact Hu).
      apply in_map_iff in Ht', Hu'. destruct Ht' as (p & Ep & Hp). destruct Hu' as (q & Eq & Hq). rewrite <- Ep, <- Eq in *. f_equal. apply (splits_inj _ ND (S (length A0))); auto. }
    clear -N2 Ht Hu E. induction Ls as [|s Ls IH]; [destruct Ht|]. cbn [map] in N2. inversion N2; subst. destruct Ht as [->|Ht], Hu as [->|Hu]; auto.
    - exfalso. apply H1. rewrite E. apply (in_map (fun t => fst (fst t))). exact Hu.
    - exfalso. apply H1. rewrite <- E. apply (in_map (fun t => fst (fst t))). exact Ht. }
  destruct NS as [NS NI].
  exists (flat_map (trace inner) (map (lay3 P M1 M2 R) Ls)). refine (conj _ (conj _ _)).
  - unfold combine_discontinuous3. apply (enumerates_nest (fun T f => combine_discontinuous3_ f n i j m l o 0) inner (trace inner)).
    + intros T f g Hf st. pose proof (S3 T f g Hf st i j m l o Hi ltac:(lia) Hm ltac:(lia) Ho) as M. unfold final3 in M. cbn [Nat.eqb] in M.
      rewrite <- LA in M. rewrite Hm in M at 2. rewrite lay_app in M. rewrite Hn. exact M.
    + intros w Lw. rewrite !app_length in Lw. apply inner_trace; lia.
  - apply NoDup_flat_map.
    + apply NoDup_map_inj; [exact NS|]. intros t u Ht Hu E. unfold lay3 in E. destruct (S2' t Ht) as (L1 & L2 & _), (S2' u Hu) as (L1' & L2' & _).
      apply app_inv_head in E. apply app_inj_len in E; [|lia]. destruct E as [E1 E]. apply NI; auto. rewrite E1. auto.
    + intros w Hw. apply in_map_iff in Hw. destruct Hw as (t & <- & Ht). apply (HI t Ht).
    + intros u w z Hu Hw Hz Fz. apply in_map_iff in Hu, Hw. destruct Hu as (t & <- & Ht). destruct Hw as (t2 & <- & Ht2). apply (HI t Ht) in Hz. apply (HI t2 Ht2) in Fz.
      destruct Hz as (A' & B' & C' & -> & PA & _). destruct Fz as (A2 & B2 & C2 & E & PA2 & _). apply app_inv_head in E.
      destruct (S2' t Ht) as (L1 & _), (S2' t2 Ht2) as (L2 & _). apply app_inj_len in E; [|apply Permutation_length in PA, PA2; lia]. destruct E as [-> _].
      f_equal. apply NI; auto. intros x Hx. eapply Permutation_in; [exact PA2|]. eapply Permutation_in; [apply Permutation_sym; exact PA|exact Hx].
  - intro w. rewrite in_flat_map. split.
    + intros (u & Hu & Hw). apply in_map_iff in Hu. destruct Hu as (t & <- & Ht). apply (HI t Ht) in Hw. destruct Hw as (A' & B' & C' & -> & PA & LB & PC).
      destruct (S2' t Ht) as (L1 & L2 & L3 & PP). exists A', B', C'. refine (conj eq_refl (conj _ (conj LB _))); [apply Permutation_length in PA; lia|].
      rewrite <- PP. apply Permutation_app; assumption.
    + intros (A' & B' & C' & -> & LA' & LB & PP). destruct (splits_complete (A ++ B ++ C) ND A' (B' ++ C') PP) as (p & Hp & P1 & P2).
      assert (Hq : In (fst p) (map (fun t => fst (fst t)) Ls)) by (rewrite S1, <- splits_combs; apply in_map; rewrite LA', LA in Hp; exact Hp).
      apply in_map_iff in Hq. destruct Hq as (t & Et & Ht). exists (lay3 P M1 M2 R t). split; [apply in_map; exact Ht|]. apply (HI t Ht).
      exists A', B', C'. rewrite Et. refine (conj eq_refl (conj (Permutation_sym P1) (conj LB _))).
      destruct (S2' t Ht) as (_ & _ & _ & Pt). rewrite Et in Pt. rewrite <- PP, <- P1 in Pt. apply Permutation_app_inv_l in Pt. symmetry. exact Pt.
Qed.
End Combine3.
