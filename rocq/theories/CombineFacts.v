(** * Facts about [for_each_combination]. *)

From Coq Require Import List Arith Bool Lia Permutation.
From Verif Require Import Base BaseFacts TopDown CombinationFacts SpecCombine Combine.
Import ListNotations.

(** ** swaps and rotations *)
Lemma nth_error_mid {Elt} (P : list Elt) x R i : i = length P -> nth_error (P ++ x :: R) i = Some x.
Proof. intros ->. rewrite nth_error_app2, Nat.sub_diag by lia. reflexivity. Qed.

Lemma swap_app {Elt} (P : list Elt) x Q y R i j : i = length P -> j = length P + 1 + length Q ->
  swap_at i j (P ++ x :: Q ++ y :: R) = Ok (P ++ y :: Q ++ x :: R).
Proof.
  intros -> ->. unfold swap_at, get_. rewrite nth_error_mid by auto. cbn [bind].
  replace (P ++ x :: Q ++ y :: R) with ((P ++ x :: Q) ++ y :: R) at 1 by (rewrite <- app_assoc; reflexivity).
  rewrite nth_error_mid by (rewrite app_length; simpl; lia). cbn [bind]. rewrite upd_app.
  replace (P ++ y :: Q ++ y :: R) with ((P ++ y :: Q) ++ y :: R) by (rewrite <- app_assoc; reflexivity).
  replace (length P + 1 + length Q) with (length (P ++ y :: Q)) by (rewrite app_length; simpl; lia).
  rewrite upd_app, <- app_assoc. reflexivity.
Qed.

Lemma swap_ranges_ok {Elt} (X : list Elt) : forall Y P M R s a b, length X = length Y -> a + s = length P -> b + s = length P + length X + length M ->
  foldM (fun v i => swap_at (a + i) (b + i) v) (seq s (length X)) (P ++ X ++ M ++ Y ++ R) = Ok (P ++ Y ++ M ++ X ++ R).
Proof.
  induction X as [|x X IH]; intros [|y Y] P M R s a b L Ha Hb; simpl in L; try lia; [reflexivity|].
  cbn [length seq foldM app]. simpl in Hb.
  replace (P ++ x :: X ++ M ++ y :: Y ++ R) with (P ++ x :: (X ++ M) ++ y :: Y ++ R) by (rewrite <- app_assoc; reflexivity).
  rewrite swap_app by (rewrite ?app_length; lia). cbn [bind].
  replace (P ++ y :: (X ++ M) ++ x :: Y ++ R) with ((P ++ [y]) ++ X ++ (M ++ [x]) ++ Y ++ R) by (rewrite <- !app_assoc; reflexivity).
  rewrite IH by (rewrite ?app_length; simpl; lia). rewrite <- !app_assoc. reflexivity.
Qed.

Lemma swap_back_ok {Elt} (X : list Elt) : forall Y P M R s a b p q, length X = length Y -> a = p - s -> b = q - s -> s <= p -> s <= q ->
  p - s = length P + length X -> q - s = length P + length X + length M + length Y ->
  foldM (fun v i => swap_at (p - 1 - i) (q - 1 - i) v) (seq s (length X)) (P ++ X ++ M ++ Y ++ R) = Ok (P ++ Y ++ M ++ X ++ R).
Proof.
  induction X as [|x X IH] using rev_ind; intros Y P M R s a b p q L Ha Hb Hp Hq H1 H2.
  - destruct Y; simpl in L; try lia. reflexivity.
  - destruct Y as [|y Y _] using rev_ind; [rewrite app_length in L; simpl in L; lia|]. rewrite (app_length X), (app_length Y) in L, H2. rewrite (app_length X) in H1. simpl in L, H1, H2.
    rewrite app_length. simpl length. rewrite Nat.add_1_r. cbn [seq foldM].
    replace (P ++ (X ++ [x]) ++ M ++ (Y ++ [y]) ++ R) with ((P ++ X) ++ x :: (M ++ Y) ++ y :: R) by (rewrite <- !app_assoc; reflexivity).
    rewrite swap_app by (rewrite ?app_length; lia). cbn [bind].
    replace ((P ++ X) ++ y :: (M ++ Y) ++ x :: R) with (P ++ X ++ (y :: M) ++ Y ++ x :: R) by (rewrite <- !app_assoc; reflexivity).
    rewrite (IH Y P (y :: M) (x :: R) (S s) (p - S s) (q - S s) p q) by (simpl; lia). rewrite <- !app_assoc. reflexivity.
Qed.

Lemma foldM_ext_in {A B} (f g : A -> B -> outcome A) l : (forall a x, In x l -> f a x = g a x) -> forall a, foldM f l a = foldM g l a.
Proof.
  induction l as [|x l IH]; intros H a; [reflexivity|]. cbn [foldM]. rewrite H by (simpl; auto). destruct (g a x); cbn [bind]; auto.
  apply IH. intros; apply H; simpl; auto.
Qed.

Lemma rotate_disc {Elt} (P X M Y R : list Elt) a d1 b d2 : a = length P -> d1 = length X -> b = length P + length X + length M -> d2 = length Y ->
  rotate_discontinuous a d1 b d2 (P ++ X ++ M ++ Y ++ R) =
  Ok (P ++ firstn (length X) (Y ++ X) ++ M ++ skipn (length X) (Y ++ X) ++ R).
Proof.
  intros -> -> -> ->. unfold rotate_discontinuous. destruct (Nat.leb_spec (length X) (length Y)) as [H|H].
  - rewrite <- (firstn_skipn (length X) Y) at 1. rewrite <- (app_assoc (firstn _ Y)).
    assert (L : length X = length (firstn (length X) Y)) by (rewrite firstn_length; lia).
    rewrite (swap_ranges_ok X (firstn (length X) Y) P M (skipn (length X) Y ++ R)) by lia.
    cbn [bind]. f_equal.
    replace (P ++ firstn (length X) Y ++ M ++ X ++ skipn (length X) Y ++ R) with ((P ++ firstn (length X) Y ++ M) ++ X ++ skipn (length X) Y ++ R)
      by (rewrite <- !app_assoc; reflexivity).
    rewrite rotate_split by (rewrite ?app_length, ?skipn_length; lia).
    rewrite firstn_app, skipn_app. replace (length X - length Y) with 0 by lia. simpl. rewrite app_nil_r, <- !app_assoc. reflexivity.
  - assert (EX : X = firstn (length X - length Y) X ++ skipn (length X - length Y) X) by (symmetry; apply firstn_skipn).
    assert (L1 : length (firstn (length X - length Y) X) = length X - length Y) by (rewrite firstn_length; lia).
    assert (L2 : length (skipn (length X - length Y) X) = length Y) by (rewrite skipn_length; lia).
    set (X1 := firstn (length X - length Y) X) in *. set (X2 := skipn (length X - length Y) X) in *.
    rewrite (foldM_ext_in _ (fun v i => swap_at (length P + length X - 1 - i) (length P + length X + length M + length Y - 1 - i) v)).
    2:{ intros v i Hi. apply in_seq in Hi. f_equal; lia. }
    replace (P ++ X ++ M ++ Y ++ R) with (P ++ (X1 ++ X2) ++ M ++ Y ++ R) by (rewrite <- EX; reflexivity).
    replace (P ++ (X1 ++ X2) ++ M ++ Y ++ R) with ((P ++ X1) ++ X2 ++ M ++ Y ++ R) by (rewrite <- !app_assoc; reflexivity).
    replace (seq 0 (length Y)) with (seq 0 (length X2)) by (rewrite L2; reflexivity).
    assert (LX : length X1 + length X2 = length X) by lia.
    rewrite (swap_back_ok X2 Y (P ++ X1) M R 0 (length P + length X) (length P + length X + length M + length Y)) by (rewrite ?app_length; lia).
    cbn [bind]. f_equal.
    replace ((P ++ X1) ++ Y ++ M ++ X2 ++ R) with (P ++ X1 ++ Y ++ M ++ X2 ++ R) by (rewrite <- !app_assoc; reflexivity).
    rewrite rotate_split by lia.
    rewrite firstn_app, skipn_app. rewrite (firstn_all2 Y) by lia. rewrite (skipn_all2 Y) by lia. cbn [app].
    rewrite <- !app_assoc. reflexivity.
Qed.

(** ** the sequence of calls *)
Section Calls.
Context {T Elt : Type}.

Lemma visit_app (g : T -> list Elt -> outcome (bool * T)) l m : forall st, visit g (l ++ m) st = let* q := visit g l st in if fst q then Ok q else visit g m (snd q).
Proof.
  induction l as [|x l IH]; intro st; cbn [app visit bind]; [reflexivity|].
  destruct (g st x) as [[[|] s]|e| |]; cbn [bind fst snd]; auto.
Qed.

Lemma visit_one (g : T -> list Elt -> outcome (bool * T)) x st : visit g [x] st = g st x.
Proof. cbn [visit]. destruct (g st x) as [[[|] s]|e| |]; reflexivity. Qed.

Lemma visit_map (g : T -> list Elt -> outcome (bool * T)) (h : list Elt -> list Elt) l : forall st, visit g (map h l) st = visit (fun st x => g st (h x)) l st.
Proof. induction l as [|x l IH]; intro st; cbn [map visit]; [reflexivity|]. destruct (g st (h x)) as [[[|] s]|e| |]; cbn [bind fst snd]; auto. Qed.

Lemma matches_bind (r : outcome (bool * T * list Elt)) (q : outcome (bool * T)) fin g q2 fin2 : matches r q fin -> (forall s, matches (g s fin) (q2 s) fin2) ->
  matches (let* r := r in if fst (fst r) then Ok r else g (snd (fst r)) (snd r))
          (let* q := q in if fst q then Ok q else q2 (snd q)) fin2.
Proof.
  unfold matches at 1. intros H H2. destruct q as [[[|] s]|e| |]; cbn [bind fst snd].
  - destruct H as [v ->]. cbn [bind fst snd]. exists v. reflexivity.
  - rewrite H. cbn [bind fst snd]. apply H2.
  - rewrite H. reflexivity.
  - rewrite H. reflexivity.
  - rewrite H. reflexivity.
Qed.

(** the combinations of [k] elements of [l], in lexicographic order of the
    positions, with the remaining elements *)
Fixpoint splits (k : nat) (l : list Elt) : list (list Elt * list Elt) :=
  match k, l with
  | 0, _ => [([], l)]
  | S _, [] => []
  | S k', x :: r => map (fun p => (x :: fst p, snd p)) (splits k' r) ++ map (fun p => (fst p, x :: snd p)) (splits k r)
  end.

Lemma splits_combs k : forall l, map fst (splits k l) = combs k l.
Proof.
  induction k as [|k IHk]; intro l; [destruct l; reflexivity|]. induction l as [|x l IHl]; [reflexivity|].
  cbn [splits combs]. rewrite map_app, !map_map. cbn [fst]. rewrite <- IHk, <- IHl, map_map. reflexivity.
Qed.

Lemma splits_large k l : length l < k -> splits k l = [].
Proof. revert k. induction l as [|x l IH]; intros [|k] H; simpl in H; try lia; [reflexivity|]. cbn [splits]. rewrite !IH by lia. reflexivity. Qed.

Lemma splits_all l : splits (length l) l = [(l, [])].
Proof. induction l as [|x l IH]; [reflexivity|]. cbn [length splits]. rewrite IH, splits_large by lia. reflexivity. Qed.

Lemma splits_perm k : forall l p, In p (splits k l) -> Permutation (fst p ++ snd p) l /\ length (fst p) = k.
Proof.
  induction k as [|k IHk]; intros l p H; [destruct l; destruct H as [<-|[]]; auto|]. revert p H. induction l as [|x l IHl]; intros p H; [destruct H|].
  cbn [splits] in H. apply in_app_or in H. destruct H as [H|H]; apply in_map_iff in H; destruct H as (q & <- & Hq); cbn [fst snd].
  - destruct (IHk l q Hq) as [P L]. simpl. split; [constructor; exact P|lia].
  - destruct (IHl q Hq) as [P L]. split; [|exact L]. symmetry. transitivity (x :: fst q ++ snd q); [constructor; symmetry; exact P|apply Permutation_middle].
Qed.

Lemma splits_split k (x : Elt) A B : length A = k -> splits (S k) (x :: A ++ B) =
  (match B with [] => [] | _ => map (fun p => (x :: fst p, snd p)) (splits k (A ++ B)) ++ map (fun p => (fst p, x :: snd p)) (removelast (splits (S k) (A ++ B))) end)
  ++ [(skipn (length B) (x :: A ++ B), firstn (length B) (x :: A ++ B))].
Proof.
  intro L. destruct B as [|b B].
  - cbn [app length skipn firstn]. rewrite app_nil_r. cbn [splits]. rewrite (splits_large (S k)) by lia. cbn [map]. rewrite app_nil_r.
    rewrite <- L, splits_all. reflexivity.
  - cbn [splits]. rewrite <- app_assoc. f_equal.
    assert (G : forall l n, n <= length l -> splits n l <> [] /\ last (splits n l) ([], []) = (skipn (length l - n) l, firstn (length l - n) l)).
    { induction l as [|y l IH]; intros n Hn.
      - simpl in Hn. replace n with 0 by lia. simpl. split; [discriminate|reflexivity].
      - destruct n as [|n].
        + cbn [splits]. split; [discriminate|]. cbn [length last]. rewrite Nat.sub_0_r. rewrite skipn_all2, firstn_all2 by (simpl; lia). reflexivity.
        + simpl in Hn. cbn [splits length]. destruct (Nat.eq_dec n (length l)) as [->|Hne].
          * rewrite (splits_large (S (length l))) by lia. cbn [map]. rewrite app_nil_r, Nat.sub_diag. cbn [skipn firstn].
            rewrite splits_all. split; [discriminate|reflexivity].
          * destruct (IH (S n) ltac:(lia)) as [N1 N2]. split.
            { intro F. apply app_eq_nil in F. destruct F as [_ F]. apply map_eq_nil in F. tauto. }
            replace (S (length l) - S n) with (S (length l - S n)) by lia. cbn [skipn firstn].
            destruct (exists_last N1) as (Z & z & EZ). rewrite EZ in *. rewrite last_last in N2. subst z.
            rewrite map_app. cbn [map fst snd]. rewrite app_assoc. apply last_last. }
    destruct (G (A ++ b :: B) (S k)) as [N1 N2]; [rewrite app_length; simpl; lia|].
    destruct (exists_last N1) as (Z & z & EZ). rewrite EZ in *. rewrite last_last in N2. subst z. rewrite removelast_last, map_app. cbn [map fst snd].
    f_equal. f_equal. rewrite app_length. cbn [length skipn firstn]. replace (length A + S (length B) - S k) with (length B) by lia. reflexivity.
Qed.

Lemma firstn_len {X} n (l m : list X) : n = length l -> firstn n (l ++ m) = l.
Proof. intros ->. rewrite firstn_app, Nat.sub_diag, firstn_all. simpl. apply app_nil_r. Qed.

Lemma skipn_len {X} n (l m : list X) : n = length l -> skipn n (l ++ m) = m.
Proof. intros ->. rewrite skipn_app, Nat.sub_diag, skipn_all. reflexivity. Qed.

Variable f : T -> list Elt -> outcome (bool * T * list Elt).
Variable g : T -> list Elt -> outcome (bool * T).
Variable sz : nat.
Hypothesis Hf : forall st v, length v = sz -> matches (f st v) (g st v) v.

Definition final (d k : nat) (pre A M B R : list Elt) : list Elt :=
  if d =? 0 then pre ++ A ++ M ++ B ++ R
  else pre ++ firstn k (tl (A ++ B)) ++ M ++ firstn 1 (A ++ B) ++ skipn k (tl (A ++ B)) ++ R.

Definition layout (pre M R : list Elt) (p : list Elt * list Elt) : list Elt := pre ++ fst p ++ M ++ snd p ++ R.

(** one level of the recursion *)
Lemma combine_level d1 pre R d :
  (forall x A M B st i2, length A = d1 -> B <> [] -> length pre + 1 + d1 + length M + length B + length R = sz -> i2 = length pre + 1 + d1 + length M ->
     matches (if d1 =? 0 then f st ((pre ++ [x]) ++ A ++ M ++ B ++ R)
              else combine_discontinuous f d1 (length pre + 1) i2 (length B) (d + 1) st ((pre ++ [x]) ++ A ++ M ++ B ++ R))
             (visit g (map (layout (pre ++ [x]) M R) (splits d1 (A ++ B))) st)
             (final 1 d1 (pre ++ [x]) A M B R)) ->
  forall A M B st first2, length A = S d1 -> B <> [] -> length pre + length A + length M + length B + length R = sz -> first2 = length pre + length A + length M ->
  matches (combine_discontinuous f (S d1) (length pre) first2 (length B) d st (pre ++ A ++ M ++ B ++ R))
          (visit g (map (layout pre M R) (splits (S d1) (A ++ B))) st)
          (final d (S d1) pre A M B R).
Proof.
  intros Hsub A M B st first2 LA HB HK Hf2. destruct A as [|x A]; [discriminate LA|]. simpl in LA; injection LA as LA. simpl in HK, Hf2.
  cbn [combine_discontinuous]. destruct (Nat.eqb_spec (length B) 0) as [E|_]; [destruct B; [easy|discriminate E]|].
  match goal with |- matches (bind (?L (length B) first2 st _) _) _ _ => set (loop := L) end.
  assert (Hloop : forall B2 B1 x A st i2, length A = d1 -> length pre + 1 + d1 + length M + length B1 + length B2 + length R = sz -> i2 = length pre + 1 + d1 + length M + length B1 ->
    matches (loop (length B2) i2 st (pre ++ (x :: A) ++ M ++ B1 ++ B2 ++ R))
            (visit g (map (layout pre (M ++ B1) R) (match B2 with [] => [] | _ => map (fun p => (x :: fst p, snd p)) (splits d1 (A ++ B2)) ++ map (fun p => (fst p, x :: snd p)) (removelast (splits (S d1) (A ++ B2))) end)) st)
            (pre ++ skipn (length B2) (x :: A ++ B2) ++ M ++ B1 ++ firstn (length B2) (x :: A ++ B2) ++ R)).
  { intro B2. remember (length B2) as m eqn:Em. revert B2 Em. clear -Hsub HK LA. induction m as [|m IHm]; intros B2 Em B1 x' A' st i2 LA' HN Hi2.
    - destruct B2; [|discriminate Em]. cbn [visit matches skipn firstn map]. unfold loop. rewrite !app_nil_r. reflexivity.
    - destruct B2 as [|b B2]; [discriminate Em|]. simpl in Em. injection Em as Em.
      change (loop (S m) i2 st (pre ++ (x' :: A') ++ M ++ B1 ++ (b :: B2) ++ R)) with
        (let* r := (if d1 =? 0 then f st (pre ++ (x' :: A') ++ M ++ B1 ++ (b :: B2) ++ R)
                  else combine_discontinuous f d1 (length pre + 1) i2 (S m) (d + 1) st (pre ++ (x' :: A') ++ M ++ B1 ++ (b :: B2) ++ R)) in
         if fst (fst r) then Ok r else let* v := swap_at (length pre) i2 (snd r) in loop m (i2 + 1) (snd (fst r)) v).
      rewrite map_app, visit_app, map_map.
      specialize (Hsub x' A' (M ++ B1) (b :: B2) st i2 LA' ltac:(discriminate) ltac:(rewrite app_length; simpl; lia) ltac:(rewrite app_length; lia)).
      replace ((pre ++ [x']) ++ A' ++ (M ++ B1) ++ (b :: B2) ++ R) with (pre ++ (x' :: A') ++ M ++ B1 ++ (b :: B2) ++ R) in Hsub by (rewrite <- !app_assoc; reflexivity).
      replace (length (b :: B2)) with (S m) in Hsub by (simpl; lia).
      assert (EV : map (layout (pre ++ [x']) (M ++ B1) R) (splits d1 (A' ++ b :: B2)) = map (fun p => layout pre (M ++ B1) R (x' :: fst p, snd p)) (splits d1 (A' ++ b :: B2))).
      { apply map_ext. intro p. unfold layout. cbn [fst snd]. rewrite <- !app_assoc. reflexivity. }
      rewrite EV in Hsub.
      refine (matches_bind _ _ _ (fun s v => let* v := swap_at (length pre) i2 v in loop m (i2 + 1) s v) (fun s => visit _ _ s) _ Hsub _).
      intro s. unfold final. cbn [Nat.eqb].
      destruct (A' ++ b :: B2) as [|y r] eqn:Er; [apply app_eq_nil in Er; destruct Er; discriminate|].
      assert (Lr : length r = d1 + m).
      { apply (f_equal (@length Elt)) in Er. rewrite app_length in Er. simpl in Er. lia. }
      cbn [tl firstn]. rewrite <- !app_assoc. cbn [app].
      replace (pre ++ x' :: firstn d1 r ++ M ++ B1 ++ y :: skipn d1 r ++ R) with (pre ++ x' :: (firstn d1 r ++ M ++ B1) ++ y :: skipn d1 r ++ R) by (rewrite <- !app_assoc; reflexivity).
      rewrite swap_app by (rewrite ?app_length, ?firstn_length; lia). cbn [bind].
      assert (L1 : length (firstn d1 r) = d1) by (rewrite firstn_length; lia).
      assert (L2 : m = length (skipn d1 r)) by (rewrite skipn_length; lia).
      specialize (IHm (skipn d1 r) L2 (B1 ++ [x']) y (firstn d1 r) s (i2 + 1) L1 ltac:(rewrite app_length; simpl in *; lia) ltac:(rewrite app_length; simpl; lia)).
      rewrite firstn_skipn in IHm.
      replace (pre ++ (y :: firstn d1 r) ++ M ++ (B1 ++ [x']) ++ skipn d1 r ++ R) with (pre ++ y :: (firstn d1 r ++ M ++ B1) ++ x' :: skipn d1 r ++ R) in IHm by (cbn [app]; rewrite <- !app_assoc; reflexivity).
      pose proof (splits_split d1 y (firstn d1 r) (skipn d1 r) L1) as CS. rewrite firstn_skipn in CS. rewrite CS, removelast_last. rewrite <- (app_assoc B1 [x']) in IHm.
      match type of IHm with context [visit g (map _ ?LL) s] => set (rest := LL) in * end.
      assert (EW : map (layout pre (M ++ B1) R) (map (fun p => (fst p, x' :: snd p)) rest) = map (layout pre (M ++ B1 ++ [x']) R) rest).
      { rewrite map_map. apply map_ext. intro p. unfold layout. cbn [fst snd]. rewrite <- !app_assoc. reflexivity. }
      rewrite EW. exact IHm. }
  specialize (Hloop B [] x A st first2 LA ltac:(simpl; lia) ltac:(simpl; lia)). rewrite app_nil_r in Hloop. cbn [app] in Hloop. cbn [app].
  pose proof (splits_split d1 x A B LA) as CS. cbn [app] in *. rewrite CS, map_app, visit_app.
  refine (matches_bind _ _ _ (fun s v => let* r := f s v in if fst (fst r) then Ok r else
     let* v := (if d =? 0 then rotate_discontinuous (length pre) (S d1) first2 (length B) (snd r) else rotate_discontinuous (length pre) (S d1) (first2 + 1) (length B - 1) (snd r)) in
     Ok (false, snd (fst r), v)) (fun s => visit _ _ s) _ Hloop _).
  intro s. cbn [map]. rewrite visit_one. unfold layout at 1. cbn [fst snd].
  set (Y := x :: A ++ B). assert (LY : length Y = S d1 + length B) by (unfold Y; simpl; rewrite app_length; lia).
  assert (LK : length (skipn (length B) Y) = S d1) by (rewrite skipn_length; lia).
  assert (LF : length (firstn (length B) Y) = length B) by (rewrite firstn_length; lia).
  set (V := pre ++ skipn (length B) Y ++ M ++ firstn (length B) Y ++ R).
  assert (LV : length V = sz) by (unfold V; rewrite !app_length, LK, LF; lia).
  pose proof (Hf s V LV) as HV. unfold matches in HV |- *. destruct (g s V) as [[[|] s1]|e| |]; [destruct HV as [w HV]| | | |]; rewrite HV; cbn [bind fst snd]; auto; [eexists; reflexivity|].
  unfold final, V. destruct (Nat.eqb_spec d 0) as [->|Hd].
  - rewrite (rotate_disc pre (skipn (length B) Y) M (firstn (length B) Y) R (length pre) (S d1) first2 (length B)) by lia. cbn [bind]. rewrite LK, firstn_skipn. unfold Y.
    replace (x :: A ++ B) with ((x :: A) ++ B) by reflexivity. rewrite firstn_len, skipn_len by (simpl; lia). reflexivity.
  - destruct B as [|b B]; [easy|]. unfold Y in *. cbn [length skipn firstn] in *. replace (S (length B) - 1) with (length B) by lia.
    pose proof (rotate_disc pre (skipn (length B) (A ++ b :: B)) (M ++ [x]) (firstn (length B) (A ++ b :: B)) R (length pre) (S d1) (first2 + 1) (length B)) as RD.
    rewrite <- !app_assoc in RD. cbn [app] in RD.
    simpl in LF. cbn [app]. rewrite RD by (rewrite ?app_length; simpl; lia). cbn [bind]. rewrite LK, firstn_skipn. cbn [tl app]. reflexivity.
Qed.

Lemma combine_spec R : forall d1 pre d A M B st first2,
  length A = S d1 -> B <> [] -> length pre + length A + length M + length B + length R = sz -> first2 = length pre + length A + length M ->
  matches (combine_discontinuous f (S d1) (length pre) first2 (length B) d st (pre ++ A ++ M ++ B ++ R))
          (visit g (map (layout pre M R) (splits (S d1) (A ++ B))) st)
          (final d (S d1) pre A M B R).
Proof.
  induction d1 as [|d1 IH]; intros pre d; apply combine_level; intros x A M B st i2 LA HB HK Hi2.
  - destruct A; [|discriminate LA]. replace (splits 0 ([] ++ B)) with [(@nil Elt, B)] by (destruct B; reflexivity). cbn [Nat.eqb map]. rewrite visit_one. unfold layout. cbn [app fst snd].
    assert (E : final 1 0 (pre ++ [x]) [] M B R = (pre ++ [x]) ++ M ++ B ++ R).
    { unfold final. cbn [Nat.eqb app]. destruct B as [|b B]; [easy|]. reflexivity. }
    rewrite E. apply Hf. rewrite !app_length. simpl. lia.
  - cbn [Nat.eqb]. replace (length pre + 1) with (length (pre ++ [x])) by (rewrite app_length; reflexivity).
    specialize (IH (pre ++ [x]) (d + 1) A M B st i2 LA HB ltac:(rewrite app_length; simpl; lia) ltac:(rewrite app_length; simpl; lia)).
    unfold final in *. destruct (Nat.eqb_spec (d + 1) 0); [lia|]. exact IH.
Qed.

(** the call of [combine_discontinuous] for two ranges [A] and [B] *)
Lemma combine_ok pre A M B R st first1 first2 d1 d2 :
  first1 = length pre -> d1 = length A -> first2 = length pre + length A + length M -> d2 = length B ->
  length (pre ++ A ++ M ++ B ++ R) = sz ->
  matches (combine_discontinuous f d1 first1 first2 d2 0 st (pre ++ A ++ M ++ B ++ R))
          (visit g (map (layout pre M R) (splits (length A) (A ++ B))) st)
          (pre ++ A ++ M ++ B ++ R).
Proof.
  intros -> -> -> -> L. destruct A as [|x A].
  - cbn [length combine_discontinuous]. replace (splits 0 ([] ++ B)) with [(@nil Elt, B)] by (destruct B; reflexivity). cbn [map]. rewrite visit_one. apply Hf, L.
  - destruct B as [|b B].
    + cbn [length combine_discontinuous Nat.eqb]. rewrite app_nil_r. change (S (length A)) with (length (x :: A)). rewrite splits_all. cbn [map]. rewrite visit_one. apply Hf, L.
    + rewrite !app_length in L. exact (combine_spec R (length A) pre 0 (x :: A) M (b :: B) st _ eq_refl ltac:(discriminate) ltac:(lia) eq_refl).
Qed.
End Calls.

Lemma visit_ext {T Elt} (g h : T -> list Elt -> outcome (bool * T)) l : (forall st x, In x l -> g st x = h st x) -> forall st, visit g l st = visit h l st.
Proof.
  induction l as [|x l IH]; intros H st; cbn [visit]; [reflexivity|]. rewrite (H st x) by (left; reflexivity).
  destruct (h st x) as [[[|] s]|e| |]; cbn [bind fst snd]; auto. apply IH. intros. apply H. right. assumption.
Qed.

Lemma for_each_ok {T Elt} (g : T -> list Elt -> outcome (bool * T)) k v st : k <= length v ->
  matches (for_each_combination g k st v) (visit g (combs k v) st) v.
Proof.
  intro Hk. unfold for_each_combination. destruct (Nat.ltb_spec (length v) k); [lia|].
  assert (LA : length (firstn k v) = k) by (rewrite firstn_length; lia).
  assert (LB : length (skipn k v) = length v - k) by apply skipn_length.
  assert (HF : forall st w, length w = length v -> matches (bound_range g 0 k st w) (g st (firstn k w)) w).
  { intros s w _. unfold bound_range. cbn [skipn]. destruct (g s (firstn k w)) as [[[|] s1]|e| |]; cbn [bind matches]; auto. eexists; reflexivity. }
  pose proof (combine_ok (bound_range g 0 k) (fun st w => g st (firstn k w)) (length v) HF [] (firstn k v) [] (skipn k v) [] st 0 k k (length v - k)) as HC.
  cbn [app length] in HC. rewrite app_nil_r, firstn_skipn, LA, Nat.add_0_r in HC. specialize (HC eq_refl eq_refl eq_refl (eq_sym LB) eq_refl).
  rewrite <- splits_combs.
  assert (E : forall l, (forall p, In p l -> length (fst p) = k) -> visit (fun st w => g st (firstn k w)) (map (layout [] [] []) l) st = visit g (map fst l) st).
  { clear. intro l. revert st. induction l as [|p l IH]; intros st H; cbn [map visit]; [reflexivity|]. unfold layout at 1. cbn [app].
    rewrite firstn_len by (symmetry; apply H; left; reflexivity). destruct (g st (fst p)) as [[[|] s]|e| |]; cbn [bind fst snd]; auto. apply IH. intros. apply H. right. assumption. }
  rewrite <- E; [exact HC|]. intros p Hp. apply (splits_perm k v p Hp).
Qed.
