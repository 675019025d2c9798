(** * From one combination to all of them. *)

From Coq Require Import List Arith Bool Lia Permutation Sorted.
From Verif Require Import Base BaseFacts TopDown CombinationFacts SpecCombine SpecPermute Combine CombineFacts Permute PermuteFacts EnumerateFacts Combine3Facts ReversibleFacts NaturalFacts PropertiesCombine.
Import ListNotations.

(** the elements of [c] in the order given by [z] *)
Definition pick {A} (a : A) (c : list A) (z : list nat) : list A := map (fun i => nth i c a) z.

Lemma template (proc : forall T A : Type, (T -> list A -> outcome (bool * T * list A)) -> T -> list A -> outcome (bool * T * list A)) k n L :
  (forall T X Y (h : X -> Y) f fy, natural h f fy -> natural h (proc T X f) (proc T Y fy)) ->
  enumerates (fun T => proc T nat) (seq 0 n) L (seq 0 n) ->
  forall T A (a : A) (g : T -> list A -> outcome (bool * T)) st w, length w = n ->
  matches (proc T A (bound_range g 0 k) st w) (visit g (map (pick a w) (map (firstn k) L)) st) w.
Proof.
  intros HN HE T A a g st w Lw. pose proof (map_nth_all a w) as Ew. rewrite Lw in Ew. set (h := fun i => nth i w a) in *.
  pose proof (HE T (bound_range (fun st l => g st (map h l)) 0 k) (fun st u => g st (map h (firstn k u)))) as M.
  assert (HM : forall st u, length u = length (seq 0 n) -> matches (bound_range (fun st l => g st (map h l)) 0 k st u) (g st (map h (firstn k u))) u).
  { intros s u _. unfold bound_range. rewrite skipn_O. destruct (g s (map h (firstn k u))) as [[[|] s']| | |]; cbn [bind matches]; [eexists|..]; reflexivity. }
  specialize (M HM st).
  pose proof (HN T nat A h _ _ (bound_natural h g 0 k)) as NT.
  assert (EV : forall l s, visit (fun st u => g st (map h (firstn k u))) l s = visit (fun st x => g st (map h x)) (map (firstn k) l) s).
  { induction l as [|x l IH]; intro s; cbn [map visit]; [reflexivity|]. destruct (g s (map h (firstn k x))) as [[[|] s']| | |]; cbn [bind fst snd]; auto. }
  rewrite EV in M.
  pose proof (natural_matches h (fun g' => proc T nat (bound_range g' 0 k)) (proc T A (bound_range g 0 k)) g (seq 0 n) (map (firstn k) L) st NT M) as R.
  rewrite Ew in R. exact R.
Qed.

Lemma pick_app {A} (a : A) c r z : (forall i, In i z -> i < length c) -> pick a (c ++ r) z = pick a c z.
Proof. intro H. unfold pick. apply map_ext_in. intros i Hi. apply app_nth1, H, Hi. Qed.

Lemma pick_map {A} (a : A) h c z : (forall i, In i z -> i < length c) -> pick a (map h c) z = map h (pick 0 c z).
Proof.
  intro H. unfold pick. rewrite map_map. apply map_ext_in. intros i Hi. rewrite (nth_indep (map h c) a (h 0)) by (rewrite map_length; apply H, Hi). apply map_nth.
Qed.

(** the calls for all combinations of [k] of [n] positions *)
Definition spread (n k : nat) (Z : list (list nat)) : list (list nat) := flat_map (fun c => map (pick 0 c) Z) (combs k (seq 0 n)).

Lemma combine_template {T A} (a : A) (inner : T -> list A -> outcome (bool * T * list A)) g k n Z v st :
  (forall st w, length w = n -> matches (inner st w) (visit g (map (pick a w) Z) st) w) ->
  (forall z i, In z Z -> In i z -> i < k) -> length v = n -> k <= n ->
  matches (combine_discontinuous inner k 0 k (n - k) 0 st v) (visit g (map (map (fun i => nth i v a)) (spread n k Z)) st) v.
Proof.
  intros HI HZ Lv Hk.
  pose proof (combine_ok inner (fun st w => visit g (map (pick a w) Z) st) n HI [] (firstn k v) [] (skipn k v) [] st 0 k k (n - k)) as M.
  cbn [app length Nat.add] in M. rewrite firstn_length, skipn_length, app_nil_r, firstn_skipn, Nat.add_0_r in M. specialize (M eq_refl ltac:(lia) ltac:(lia) ltac:(lia) Lv).
  rewrite visit_nested in M. replace (min k (length v)) with k in M by lia.
  assert (EQ : flat_map (fun w => map (pick a w) Z) (map (layout [] [] []) (splits k v)) = map (map (fun i => nth i v a)) (spread n k Z)).
  { unfold spread. rewrite flat_map_concat_map, map_map. rewrite flat_map_concat_map, concat_map, map_map. f_equal.
    transitivity (map (fun c => map (pick a c) Z) (combs k v)).
    - rewrite <- splits_combs, map_map. apply map_ext_in. intros p Hp. apply map_ext_in. intros z Hz. unfold layout. cbn [app]. rewrite app_nil_r. apply pick_app. intros i Hi.
      destruct (splits_perm _ _ _ Hp) as [_ ->]. exact (HZ z i Hz Hi).
    - rewrite <- (map_nth_all a v) at 1. rewrite combs_map, map_map, Lv. apply map_ext_in. intros c Hc. rewrite map_map. apply map_ext_in. intros z Hz. apply pick_map. intros i Hi.
      apply combs_In in Hc; [|apply seq_sorted]. destruct Hc as (_ & -> & _). exact (HZ z i Hz Hi). }
  rewrite EQ in M. exact M.
Qed.

(** ** arrangements as pairs of a combination and a permutation *)
Lemma combs_arr n k c : In c (combs k (seq 0 n)) <-> StronglySorted lt c /\ length c = k /\ forall i, In i c -> i < n.
Proof.
  rewrite combs_In by apply seq_sorted. split; intros (H1 & H2 & H3); refine (conj H1 (conj H2 _)); intros i Hi; specialize (H3 i Hi); [apply in_seq in H3; lia|apply in_seq; lia].
Qed.

Lemma sorted_NoDup c : StronglySorted lt c -> NoDup c.
Proof. induction 1 as [|x c H IH HF]; constructor; auto. intro HI. rewrite Forall_forall in HF. specialize (HF x HI). lia. Qed.

Lemma sorted_unique c : StronglySorted lt c -> forall d, StronglySorted lt d -> Permutation c d -> c = d.
Proof.
  induction 1 as [|x c Hc IH HF]; intros d Hd P.
  - apply Permutation_nil in P. auto.
  - destruct d as [|y d]; [apply Permutation_sym, Permutation_nil in P; discriminate P|]. inversion Hd as [|? ? Hd' HG]; subst.
    rewrite Forall_forall in HF, HG. assert (x = y).
    { assert (Ix : In x (y :: d)) by (eapply Permutation_in; [exact P|left; reflexivity]). assert (Iy : In y (x :: c)) by (eapply Permutation_in; [apply Permutation_sym; exact P|left; reflexivity]).
      destruct Ix as [->|Ix]; auto. destruct Iy as [->|Iy]; auto. specialize (HF y Iy). specialize (HG x Ix). lia. }
    subst y. f_equal. apply IH; auto. apply Permutation_cons_inv in P. exact P.
Qed.

Lemma arr_sorted n k p : arrangement n k p -> exists c, In c (combs k (seq 0 n)) /\ Permutation p c.
Proof.
  intros (ND & LP & HP). set (c := filter (fun i => if in_dec Nat.eq_dec i p then true else false) (seq 0 n)).
  assert (PC : Permutation p c).
  { apply NoDup_Permutation; auto; [apply NoDup_filter, seq_NoDup|]. intro x. unfold c. rewrite filter_In, in_seq. destruct (in_dec Nat.eq_dec x p) as [H|H]; split; try tauto; [intros _; specialize (HP x H); split; [lia|reflexivity]|intros [_ F]; discriminate F]. }
  exists c. split; [|exact PC]. apply combs_arr. refine (conj _ (conj _ _)).
  - unfold c. clear. pose proof (seq_sorted n 0) as S. induction S as [|x l Hl IH HF]; cbn [filter]; [constructor|].
    destruct (in_dec Nat.eq_dec x p); [|exact IH]. constructor; auto. rewrite Forall_forall in *. intros y Hy. apply filter_In in Hy. apply HF, Hy.
  - apply Permutation_length in PC. lia.
  - intros i Hi. apply HP. eapply Permutation_in; [apply Permutation_sym; exact PC|exact Hi].
Qed.

Lemma pick_seq {A} (a : A) c : pick a c (seq 0 (length c)) = c.
Proof. apply map_nth_all. Qed.

Lemma pick_perm {A} (a : A) c z : Permutation z (seq 0 (length c)) -> Permutation (pick a c z) c.
Proof. intro P. rewrite <- (pick_seq a c) at 2. unfold pick. apply Permutation_map. exact P. Qed.

Lemma arr_pick n k p : arrangement n k p -> exists c z, In c (combs k (seq 0 n)) /\ Permutation z (seq 0 k) /\ p = pick 0 c z.
Proof.
  intro H. destruct (arr_sorted n k p H) as (c & Hc & PC). destruct (proj1 (combs_arr n k c) Hc) as (_ & LC & _). rewrite <- (pick_seq 0 c), LC in PC.
  apply Permutation_map_inv in PC. destruct PC as (z & Ez & Pz). exists c, z. auto using Permutation_sym.
Qed.

Lemma pick_arr n k c z : In c (combs k (seq 0 n)) -> Permutation z (seq 0 k) -> arrangement n k (pick 0 c z).
Proof.
  intros Hc Hz. apply combs_arr in Hc. destruct Hc as (Sc & Lc & Bc). pose proof Hz as Hz2. rewrite <- Lc in Hz2. pose proof (pick_perm 0 c z Hz2) as P.
  refine (conj _ (conj _ _)).
  - eapply Permutation_NoDup; [apply Permutation_sym; exact P|]. apply sorted_NoDup, Sc.
  - apply Permutation_length in P. lia.
  - intros i Hi. apply Bc. eapply Permutation_in; eauto.
Qed.

Lemma pick_inj n k c d z z' : In c (combs k (seq 0 n)) -> In d (combs k (seq 0 n)) -> Permutation z (seq 0 k) -> Permutation z' (seq 0 k) -> pick 0 c z = pick 0 d z' -> c = d /\ z = z'.
Proof.
  intros Hc Hd Hz Hz' E. apply combs_arr in Hc, Hd. destruct Hc as (Sc & Lc & Bc), Hd as (Sd & Ld & Bd).
  assert (EC : c = d).
  { apply sorted_unique; auto. transitivity (pick 0 c z); [apply Permutation_sym, pick_perm; rewrite Lc; exact Hz|]. rewrite E. apply pick_perm. rewrite Ld. exact Hz'. }
  subst d. split; auto. assert (B : forall u, Permutation u (seq 0 k) -> forall i, In i u -> i < k) by (intros u Hu i Hi; eapply Permutation_in in Hi; [|exact Hu]; apply in_seq in Hi; lia).
  pose proof (B z Hz) as Bz. pose proof (B z' Hz') as Bz'. unfold pick in E. clear -E Bz Bz' Sc Lc. apply sorted_NoDup in Sc. revert z' E Bz'. induction z as [|i z IH]; intros [|j z'] E Bz'; try discriminate E; auto.
  cbn [map] in E. injection E as E1 E2. f_equal; [|apply IH; auto; intros x Hx; [apply Bz|apply Bz']; right; exact Hx].
  apply (proj1 (NoDup_nth c 0) Sc i j); [rewrite Lc; apply Bz; left; reflexivity|rewrite Lc; apply Bz'; left; reflexivity|exact E1].
Qed.

Lemma spread_In n k Z c z : (forall z, In z Z -> Permutation z (seq 0 k)) -> In c (combs k (seq 0 n)) -> Permutation z (seq 0 k) -> In (pick 0 c z) (spread n k Z) <-> In z Z.
Proof.
  intros HZ Hc Hz. unfold spread. rewrite in_flat_map. split.
  - intros (d & Hd & Hi). apply in_map_iff in Hi. destruct Hi as (z' & E & Hz'). destruct (pick_inj n k d c z' z Hd Hc (HZ _ Hz') Hz E) as [_ ->]. exact Hz'.
  - intro H. exists c. split; [exact Hc|]. apply in_map. exact H.
Qed.

Lemma spread_arr n k Z p : (forall z, In z Z -> Permutation z (seq 0 k)) -> In p (spread n k Z) -> exists c z, In c (combs k (seq 0 n)) /\ In z Z /\ p = pick 0 c z.
Proof. intros HZ H. unfold spread in H. apply in_flat_map in H. destruct H as (c & Hc & Hi). apply in_map_iff in Hi. destruct Hi as (z & E & Hz). exists c, z. auto. Qed.

Lemma spread_NoDup n k Z : (forall z, In z Z -> Permutation z (seq 0 k)) -> NoDup Z -> NoDup (spread n k Z).
Proof.
  intros HZ ND. unfold spread. apply NoDup_flat_map.
  - apply combs_NoDup, seq_NoDup.
  - intros c Hc. apply NoDup_map_inj; auto. intros z z' Hz Hz' E. apply (pick_inj n k c c z z' Hc Hc (HZ _ Hz) (HZ _ Hz') E).
  - intros c d p Hc Hd H1 H2. apply in_map_iff in H1, H2. destruct H1 as (z & <- & Hz). destruct H2 as (z' & E & Hz').
    destruct (pick_inj n k d c z' z Hd Hc (HZ _ Hz') (HZ _ Hz) E) as [-> _]. reflexivity.
Qed.

Lemma spread_length n k Z : length (spread n k Z) = binomial n k * length Z.
Proof.
  unfold spread. assert (E : forall l : list (list nat), length (flat_map (fun c => map (pick 0 c) Z) l) = length l * length Z).
  { induction l as [|c l IH]; cbn [flat_map length]; [reflexivity|]. rewrite app_length, map_length, IH. reflexivity. }
  rewrite E. f_equal. rewrite <- (seq_length n 0) at 2. generalize (seq 0 n). intro l. revert k. induction l as [|x l IH]; intros [|k]; cbn [combs binomial length]; auto. rewrite app_length, map_length, !IH. reflexivity.
Qed.

Lemma pick_before c z z' : StronglySorted lt c -> (forall i, In i z -> i < length c) -> (forall i, In i z' -> i < length c) -> before z z' -> before (pick 0 c z) (pick 0 c z').
Proof.
  intros Sc B B' (q & x & y & p1 & p2 & -> & -> & Hxy). exists (pick 0 c q), (nth x c 0), (nth y c 0), (pick 0 c p1), (pick 0 c p2). unfold pick. rewrite !map_app. cbn [map]. refine (conj eq_refl (conj eq_refl _)).
  assert (Hy : y < length c) by (apply B'; apply in_or_app; right; left; reflexivity). clear -Sc Hxy Hy. revert x y Hxy Hy. induction Sc as [|a c Sc IH HF]; intros x y Hxy Hy; cbn [length] in Hy; [lia|].
  destruct x as [|x], y as [|y]; try lia; cbn [nth].
  - rewrite Forall_forall in HF. apply HF, nth_In. lia.
  - apply IH; lia.
Qed.

Lemma spread_ordered n k Z : (forall z, In z Z -> Permutation z (seq 0 k)) -> StronglySorted before Z -> StronglySorted earlier (spread n k Z).
Proof.
  intros HZ SZ. unfold spread. pose proof (combs_ordered _ (seq_sorted n 0) k) as SC.
  assert (HC : forall c, In c (combs k (seq 0 n)) -> In c (combs k (seq 0 n))) by auto. revert HC SC. generalize (combs k (seq 0 n)) at 1 3 4. intros l HC SC.
  assert (PP : forall c z, In c (combs k (seq 0 n)) -> In z Z -> StronglySorted lt c /\ Permutation (pick 0 c z) c /\ (forall i, In i z -> i < length c)).
  { intros c z Hc Hz. apply combs_arr in Hc. destruct Hc as (Sc & Lc & _). refine (conj Sc (conj _ _)); [apply pick_perm; rewrite Lc; auto|].
    intros i Hi. eapply Permutation_in in Hi; [|apply HZ, Hz]. apply in_seq in Hi. lia. }
  induction SC as [|c l Sl IH HF]; cbn [flat_map]; [constructor|]. apply StronglySorted_app. refine (conj _ (conj _ _)).
  - assert (Hc : In c (combs k (seq 0 n))) by (apply HC; left; reflexivity).
    assert (G : forall Z', StronglySorted before Z' -> (forall z, In z Z' -> In z Z) -> StronglySorted earlier (map (pick 0 c) Z')); [|apply G; auto].
    intros Z' SZ' HZ2. induction SZ' as [|z Z' SZ' IHZ HG]; cbn [map]; constructor.
    + apply IHZ. intros u Hu. apply HZ2. right. exact Hu.
    + apply Forall_forall. intros q Hq. apply in_map_iff in Hq. destruct Hq as (z' & <- & Hz'). destruct (PP c z Hc (HZ2 z (or_introl eq_refl))) as (Sc & P1 & B1). destruct (PP c z' Hc (HZ2 z' (or_intror Hz'))) as (_ & P2 & B2).
      exists c, c. refine (conj Sc (conj Sc (conj P1 (conj P2 (or_intror (conj eq_refl _)))))). apply pick_before; auto. rewrite Forall_forall in HG. apply HG, Hz'.
  - apply IH. intros d Hd. apply HC. right. exact Hd.
  - intros p q Hp Hq. apply in_map_iff in Hp. destruct Hp as (z & <- & Hz). apply in_flat_map in Hq. destruct Hq as (d & Hd & Hq). apply in_map_iff in Hq. destruct Hq as (z' & <- & Hz').
    destruct (PP c z (HC c (or_introl eq_refl)) Hz) as (Sc & P1 & _). destruct (PP d z' (HC d (or_intror Hd)) Hz') as (Sd & P2 & _).
    exists c, d. refine (conj Sc (conj Sd (conj P1 (conj P2 (or_introl _))))). rewrite Forall_forall in HF. apply HF, Hd.
Qed.
