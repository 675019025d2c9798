(** * Descriptors of point clouds: distance to a measure, lens depth, correlation integrals. *)
From Coq Require Import List Arith Bool ZArith QArith Lia Permutation Sorted.
From Verif Require Import Base BaseFacts FloydFacts EnumerateFacts BarycentricFacts SymmetricMatrix PropertiesSmall VietorisRips PropertiesVietorisRips
  PropertiesWitness SpecCurvature Curvature PropertiesCurvature Statistics Descriptors.
Import ListNotations.
Local Open Scope nat_scope.

Lemma firstn_S_nth {A} i (l : list A) x : nth_error l i = Some x -> firstn (S i) l = firstn i l ++ [x].
Proof. revert i. induction l as [|a l IH]; intros [|i] H; try discriminate; cbn in *; [injection H as ->; reflexivity|]. rewrite <- (IH i H). reflexivity. Qed.

Lemma nth_error_seq n q k : nth_error (seq 0 n) q = Some k -> q < n /\ k = q.
Proof.
  intro H. assert (L : q < n) by (rewrite <- (seq_length n 0); apply nth_error_Some; congruence). split; [exact L|]. rewrite (nth_error_nth' _ 0) in H by (rewrite seq_length; exact L). rewrite seq_nth in H by exact L. injection H as <-. reflexivity.
Qed.

(** ** pairs of indices *)
Definition pairs (n : nat) : list (nat * nat) := flat_map (fun i => map (pair i) (seq (i + 1) (n - (i + 1)))) (seq 0 n).

Lemma In_pairs n i j : In (i, j) (pairs n) <-> i < j < n.
Proof.
  unfold pairs. rewrite in_flat_map. split.
  - intros (a & Ha & H). apply in_map_iff in H. destruct H as (b & E & Hb). injection E as -> ->. apply in_seq in Ha. apply in_seq in Hb. lia.
  - intro H. exists i. split; [apply in_seq; lia|]. apply in_map_iff. exists j. split; [reflexivity|]. apply in_seq. lia.
Qed.
Lemma NoDup_pairs n : NoDup (pairs n).
Proof.
  unfold pairs. apply NoDup_flat_map.
  - apply seq_NoDup.
  - intros i _. apply NoDup_map_inj; [apply seq_NoDup|]. intros x y _ _ E. injection E as ->. reflexivity.
  - intros x y z _ _ Hx Hy. apply in_map_iff in Hx. apply in_map_iff in Hy. destruct Hx as (a & <- & _). destruct Hy as (b & E & _). injection E as -> _. reflexivity.
Qed.
Lemma length_pairs n : 2 * length (pairs n) = n * (n - 1).
Proof.
  unfold pairs. assert (G : forall m, m <= n -> 2 * length (flat_map (fun i => map (pair i) (seq (i + 1) (n - (i + 1)))) (seq 0 m)) + m * (m + 1) = 2 * n * m).
  { induction m as [|m IH]; intro Hm; [simpl; lia|]. rewrite seq_S, flat_map_app, app_length. cbn [flat_map Nat.add]. rewrite app_nil_r, map_length, seq_length. specialize (IH ltac:(lia)). nia. }
  specialize (G n (le_n n)). destruct n; [reflexivity|]. replace (S n - 1) with n by lia. nia.
Qed.

Lemma foldM_nested {A B C} (f : A -> C -> B -> outcome C) (g : A -> list B) l : forall s,
  foldM (fun s i => foldM (f i) (g i) s) l s = foldM (fun s p => f (fst p) s (snd p)) (flat_map (fun i => map (pair i) (g i)) l) s.
Proof.
  induction l as [|a l IH]; intro s; cbn [foldM flat_map]; [reflexivity|]. rewrite foldM_app. assert (E : forall k s, foldM (fun s p => f (fst p) s (snd p)) (map (pair a) k) s = foldM (f a) k s).
  { induction k as [|b k IHk]; intro s'; cbn [map foldM fst snd]; [reflexivity|]. destruct (f a s' b); cbn [bind]; auto. }
  rewrite E. destruct (foldM (f a) (g a) s); cbn [bind]; auto.
Qed.
Lemma fold_nested {A B C} (f : A -> C -> B -> C) (g : A -> list B) l : forall s,
  fold_left (fun s i => fold_left (f i) (g i) s) l s = fold_left (fun s p => f (fst p) s (snd p)) (flat_map (fun i => map (pair i) (g i)) l) s.
Proof.
  induction l as [|a l IH]; intro s; cbn [fold_left flat_map]; [reflexivity|]. rewrite fold_left_app. assert (E : forall k s, fold_left (fun s p => f (fst p) s (snd p)) (map (pair a) k) s = fold_left (f a) k s).
  { induction k as [|b k IHk]; intro s'; cbn [map fold_left fst snd]; [reflexivity|]. apply IHk. }
  rewrite E. apply IH.
Qed.

(** ** C109: the distance to a measure *)
Definition sumZl (f : nat -> Z) (l : list nat) : Z := fold_right Z.add 0%Z (map f l).
Lemma sumZl_cons f x l : sumZl f (x :: l) = (f x + sumZl f l)%Z. Proof. reflexivity. Qed.
Lemma sumZl_perm f l m : Permutation l m -> sumZl f l = sumZl f m.
Proof. induction 1; rewrite ?sumZl_cons in *; try lia; reflexivity. Qed.
Lemma sumZl_minus f t l : sumZl (fun j => f j - t)%Z l = (sumZl f l - Z.of_nat (length l) * t)%Z.
Proof. induction l as [|a l IH]; [reflexivity|]. rewrite !sumZl_cons, IH. cbn [length]. lia. Qed.

Lemma nearest_minimal (f : nat -> Z) (t : nat -> Prop) row : (forall j, In j row -> (f j <= 0)%Z) -> (forall l, t l -> ~ In l row -> (0 <= f l)%Z) -> NoDup row ->
  forall s, NoDup s -> (forall l, In l s -> t l) -> (sumZl f row <= sumZl f s)%Z.
Proof.
  revert t. induction row as [|a row IH]; intros t H1 H2 N s Ns Hs.
  - change (sumZl f []) with 0%Z. clear Ns N. induction s as [|x s IHs]; [unfold sumZl; simpl; lia|]. rewrite sumZl_cons. pose proof (H2 x (Hs x (or_introl eq_refl)) (fun F => F)). assert (0 <= sumZl f s)%Z by (apply IHs; intros; apply Hs; simpl; auto). lia.
  - inversion N as [|? ? Ha Nr]; subst. rewrite sumZl_cons. destruct (in_dec Nat.eq_dec a s) as [Ia|Na].
    + apply in_split in Ia. destruct Ia as (s1 & s2 & ->). rewrite (sumZl_perm f (s1 ++ a :: s2) (a :: s1 ++ s2)) by (symmetry; apply Permutation_middle). rewrite sumZl_cons.
      apply NoDup_remove in Ns. destruct Ns as [Ns Nin]. assert (sumZl f row <= sumZl f (s1 ++ s2))%Z; [|lia].
      apply (IH (fun l => t l /\ l <> a)); auto; [intros; apply H1; simpl; auto|intros l [Ht Hl] Hn; apply H2; [exact Ht|]; simpl; intros [E|E]; [congruence|contradiction]|].
      intros l Hl. split; [apply Hs; rewrite in_app_iff in *; simpl; tauto|]. intros ->. contradiction.
    + pose proof (H1 a (or_introl eq_refl)). assert (sumZl f row <= sumZl f s)%Z; [|lia].
      apply (IH (fun l => t l /\ l <> a)); auto; [intros; apply H1; simpl; auto|intros l [Ht Hl] Hn; apply H2; [exact Ht|]; simpl; intros [E|E]; [congruence|contradiction]|].
      intros l Hl. split; [auto|]. intros ->. contradiction.
Qed.

Lemma last_bound (d : nat -> Z) row : StronglySorted (fun a b => (d a <= d b)%Z) row -> row <> [] -> exists x, In x row /\ forall j, In j row -> (d j <= d x)%Z.
Proof.
  intros HS Hne. induction HS as [|a l HS IH HF]; [contradiction|]. destruct l as [|b l].
  - exists a. split; [simpl; auto|]. intros j [<-|[]]. lia.
  - destruct (IH ltac:(discriminate)) as (x & Hx & Hb). exists x. split; [right; exact Hx|]. intros j [<-|Hj]; [rewrite Forall_forall in HF; apply HF; exact Hx|apply Hb; exact Hj].
Qed.

Lemma kahanQ_allZ l : (kahanQ_all (map inject_Z l) == inject_Z (fold_right Z.add 0%Z l))%Q.
Proof.
  unfold kahanQ_all. rewrite kahanQ_exact by reflexivity. rewrite sumQ_map. induction l as [|a l IH]; [reflexivity|]. rewrite sumQ_cons. cbn [fold_right]. rewrite inject_Z_plus. rewrite <- IH. ring.
Qed.

(** The density at a point is the negative sum of the distances to some [k] points, which
    have the smallest sum of all [k] points, divided by the number of points. *)
Theorem C109_measure : forall n dist k, k <= n -> exists densities, distanceToMeasure n dist k = Ok densities /\ length densities = n /\
  forall i, i < n -> exists density row, nth_error densities i = Some density /\ NoDup row /\ length row = k /\ (forall j, In j row -> j < n) /\
    (density == - inject_Z (fold_right Z.add 0%Z (map (dist i) row)) / inject_Z (Z.of_nat n))%Q /\
    forall s, NoDup s -> length s = k -> (forall j, In j s -> j < n) -> (fold_right Z.add 0 (map (dist i) row) <= fold_right Z.add 0 (map (dist i) s))%Z.
Proof.
  intros n dist k Hk. destruct (C72_nearest n dist k Hk) as (indices & distances & E & _ & Ld & H). unfold distanceToMeasure. rewrite E. cbn [bind snd].
  set (g := fun i => ((- kahanQ_all (map inject_Z (nth i distances []))) / inject_Z (Z.of_nat n))%Q).
  assert (F : forall l, (forall i, In i l -> i < n) -> forall acc, foldM (fun densities i => let* row := get_ distances i in let density := kahanQ_all (map inject_Z row) in let density0 := (- density)%Q in Ok (densities ++ [(density0 / inject_Z (Z.of_nat n))%Q])) l acc = Ok (acc ++ map g l)).
  { induction l as [|i l IH]; intros Hl acc; cbn [foldM map]; [rewrite app_nil_r; reflexivity|]. assert (Hi : i < length distances) by (rewrite Ld; apply Hl; simpl; auto). rewrite (proj2 (get_ok _ _ _) (nth_error_nth' distances [] Hi)). cbn [bind].
    rewrite IH by (intros; apply Hl; simpl; auto). rewrite <- app_assoc. reflexivity. }
  exists (map g (seq 0 n)). refine (conj _ (conj _ _)).
  - rewrite (F (seq 0 n)) by (intros i Hi; apply in_seq in Hi; lia). reflexivity.
  - rewrite map_length, seq_length. reflexivity.
  - intros i Hi. destruct (H i Hi) as (row & _ & E2 & Lr & Nr & Hr & Sr & Mr). exists (g i), row. refine (conj _ (conj Nr (conj Lr (conj Hr (conj _ _))))).
    + rewrite nth_error_map, (nth_error_nth' _ 0) by (rewrite seq_length; exact Hi). rewrite seq_nth by exact Hi. reflexivity.
    + unfold g. rewrite (nth_error_nth distances i [] E2). rewrite kahanQ_allZ. reflexivity.
    + intros s Ns Ls Hs. destruct row as [|a row0] eqn:R; [destruct s; [simpl; lia|cbn in *; lia]|]. rewrite <- R in *. destruct (last_bound (dist i) row Sr ltac:(rewrite R; discriminate)) as (x & Hx & Hb).
      change (sumZl (dist i) row <= sumZl (dist i) s)%Z. pose proof (nearest_minimal (fun j => dist i j - dist i x)%Z (fun l => l < n) row) as G.
      specialize (G ltac:(intros j Hj; specialize (Hb j Hj); lia) ltac:(intros l Hl Hn; specialize (Mr x l Hx Hl Hn); lia) Nr s Ns Hs). rewrite !sumZl_minus, Lr, Ls in G. lia.
Qed.

(** FINDING: more neighbours than points. *)
Theorem C109_measure_refuted : forall n dist k, 0 < n < k -> distanceToMeasure n dist k = UB.
Proof. intros n dist k H. unfold distanceToMeasure. rewrite C72_too_many by exact H. reflexivity. Qed.

(** ** C110: the lens depth *)
Lemma sm_get_make n i j : i < n -> j < n -> sm_get (sm_make 0%Z n) i j = Ok 0%Z.
Proof.
  intros Hi Hj. pose proof (sm_made_ok 0%Z _ (made_new 0%Z n)) as Hok. destruct (sm_cell_spec (sm_make 0%Z n) i j Hok Hi Hj) as (a & E & La & _). unfold sm_get. rewrite E. cbn [bind].
  apply get_ok. cbn [sm_make sm_data] in *. rewrite nth_error_repeat by (rewrite repeat_length in La; exact La). reflexivity.
Qed.

Lemma lens_distances_ok n dist : (forall i j, dist i j = dist j i) -> exists M, lens_distances n dist = Ok M /\ sm_rows M = n /\
  forall i j, i < n -> j < n -> i <> j -> sm_get M i j = Ok (dist i j).
Proof.
  intro Hs. unfold lens_distances. rewrite (foldM_nested (fun i M j => sm_set M i j (dist i j)) (fun i => seq (i + 1) (n - (i + 1)))). fold (pairs n).
  destruct (foldM_ind (fun M p => sm_set M (fst p) (snd p) (dist (fst p) (snd p)))
    (fun m M => sm_made 0%Z M /\ sm_rows M = n /\ forall i j, In (i, j) (firstn m (pairs n)) -> sm_get M i j = Ok (dist i j)) (pairs n) (sm_make 0%Z n)) as (M & E & HM & Hr & Hg).
  - refine (conj (made_new _ _) (conj eq_refl _)). intros i j [].
  - intros m [a b] M Hm (HM & Hr & Hg). pose proof (proj1 (In_pairs n a b) (nth_error_In _ _ Hm)) as Hab. cbn [fst snd].
    destruct (C33_symmetric_storage _ 0%Z M HM) as (_ & _ & W & _). destruct (W a b (dist a b) ltac:(lia) ltac:(lia)) as (M' & E & Hr' & HW). exists M'. refine (conj E (conj (made_set _ _ _ _ _ _ HM E) (conj _ _))); [lia|].
    intros i j Hij. rewrite (firstn_S_nth _ _ _ Hm) in Hij. apply in_app_iff in Hij. destruct Hij as [Hij|[Hij|[]]].
    + assert (Hp : i < j < n). { apply In_pairs. rewrite <- (firstn_skipn m). apply in_app_iff. left. exact Hij. } destruct (HW i j ltac:(lia) ltac:(lia)) as [HW1 HW2].
      destruct (Nat.eq_dec i a) as [->|Ni]; [destruct (Nat.eq_dec j b) as [->|Nj]|]; [apply HW1; auto|rewrite HW2 by lia; apply Hg; exact Hij|rewrite HW2 by lia; apply Hg; exact Hij].
    + injection Hij as -> ->. destruct (HW i j ltac:(lia) ltac:(lia)) as [HW1 _]. apply HW1. auto.
  - exists M. refine (conj E (conj Hr _)). rewrite firstn_all in Hg. intros i j Hi Hj Hne. destruct (C33_symmetric_storage _ 0%Z M HM) as (Sy & _). destruct (Nat.lt_trichotomy i j) as [L|[L|L]]; [|lia|].
    + apply Hg. apply In_pairs. lia.
    + destruct (Sy i j ltac:(lia) ltac:(lia)) as (x & E1 & E2). rewrite E1. rewrite (Hg j i) in E2 by (apply In_pairs; lia). rewrite Hs. congruence.
Qed.

Definition in_lens (dist : nat -> nat -> Z) (k : nat) (p : nat * nat) : bool :=
  negb (k =? fst p) && negb (k =? snd p) && (dist (fst p) k <=? dist (fst p) (snd p))%Z && (dist (snd p) k <=? dist (fst p) (snd p))%Z.

(** The depth of a point is the number of pairs of other points whose lens contains it. *)
Theorem C110_lens : forall n dist, (forall i j, dist i j = dist j i) -> exists counts, lensDataDepth n dist = Ok counts /\ length counts = n /\
  forall k, k < n -> exists lenses, nth_error counts k = Some (length lenses) /\ NoDup lenses /\
    forall i j, In (i, j) lenses <-> i < j < n /\ i <> k /\ j <> k /\ (dist i k <= dist i j)%Z /\ (dist j k <= dist i j)%Z.
Proof.
  intros n dist Hs. destruct (lens_distances_ok n dist Hs) as (M & EM & Hr & HM). unfold lensDataDepth. rewrite EM. cbn [bind].
  rewrite (foldM_nested (fun i counts j => let* criticalDistance := sm_get M i j in
      foldM (fun counts k =>
        if (k =? i) || (k =? j) then Ok counts
        else
          let* distance_i := sm_get M i k in
          let* distance_j := sm_get M j k in
          if (Z.max distance_i distance_j <=? criticalDistance)%Z then
            let* c := get_ counts k in Ok (upd counts k (S c))
          else Ok counts) (seq 0 n) counts) (fun i => seq (i + 1) (n - (i + 1)))). fold (pairs n).
  match goal with |- exists _, foldM ?f _ _ = _ /\ _ => set (step := f) end.
  destruct (foldM_ind step (fun m c => length c = n /\ forall k, k < n -> nth_error c k = Some (length (filter (in_lens dist k) (firstn m (pairs n))))) (pairs n) (repeat 0 n)) as (counts & E & Hl & Hc).
  - rewrite repeat_length. split; [reflexivity|]. intros k Hk. rewrite nth_error_repeat by exact Hk. reflexivity.
  - intros m [a b] c Hm (Hl & Hc). pose proof (proj1 (In_pairs n a b) (nth_error_In _ _ Hm)) as Hab. unfold step. cbn [fst snd]. rewrite HM by lia. cbn [bind].
    match goal with |- exists _, foldM ?f _ _ = _ /\ _ => set (inner := f) end.
    destruct (foldM_ind inner (fun q c' => length c' = n /\ forall k, k < n -> nth_error c' k = Some (length (filter (in_lens dist k) (firstn m (pairs n))) + if (k <? q) && in_lens dist k (a, b) then 1 else 0)) (seq 0 n) c) as (c' & E & Hl' & Hc').
    + split; [exact Hl|]. intros k Hk. rewrite Hc by exact Hk. cbn [Nat.ltb Nat.leb andb]. f_equal. lia.
    + intros q k c' Hq (Hl' & Hc'). apply nth_error_seq in Hq. destruct Hq as [Hq ->]. unfold inner.
      assert (St : forall x, x < n -> x <> q -> (if (x <? S q) && in_lens dist x (a, b) then 1 else 0) = (if (x <? q) && in_lens dist x (a, b) then 1 else 0)).
      { intros x _ Hx. destruct (Nat.ltb_spec x (S q)), (Nat.ltb_spec x q); try lia; reflexivity. }
      destruct ((q =? a) || (q =? b)) eqn:Q.
      * exists c'. refine (conj eq_refl (conj Hl' _)). intros x Hx. rewrite Hc' by exact Hx. destruct (Nat.eq_dec x q) as [->|Hne]; [|rewrite St by assumption; reflexivity].
        assert (F : in_lens dist q (a, b) = false) by (unfold in_lens; cbn [fst snd]; apply orb_true_iff in Q; destruct Q as [-> | ->]; rewrite ?andb_false_r; reflexivity). rewrite F, !andb_false_r. reflexivity.
      * apply orb_false_iff in Q. destruct Q as [Qa Qb]. pose proof (proj1 (Nat.eqb_neq _ _) Qa). pose proof (proj1 (Nat.eqb_neq _ _) Qb). rewrite !HM by lia. cbn [bind].
        assert (F : in_lens dist q (a, b) = (Z.max (dist a q) (dist b q) <=? dist a b)%Z).
        { unfold in_lens. cbn [fst snd]. rewrite Qa, Qb. cbn [negb andb]. destruct (Z.leb_spec (dist a q) (dist a b)), (Z.leb_spec (dist b q) (dist a b)), (Z.leb_spec (Z.max (dist a q) (dist b q)) (dist a b)); try reflexivity; lia. }
        rewrite <- F. destruct (in_lens dist q (a, b)) eqn:L.
        -- rewrite (proj2 (get_ok _ _ _) (Hc' q Hq)). cbn [bind]. eexists. refine (conj eq_refl (conj _ _)); [rewrite upd_length; exact Hl'|].
           intros x Hx. rewrite nth_error_upd. destruct (Nat.eqb_spec q x) as [<-|Hne].
           ++ destruct (Nat.ltb_spec q (length c')); [|lia]. cbn [andb]. rewrite L. destruct (Nat.ltb_spec q (S q)), (Nat.ltb_spec q q); try lia. cbn [andb]. f_equal. lia.
           ++ cbn [andb]. rewrite Hc' by exact Hx. rewrite St by lia. reflexivity.
        -- exists c'. refine (conj eq_refl (conj Hl' _)). intros x Hx. rewrite Hc' by exact Hx. destruct (Nat.eq_dec x q) as [->|Hne]; [|rewrite St by assumption; reflexivity]. rewrite L, !andb_false_r. reflexivity.
    + exists c'. refine (conj E (conj Hl' _)). intros k Hk. rewrite Hc' by exact Hk. rewrite seq_length, (firstn_S_nth _ _ _ Hm), filter_app, app_length. cbn [filter]. destruct (Nat.ltb_spec k n); [|lia]. cbn [andb].
      destruct (in_lens dist k (a, b)); reflexivity.
  - exists counts. refine (conj E (conj Hl _)). intros k Hk. rewrite firstn_all in Hc. exists (filter (in_lens dist k) (pairs n)). refine (conj (Hc k Hk) (conj (NoDup_filter _ (NoDup_pairs n)) _)).
    intros i j. rewrite filter_In, In_pairs. unfold in_lens. cbn [fst snd]. rewrite !andb_true_iff, !negb_true_iff, !Nat.eqb_neq, !Z.leb_le. intuition.
Qed.

Example C110_example : lensDataDepth 4 (fun i j => Z.abs (nth i [0; 1; 3; 7] 0 - nth j [0; 1; 3; 7] 0)%Z) = Ok [0; 2; 2; 0].
Proof. reflexivity. Qed.

Example C109_example : distanceToMeasure 3 (fun i j => Z.abs (Z.of_nat i - Z.of_nat j)) 2 = Ok [(-1 # 1) / (3 # 1); (-1 # 1) / (3 # 1); (-1 # 1) / (3 # 1)]%Q.
Proof. reflexivity. Qed.

(** ** C111: correlation integrals *)
Definition le_count (m : list (Z * nat)) (x : Z) : nat := fold_right (fun p acc => if (fst p <=? x)%Z then snd p + acc else acc) 0 m.

Lemma count_key_le m z x : le_count (count_key m z) x = (if (z <=? x)%Z then 1 else 0) + le_count m x.
Proof.
  induction m as [|[y c] m IH]; cbn [count_key].
  - cbn. destruct (z <=? x)%Z; reflexivity.
  - destruct (Z.ltb_spec z y).
    + cbn [le_count fold_right fst snd]. destruct (z <=? x)%Z; lia.
    + destruct (Z.ltb_spec y z).
      * cbn [le_count fold_right fst snd]. fold (le_count (count_key m z) x) (le_count m x). rewrite IH. destruct (y <=? x)%Z, (z <=? x)%Z; lia.
      * assert (y = z) by lia. subst y. cbn [le_count fold_right fst snd]. fold (le_count m x). destruct (z <=? x)%Z; lia.
Qed.
Lemma count_key_In m z x : In x (map fst (count_key m z)) <-> x = z \/ In x (map fst m).
Proof.
  induction m as [|[y c] m IH]; cbn [count_key map fst In]; [intuition|]. destruct (Z.ltb_spec z y); [cbn [map fst In]; intuition|]. destruct (Z.ltb_spec y z); cbn [map fst In]; [rewrite IH; intuition|]. assert (y = z) by lia. subst. intuition.
Qed.
Lemma count_key_sorted m z : StronglySorted Z.lt (map fst m) -> StronglySorted Z.lt (map fst (count_key m z)).
Proof.
  induction m as [|[y c] m IH]; intro S; cbn [count_key map fst]; [constructor; constructor|]. cbn [map fst] in S. inversion S as [|? ? S' F]; subst. destruct (Z.ltb_spec z y).
  - cbn [map fst]. constructor; [exact S|]. constructor; [assumption|]. rewrite Forall_forall in *. intros w Hw. specialize (F w Hw). lia.
  - destruct (Z.ltb_spec y z); cbn [map fst].
    + constructor; [auto|]. rewrite Forall_forall in *. intros w Hw. apply count_key_In in Hw. destruct Hw as [->|Hw]; [lia|]. auto.
    + constructor; assumption.
Qed.
Lemma count_keys_ok l : forall m, StronglySorted Z.lt (map fst m) -> let r := fold_left count_key l m in
  StronglySorted Z.lt (map fst r) /\ (forall x, In x (map fst r) <-> In x (map fst m) \/ In x l) /\ forall x, le_count r x = le_count m x + length (filter (fun y => (y <=? x)%Z) l).
Proof.
  induction l as [|z l IH]; intros m S; cbn [fold_left].
  - refine (conj S (conj _ _)); intro x; [cbn; tauto|cbn; lia].
  - destruct (IH (count_key m z) (count_key_sorted m z S)) as (S' & I' & L'). refine (conj S' (conj _ _)).
    + intro x. rewrite I', count_key_In. cbn [In]. intuition.
    + intro x. rewrite L', count_key_le. cbn [filter]. destruct (z <=? x)%Z; cbn [length]; lia.
Qed.
Lemma le_count_prefix pre x c suf : StronglySorted Z.lt (map fst (pre ++ (x, c) :: suf)) -> le_count (pre ++ (x, c) :: suf) x = fold_right (fun p acc => snd p + acc) 0 pre + c.
Proof.
  induction pre as [|[y d] pre IH]; cbn [app map fst]; intro S; inversion S as [|? ? S' F]; subst.
  - cbn [le_count fold_right fst snd]. rewrite Z.leb_refl. fold (le_count suf x). assert (Z0 : le_count suf x = 0); [|lia]. clear S S'. induction suf as [|[y d] suf IH]; [reflexivity|]. cbn [map fst] in F. inversion F; subst. cbn [le_count fold_right fst snd]. destruct (Z.leb_spec y x); [lia|]. apply IH. assumption.
  - cbn [le_count fold_right fst snd]. fold (le_count (pre ++ (x, c) :: suf) x). rewrite IH by exact S'. rewrite Forall_forall in F. assert (y < x)%Z by (apply F; apply in_map_iff; exists (x, c); split; [reflexivity|apply in_app_iff; right; left; reflexivity]). destruct (Z.leb_spec y x); lia.
Qed.

Definition integral_at (n : nat) (D : list (Z * nat)) (x : Z) : Q := (inject_Z (Z.of_nat (le_count D x)) / (inject_Z (Z.of_nat (n * (n - 1))) * (1 # 2)))%Q.
Lemma integral_fold n D : StronglySorted Z.lt (map fst D) -> forall suf pre out, D = pre ++ suf ->
  snd (fold_left (fun (st : nat * list (Z * Q)) p =>
    (fst st + snd p, if (0 <? fst p)%Z then snd st ++ [(fst p, (inject_Z (Z.of_nat (fst st + snd p)) / (inject_Z (Z.of_nat (n * (n - 1))) * (1 # 2)))%Q)] else snd st)) suf (fold_right (fun p acc => snd p + acc) 0 pre, out))
  = out ++ map (fun p => (fst p, integral_at n D (fst p))) (filter (fun p => (0 <? fst p)%Z) suf).
Proof.
  intro S. induction suf as [|[x c] suf IH]; intros pre out E; cbn [fold_left filter map].
  - rewrite app_nil_r. reflexivity.
  - cbn [fst snd]. assert (Sm : fold_right (fun p acc => snd p + acc) 0 pre + c = fold_right (fun p acc => snd p + acc) 0 (pre ++ [(x, c)])). { clear. induction pre as [|p pre IH]; cbn [app fold_right snd]; lia. }
    assert (V : (inject_Z (Z.of_nat (fold_right (fun p acc => snd p + acc) 0 pre + c)%nat) / (inject_Z (Z.of_nat (n * (n - 1))) * (1 # 2)))%Q = integral_at n D x).
    { unfold integral_at. rewrite E, le_count_prefix by (rewrite <- E; exact S). reflexivity. }
    rewrite V, Sm. rewrite (IH (pre ++ [(x, c)])) by (rewrite <- app_assoc; exact E). destruct (0 <? x)%Z; cbn [map fst]; [rewrite <- app_assoc|]; reflexivity.
Qed.

(** The abscissae are the positive distances in ascending order, and the value at one of them
    is the share of the pairs of points that have at most this distance. *)
Theorem C111_integral : forall n dist, let r := correlationDimensionIntegral n dist in
  StronglySorted Z.lt (map fst r) /\
  (forall x, In x (map fst r) <-> (0 < x)%Z /\ exists i j, i < j < n /\ dist i j = x) /\
  (forall x y, In (x, y) r -> exists close, NoDup close /\ (forall i j, In (i, j) close <-> i < j < n /\ (dist i j <= x)%Z) /\
     (y == inject_Z (Z.of_nat (length close)) / inject_Z (Z.of_nat (length (pairs n))))%Q).
Proof.
  intros n dist. unfold correlationDimensionIntegral. rewrite (fold_nested (fun i m j => count_key m (dist i j)) (fun i => seq (i + 1) (n - (i + 1)))). fold (pairs n).
  assert (E : forall l m, fold_left (fun s p => count_key s (dist (fst p) (snd p))) l m = fold_left count_key (map (fun p => dist (fst p) (snd p)) l) m).
  { induction l as [|p l IH]; intro m; cbn [fold_left map]; [reflexivity|]. apply IH. }
  rewrite E. set (dl := map (fun p => dist (fst p) (snd p)) (pairs n)). destruct (count_keys_ok dl [] (SSorted_nil _)) as (S & I & L). cbn zeta in S, I, L. set (D := fold_left count_key dl []) in *.
  pose proof (integral_fold n D S D [] [] eq_refl) as F. cbn [fold_right app] in F. cbv zeta. rewrite F. clear F.
  assert (MF : map fst (map (fun p => (fst p, integral_at n D (fst p))) (filter (fun p => (0 <? fst p)%Z) D)) = filter (fun x => (0 <? x)%Z) (map fst D)).
  { rewrite map_map. cbn [fst]. clear. induction D as [|[x c] D IH]; [reflexivity|]. cbn [filter map fst]. destruct (0 <? x)%Z; cbn [map fst]; [f_equal|]; exact IH. }
  assert (Idl : forall x, In x dl <-> exists i j, i < j < n /\ dist i j = x).
  { intro x. unfold dl. rewrite in_map_iff. split; [intros ([i j] & <- & H); apply In_pairs in H; eauto|]. intros (i & j & H & <-). exists (i, j). split; [reflexivity|apply In_pairs; exact H]. }
  rewrite MF. refine (conj (StronglySorted_filter _ _ _ S) (conj _ _)).
  - intro x. rewrite filter_In, Z.ltb_lt, I, Idl. cbn [map In]. tauto.
  - intros x y H. apply in_map_iff in H. destruct H as ([x' c] & Eq & _). cbn [fst] in Eq. injection Eq as -> <-. exists (filter (fun p => (dist (fst p) (snd p) <=? x)%Z) (pairs n)).
    refine (conj (NoDup_filter _ (NoDup_pairs n)) (conj _ _)); [intros i j; rewrite filter_In, In_pairs, Z.leb_le; reflexivity|].
    unfold integral_at. rewrite L. cbn [le_count fold_right Nat.add]. unfold dl. assert (Le : length (filter (fun y => (y <=? x)%Z) (map (fun p => dist (fst p) (snd p)) (pairs n))) = length (filter (fun p => (dist (fst p) (snd p) <=? x)%Z) (pairs n))).
    { clear. induction (pairs n) as [|p l IH]; [reflexivity|]. cbn [map filter]. destruct (dist (fst p) (snd p) <=? x)%Z; cbn [length]; [f_equal|]; exact IH. }
    rewrite Le. rewrite <- (length_pairs n). set (a := length (filter _ _)). set (b := length (pairs n)). replace (Z.of_nat (2 * b)) with (2 * Z.of_nat b)%Z by lia. rewrite inject_Z_mult.
    assert (M : (inject_Z 2 * inject_Z (Z.of_nat b) * (1 # 2) == inject_Z (Z.of_nat b))%Q) by (change (inject_Z 2) with (2 # 1)%Q; ring). rewrite M. reflexivity.
Qed.

(** The last value is 1. *)
Theorem C111_total : forall n dist x y, (In (x, y) (correlationDimensionIntegral n dist)) -> (forall i j, i < j < n -> (dist i j <= x)%Z) -> (y == 1)%Q.
Proof.
  intros n dist x y H Hm. destruct (C111_integral n dist) as (_ & I & V). destruct (V x y H) as (close & Nc & Ic & ->). destruct (proj1 (I x) (in_map fst _ _ H)) as (_ & i & j & Hij & _).
  assert (P : Permutation close (pairs n)). { apply NoDup_Permutation; [exact Nc|apply NoDup_pairs|]. intros [a b]. rewrite Ic, In_pairs. split; [tauto|]. intro Hab. split; [exact Hab|apply Hm; exact Hab]. }
  rewrite (Permutation_length P). assert (0 < length (pairs n)). { destruct (pairs n) eqn:E; [|cbn; lia]. exfalso. pose proof (proj2 (In_pairs n i j) Hij) as F. rewrite E in F. destruct F. }
  apply Qmult_inv_r. unfold Qeq. cbn. lia.
Qed.

(** Three corners of a square: two pairs have distance 2 (squared), one pair has distance 4. *)
Example C111_example : correlationDimensionIntegral 3 (fun i j => nth j (nth i [[0; 2; 2]; [2; 0; 4]; [2; 4; 0]] [])%Z 0%Z) = [(2%Z, (2 # 1) / ((6 # 1) * (1 # 2))); (4%Z, (3 # 1) / ((6 # 1) * (1 # 2)))]%Q.
Proof. reflexivity. Qed.

Print Assumptions C109_measure.
Print Assumptions C109_measure_refuted.
Print Assumptions C110_lens.
Print Assumptions C111_integral.
Print Assumptions C111_total.
