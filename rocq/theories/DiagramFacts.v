(** * Persistence diagrams: multisets of points, tabulated pairings. *)
From Coq Require Import List Arith Bool ZArith Lia Permutation Sorted.
From Verif Require Import Base BaseFacts Simplex Matrix Complex ComplexFacts Diagram SpecDiagram.
Import ListNotations.

Definition point_dec : forall p q : point, {p = q} + {p <> q}.
Proof. decide equality; apply Z.eq_dec. Defined.

Lemma count_filter_pt (f : point -> bool) l q :
  count_occ point_dec (filter f l) q = if f q then count_occ point_dec l q else 0.
Proof.
  induction l as [|p l IH]; simpl; [destruct (f q); auto|].
  destruct (f p) eqn:E; simpl; destruct (point_dec p q) as [->|H]; rewrite IH; auto; rewrite E; auto.
Qed.

Lemma point_ltb_spec p q : point_ltb p q = true <-> (fst p < fst q \/ (fst p = fst q /\ snd p < snd q))%Z.
Proof.
  unfold point_ltb. destruct (Z.eqb_spec (fst p) (fst q)); rewrite Z.ltb_lt; lia.
Qed.

Definition point_lt (p q : point) : Prop := (fst p < fst q \/ (fst p = fst q /\ snd p < snd q))%Z.

Lemma point_lt_total p q : point_lt p q \/ p = q \/ point_lt q p.
Proof.
  destruct p as [a b], q as [c d]. unfold point_lt. simpl.
  destruct (Z.lt_trichotomy a c) as [H|[H|H]]; [auto| |auto].
  destruct (Z.lt_trichotomy b d) as [H'|[H'|H']]; [auto| |auto]. subst; auto.
Qed.

Lemma pset_insert_spec p l : StronglySorted point_lt l ->
  StronglySorted point_lt (pset_insert p l) /\ forall q, In q (pset_insert p l) <-> q = p \/ In q l.
Proof.
  induction 1 as [|x l Hl IH Hx]; simpl.
  - split; [repeat constructor|]. intro q. intuition.
  - destruct (point_ltb x p) eqn:E1; [|destruct (point_ltb p x) eqn:E2].
    + apply point_ltb_spec in E1. destruct IH as [A B]. split.
      * constructor; auto. apply Forall_forall. intros q Hq. apply B in Hq. destruct Hq as [->|Hq]; auto.
        rewrite Forall_forall in Hx. auto.
      * intro q. simpl. rewrite B. intuition.
    + apply point_ltb_spec in E2. split.
      * constructor; [constructor; auto|]. constructor; auto.
        rewrite Forall_forall in *. intros q Hq. specialize (Hx q Hq). unfold point_lt in *. lia.
      * intro q. simpl. intuition.
    + assert (p = x) as ->.
      { destruct (point_lt_total p x) as [H|[H|H]]; auto; apply point_ltb_spec in H; congruence. }
      split; [constructor; auto|]. intro q. simpl. intuition.
Qed.

Lemma dedup_spec l acc : StronglySorted point_lt acc ->
  let r := fold_left (fun acc p => pset_insert p acc) l acc in
  StronglySorted point_lt r /\ forall q, In q r <-> In q l \/ In q acc.
Proof.
  revert acc. induction l as [|p l IH]; intros acc H; simpl.
  - split; auto. intro q. tauto.
  - destruct (pset_insert_spec p acc H) as [A B]. destruct (IH _ A) as [C D]. split; auto.
    intro q. rewrite D, B. intuition.
Qed.

Lemma pt_sorted_NoDup l : StronglySorted point_lt l -> NoDup l.
Proof.
  induction 1 as [|x l Hl IH Hx]; constructor; auto. intro H. rewrite Forall_forall in Hx.
  specialize (Hx x H). unfold point_lt in Hx. lia.
Qed.

Lemma points_eqb_eq l m : points_eqb l m = true <-> l = m.
Proof.
  revert m. induction l as [|[a b] l IH]; intros [|[c d] m]; simpl; try (split; congruence).
  unfold point_eqb. simpl. rewrite !andb_true_iff, !Z.eqb_eq, IH. split.
  - intros [[-> ->] ->]. auto.
  - intros [= -> -> ->]. auto.
Qed.

(** ** tabulating a pairing *)
Definition lookup_dgm (m : list (nat * diagram)) (d : nat) : list point :=
  match find (fun q => fst q =? d) m with Some q => points (snd q) | None => [] end.

Definition mwf (m : list (nat * diagram)) : Prop :=
  StronglySorted lt (map fst m) /\ forall k D, In (k, D) m -> points D <> [].

Lemma dmap_add_keys d p m k : In k (map fst (dmap_add d p m)) <-> k = d \/ In k (map fst m).
Proof.
  induction m as [|[x D] m IH]; simpl; [intuition|].
  destruct (Nat.eqb_spec x d); simpl; [subst; intuition|].
  destruct (d <? x); simpl; [intuition|]. rewrite IH. intuition.
Qed.

Lemma dmap_add_spec d p m : mwf m ->
  mwf (dmap_add d p m) /\
  forall k, lookup_dgm (dmap_add d p m) k = if k =? d then lookup_dgm m k ++ [p] else lookup_dgm m k.
Proof.
  induction m as [|[x D] m IH]; intros [Hs Hn].
  - split; [split; [repeat constructor|]|].
    + intros k D [[= <- <-]|[]]. discriminate.
    + intro k. unfold lookup_dgm. simpl. rewrite (Nat.eqb_sym d k). destruct (k =? d); auto.
  - simpl in Hs. inversion Hs as [|? ? Hs' Hx]; subst.
    assert (Hm : mwf m) by (split; auto; intros k E HE; apply (Hn k); simpl; auto).
    simpl. destruct (Nat.eqb_spec x d) as [->|Hxd]; [|destruct (Nat.ltb_spec d x) as [Hlt|Hge]].
    + split; [split|].
      * exact Hs.
      * intros k E [[= <- <-]|HE]; [|apply (Hn k); simpl; auto]. simpl. destruct (points D); discriminate.
      * intro k. unfold lookup_dgm. simpl. rewrite (Nat.eqb_sym d k). destruct (k =? d); auto.
    + split; [split|].
      * simpl. constructor; auto. constructor; auto. rewrite Forall_forall in *. intros y Hy. specialize (Hx y Hy). lia.
      * intros k E [[= <- <-]|HE]; [discriminate|]. apply (Hn k); auto.
      * intro k. unfold lookup_dgm. simpl. rewrite (Nat.eqb_sym d k). destruct (Nat.eqb_spec k d) as [->|]; auto.
        destruct (Nat.eqb_spec x d); [tauto|]. simpl.
        destruct (find (fun q => fst q =? d) m) as [[y E]|] eqn:F; auto.
        apply find_some in F. destruct F as [F1 F2]. simpl in F2. apply Nat.eqb_eq in F2. subst y.
        rewrite Forall_forall in Hx. specialize (Hx d (in_map fst _ _ F1)). lia.
    + destruct (IH Hm) as [[A1 A2] B]. split; [split|].
      * simpl. constructor; auto. apply Forall_forall. intros y Hy. apply dmap_add_keys in Hy.
        destruct Hy as [->|Hy]; [lia|]. rewrite Forall_forall in Hx. auto.
      * intros k E [[= <- <-]|HE]; [|apply (A2 k); auto]. apply (Hn x); simpl; auto.
      * intro k. specialize (B k). unfold lookup_dgm in *. simpl.
        destruct (Nat.eqb_spec x k) as [->|]; [|exact B]. destruct (Nat.eqb_spec k d); [congruence|auto].
Qed.

Lemma make_step_ok inf K m q : kwf K -> fst q < k_size K ->
  make_step inf K m q = Ok (dmap_add (dim_at K (fst q)) (pair_point inf K q) m).
Proof.
  intros HK Hi. unfold make_step, pair_point, data_at, dim_at.
  destruct (nth_error (by_index K) (fst q)) as [s|] eqn:Es; [|apply nth_error_None in Es; unfold k_size in Hi; lia].
  assert (Hs : In s (by_index K)) by (eapply nth_error_In; eauto).
  unfold k_at at 1, at_. rewrite Es. simpl bind. rewrite (good_dimension s (kwf_good K HK s Hs)). simpl bind.
  rewrite (nth_error_nth _ _ dummy_simplex Es). unfold sdim.
  destruct (snd q) as [j|]; auto. unfold k_size. destruct (Nat.ltb_spec j (length (by_index K))); auto.
  destruct (nth_error (by_index K) j) as [t|] eqn:Et; [|apply nth_error_None in Et; lia].
  unfold k_at, at_. rewrite Et. simpl bind. rewrite (nth_error_nth _ _ dummy_simplex Et). auto.
Qed.

Lemma make_loop inf K p m : kwf K -> mwf m -> (forall q, In q p -> fst q < k_size K) ->
  exists m', foldM (make_step inf K) p m = Ok m' /\ mwf m' /\
    forall d, lookup_dgm m' d = lookup_dgm m d ++ map (pair_point inf K) (filter (fun q => dim_at K (fst q) =? d) p).
Proof.
  intros HK. revert m. induction p as [|q p IH]; intros m Hm Hp; simpl.
  - exists m. split; auto. split; auto. intro d. rewrite app_nil_r. auto.
  - rewrite make_step_ok by (auto; apply Hp; simpl; auto). simpl bind.
    destruct (dmap_add_spec (dim_at K (fst q)) (pair_point inf K q) m Hm) as [A B].
    destruct (IH _ A) as (m' & E & H1 & H2); [intros; apply Hp; simpl; auto|].
    exists m'. split; auto. split; auto. intro d. rewrite H2, B, (Nat.eqb_sym d).
    destruct (dim_at K (fst q) =? d); auto. rewrite <- app_assoc. auto.
Qed.

Lemma sort_sorted_dgms (l : list diagram) : StronglySorted (fun D E => dgm_dim D < dgm_dim E) l ->
  cpp_sort (fun D E => dgm_dim D <? dgm_dim E) l = l.
Proof.
  induction 1 as [|x l Hl IH Hx]; simpl; auto. rewrite IH. destruct l as [|y l]; simpl; auto.
  inversion Hx; subst. destruct (Nat.ltb_spec (dgm_dim y) (dgm_dim x)); auto. lia.
Qed.

Lemma make_diagrams inf K p : kwf K -> (forall q, In q p -> fst q < k_size K) ->
  exists ds, makePersistenceDiagrams inf p K = Ok ds /\
    StronglySorted lt (map dgm_dim ds) /\ (forall D, In D ds -> points D <> []) /\
    forall d l, (l = map (pair_point inf K) (filter (fun q => dim_at K (fst q) =? d) p) ->
      (l <> [] <-> In (Diagram d l) ds)) /\
      (In (Diagram d l) ds -> l = map (pair_point inf K) (filter (fun q => dim_at K (fst q) =? d) p)).
Proof.
  intros HK Hp. unfold makePersistenceDiagrams.
  destruct (make_loop inf K p [] HK) as (m & E & [Hs Hn] & H); [split; [constructor|intros k D []]|auto|].
  rewrite E. simpl bind. eexists. split; [reflexivity|].
  rewrite sort_sorted_dgms.
  2:{ clear - Hs. induction m as [|[k D] m IH]; simpl in *; [constructor|]. inversion Hs; subst. constructor; auto.
      rewrite Forall_forall in *. intros E HE. apply in_map_iff in HE. destruct HE as (q & <- & Hq). simpl.
      apply H2. apply in_map; auto. }
  split; [|split].
  - rewrite map_map. simpl. exact Hs.
  - intros D HD. apply in_map_iff in HD. destruct HD as ([k E'] & <- & Hq). simpl. apply (Hn k); auto.
  - assert (G : forall d l, In (Diagram d l) (map (fun q => Diagram (fst q) (points (snd q))) m) <->
                  l <> [] /\ lookup_dgm m d = l).
    { intros d l. rewrite in_map_iff. split.
      - intros ([k D] & [= <- <-] & Hq). simpl. split; [apply (Hn k); auto|].
        unfold lookup_dgm. clear - Hs Hq. induction m as [|[x E] m IH]; [easy|]. simpl in *. inversion Hs; subst.
        destruct Hq as [[= <- <-]|Hq].
        + rewrite Nat.eqb_refl. auto.
        + destruct (Nat.eqb_spec x k) as [->|]; [|auto]. rewrite Forall_forall in H2.
          specialize (H2 k (in_map fst _ _ Hq)). lia.
      - unfold lookup_dgm. intros [Hl El]. destruct (find (fun q => fst q =? d) m) as [[k D]|] eqn:F; [|congruence].
        apply find_some in F. destruct F as [F1 F2]. simpl in F2. apply Nat.eqb_eq in F2. subst k.
        exists (d, D). simpl in *. subst l. auto. }
    intros d l. split.
    + intros ->. rewrite G, H. unfold lookup_dgm. simpl. tauto.
    + rewrite G, H. unfold lookup_dgm. simpl. intros [_ <-]. auto.
Qed.

Lemma make_diagrams_throw inf K p : kwf K -> (exists q, In q p /\ k_size K <= fst q) ->
  makePersistenceDiagrams inf p K = Throw OutOfRange.
Proof.
  intros HK H. unfold makePersistenceDiagrams.
  assert (G : forall m, foldM (make_step inf K) p m = Throw OutOfRange); [|rewrite G; auto].
  destruct H as (q & Hq & Hi). revert Hq. induction p as [|r p IH]; intros Hq m; [easy|]. simpl.
  destruct (le_lt_dec (k_size K) (fst r)) as [Hr|Hr].
  - unfold make_step, k_at, at_ at 1. destruct (nth_error (by_index K) (fst r)) eqn:Es; auto.
    apply nth_error_lt in Es. unfold k_size in Hr. lia.
  - rewrite make_step_ok by auto. simpl bind. destruct Hq as [->|Hq]; [lia|]. apply IH; auto.
Qed.
