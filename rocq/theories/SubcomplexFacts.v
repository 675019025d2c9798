(** * Histories keep complexes well-formed; subcomplexes, vertices and degrees. *)

From Coq Require Import List Arith Lia Bool Permutation Sorted ZArith.
From Verif Require Import Base BaseFacts Simplex SimplexFacts SpecMatrix Matrix DualFacts RepFacts
  SpecComplex Complex ComplexFacts ClosureFacts WeightFacts FiltrationFacts History Subcomplex.
Import ListNotations.

Lemma map_nth_seq {A} (l : list A) d : map (fun i => nth i l d) (seq 0 (length l)) = l.
Proof.
  induction l as [|a l IH]; simpl; auto. f_equal. rewrite <- seq_shift, map_map. exact IH.
Qed.

Lemma exec_kwf lo hi K o : kwf K -> kwf (fst (k_exec lo hi K o)).
Proof.
  intro HK. destruct o; cbn [k_exec].
  - apply push_back_kwf; auto. apply simplex_of_wf.
  - apply insert_kwf; auto. intros s Hs. apply in_map_iff in Hs. destruct Hs as (p & <- & _). apply simplex_of_wf.
  - pose proof (replace_kwf K i (simplex_of l d) HK (simplex_of_wf l d)) as H.
    destruct (k_replace K i (simplex_of l d)). exact H.
  - destruct (k_remove K (simplex_of l 0)) eqn:E; simpl; auto. eapply remove_kwf; eauto.
  - apply remove_wv_kwf; auto.
  - apply sort_kwf; auto.
  - destruct (list_eqb (cpp_sort Nat.ltb view) (seq 0 (k_size K))) eqn:E; simpl; auto.
    apply list_eqb_eq in E. apply perm_kwf; auto.
    eapply Permutation_trans; [|rewrite <- (map_nth_seq (by_index K) simplex_empty); apply Permutation_refl].
    apply Permutation_map. fold (k_size K). rewrite <- E. apply Permutation_sym, cpp_sort_perm.
  - destruct (createMissingFaces K) eqn:E; simpl; auto. eapply missing_kwf; eauto.
  - apply recalc_kwf; auto.
  - apply recalc_range_kwf; auto.
  - apply empty_kwf.
Qed.

Lemma run_kwf lo hi h : kwf (k_run lo hi h).
Proof.
  unfold k_run. assert (H : kwf k_empty) by apply empty_kwf. revert H. generalize k_empty as K.
  induction h as [|o h IH]; intros K HK; simpl; auto. apply IH, exec_kwf; auto.
Qed.

Lemma reachable_kwf K : reachable K -> kwf K.
Proof. intros (lo & hi & h & ->). apply run_kwf. Qed.

(** appending new simplices *)
Lemma push_all_new l K : kwf K -> (forall s, In s l -> good s) ->
  NoDup (map verts (by_index K ++ l)) ->
  kwf (push_all K l) /\ by_index (push_all K l) = by_index K ++ l.
Proof.
  revert K. induction l as [|s l IH]; intros K HK Hg Hn.
  - unfold push_all. simpl. rewrite app_nil_r. auto.
  - unfold push_all. simpl. fold (push_all (fst (k_push_back K s)) l).
    destruct (push_back_new K s HK) as [E HK'].
    + apply Hg; simpl; auto.
    + apply contains_false. rewrite map_app in Hn. simpl in Hn. apply NoDup_remove_2 in Hn.
      intro H. apply Hn. apply in_or_app; auto.
    + rewrite E. simpl. destruct (IH _ HK') as [I1 I2].
      * intros; apply Hg; simpl; auto.
      * simpl. rewrite <- app_assoc. exact Hn.
      * split; auto. rewrite I2. simpl. rewrite <- app_assoc. auto.
Qed.

Lemma filter_good K f : kwf K -> forall s, In s (filter f (by_index K)) -> good s.
Proof. intros HK s Hs. apply filter_In in Hs. apply (kwf_good K HK). tauto. Qed.

Lemma push_filter K f : kwf K ->
  kwf (push_all k_empty (filter f (by_index K))) /\
  by_index (push_all k_empty (filter f (by_index K))) = filter f (by_index K).
Proof.
  intro HK. apply (push_all_new (filter f (by_index K)) k_empty).
  - apply empty_kwf.
  - apply filter_good; auto.
  - simpl. apply NoDup_map_filter, kwf_nodup; auto.
Qed.

Lemma filter_split_perm {A} (f : A -> bool) l :
  Permutation (filter f l ++ filter (fun x => negb (f x)) l) l.
Proof.
  induction l as [|a l IH]; simpl; auto. destruct (f a); simpl.
  - constructor; auto.
  - apply Permutation_sym, Permutation_cons_app, Permutation_sym; auto.
Qed.

Lemma partition_correct K phi : kwf K ->
  kwf (fst (partition_phi K phi)) /\
  by_index (fst (partition_phi K phi)) = filter phi (by_index K) ++ filter (fun s => negb (phi s)) (by_index K) /\
  snd (partition_phi K phi) = length (filter phi (by_index K)).
Proof.
  intro HK. destruct (push_filter K phi HK) as [H1 H2]. unfold partition_phi. cbn [fst snd].
  destruct (push_all_new (filter (fun s => negb (phi s)) (by_index K)) _ H1) as [A1 A2].
  - apply filter_good; auto.
  - rewrite H2. eapply Permutation_NoDup; [|apply (kwf_nodup K HK)].
    apply Permutation_map, Permutation_sym, filter_split_perm.
  - split; auto. split; [rewrite A2, H2; auto|]. unfold k_size. rewrite H2; auto.
Qed.

(** ** vertices *)
Lemma range_In K d s : kwf K -> (In s (k_range K d) <-> In s (by_index K) /\ length (verts s) = S d).
Proof.
  intro HK. rewrite range_filter by auto. rewrite filter_In, in_dim, Nat.eqb_eq by auto.
  split; intros [Hs Hd]; split; auto.
  - destruct (kwf_good K HK s Hs) as [_ Hn]. unfold sdim in Hd. destruct (verts s); [easy|simpl in *; lia].
  - unfold sdim. lia.
Qed.

Lemma vertices_spec K : kwf K ->
  StronglySorted lt (k_vertices K) /\
  forall v, In v (k_vertices K) <-> exists s, In s (by_index K) /\ verts s = [v].
Proof.
  intro HK. unfold k_vertices.
  assert (H : forall l acc, (forall s, In s l -> exists v, verts s = [v]) -> StronglySorted lt acc ->
     let r := fold_left (fun acc s => match verts s with v :: _ => set_insert v acc | [] => acc end) l acc in
     StronglySorted lt r /\ forall v, In v r <-> (exists s, In s l /\ verts s = [v]) \/ In v acc).
  { induction l as [|s l IH]; intros acc Hl Ha; cbn [fold_left].
    - split; auto. intro v. split; auto. intros [(s & [] & _)|]; auto.
    - destruct (Hl s (or_introl eq_refl)) as (u & Hu). rewrite Hu.
      destruct (IH (set_insert u acc)) as [A B]; [intros; apply Hl; simpl; auto|apply set_insert_sorted; auto|].
      split; auto. intro v. rewrite B, set_insert_In. split.
      + intros [(t & Ht & Et)|[->|Hv]]; auto; left; [exists t|exists s]; simpl; auto.
      + intros [(t & [<-|Ht] & Et)|Hv]; auto; [|left; eauto]. rewrite Hu in Et. injection Et as ->. auto. }
  destruct (H (k_range K 0) []) as [A B].
  - intros s Hs. apply range_In in Hs; auto. destruct Hs as [_ Hl].
    destruct (verts s) as [|v [|]]; simpl in Hl; try lia. eauto.
  - constructor.
  - split; auto. intro v. rewrite B. split.
    + intros [(s & Hs & Hv)|[]]. apply range_In in Hs; auto. exists s. tauto.
    + intros (s & Hs & Hv). left. exists s. split; auto. apply range_In; auto. rewrite Hv. auto.
Qed.

(** ** degrees *)
Definition pos_containing (v : nat) (s : simplex) : bool := (2 <=? length (verts s)) && mem v (verts s).

(** the map as a function *)
Definition map_get (m : list (nat * nat)) (v : nat) : nat :=
  match find (fun p => fst p =? v) m with Some p => snd p | None => 0 end.

Lemma map_incr_spec v m : StronglySorted lt (map fst m) ->
  StronglySorted lt (map fst (map_incr v m)) /\
  (forall u, In u (map fst (map_incr v m)) <-> u = v \/ In u (map fst m)) /\
  (forall u, map_get (map_incr v m) u = map_get m u + if u =? v then 1 else 0).
Proof.
  induction m as [|[u n] m IH]; intro H; simpl.
  - split; [repeat constructor|]. split; [intuition|]. intro u. unfold map_get. simpl.
    rewrite Nat.eqb_sym. destruct (u =? v); auto.
  - inversion H as [|x y Hs Hf]; subst. rewrite Forall_forall in Hf.
    destruct (Nat.ltb_spec v u).
    + split; [|split].
      * simpl. constructor; auto. constructor; auto. apply Forall_forall. intros w Hw.
        apply Hf in Hw. lia.
      * simpl. intuition.
      * intro w. unfold map_get. simpl. rewrite (Nat.eqb_sym v w).
        destruct (Nat.eqb_spec w v); [subst|lia].
        assert (E : find (fun p => fst p =? v) ((u, n) :: m) = None).
        { destruct (find (fun p => fst p =? v) ((u, n) :: m)) as [p|] eqn:E; auto. exfalso.
          apply find_some in E. destruct E as [Hp E]. apply Nat.eqb_eq in E.
          destruct Hp as [<-|Hp]; simpl in *; [lia|]. apply (in_map fst) in Hp. apply Hf in Hp. lia. }
        simpl in E. rewrite E. auto.
    + destruct (Nat.ltb_spec u v).
      * destruct (IH Hs) as (A & B & C). simpl. split; [|split].
        -- constructor; auto. apply Forall_forall. intros w Hw. apply B in Hw. destruct Hw as [->|Hw]; auto.
        -- intro w. rewrite B. intuition.
        -- intro w. unfold map_get in *. simpl. destruct (Nat.eqb_spec u w).
           ++ subst. destruct (Nat.eqb_spec w v); simpl; lia.
           ++ apply C.
      * assert (u = v) by lia. subst. simpl. split; auto. split; [intuition|].
        intro w. unfold map_get. simpl. rewrite (Nat.eqb_sym w v). destruct (v =? w); simpl; lia.
Qed.

Lemma fold_incr_spec l m : NoDup l -> StronglySorted lt (map fst m) ->
  let m' := fold_left (fun m v => map_incr v m) l m in
  StronglySorted lt (map fst m') /\
  (forall u, In u (map fst m') <-> In u l \/ In u (map fst m)) /\
  (forall u, map_get m' u = map_get m u + if mem u l then 1 else 0).
Proof.
  revert m. induction l as [|v l IH]; intros m Hn Hm; simpl.
  - split; auto. split; [intuition|]. intro; lia.
  - inversion Hn as [|x y Hni Hn']; subst. destruct (map_incr_spec v m Hm) as (A & B & C).
    destruct (IH (map_incr v m) Hn' A) as (A' & B' & C'). split; auto. split.
    + intro u. rewrite B', B. intuition.
    + intro u. rewrite C', C. unfold mem. simpl. fold (mem u l). destruct (Nat.eqb_spec u v); simpl.
      * subst. apply mem_false in Hni. rewrite Hni. lia.
      * lia.
Qed.

Lemma degrees_loop L m : (forall s, In s L -> good s) -> StronglySorted lt (map fst m) ->
  let m' := fold_left (fun m s => if sdim s =? 0 then m else fold_left (fun m v => map_incr v m) (verts s) m) L m in
  StronglySorted lt (map fst m') /\
  (forall u, In u (map fst m') <-> (exists s, In s L /\ pos_containing u s = true) \/ In u (map fst m)) /\
  (forall u, map_get m' u = map_get m u + length (filter (pos_containing u) L)).
Proof.
  revert m. induction L as [|s L IH]; intros m Hg Hm; simpl.
  - split; auto. split; [|intro; lia]. intro u. split; auto. intros [(s & [] & _)|]; auto.
  - assert (Hs : good s) by (apply Hg; simpl; auto).
    assert (Hd : (sdim s =? 0) = negb (2 <=? length (verts s))).
    { destruct Hs as [_ Hn]. unfold sdim. destruct (verts s) as [|a [|b l]]; simpl; auto. }
    rewrite Hd. destruct (2 <=? length (verts s)) eqn:E; simpl.
    + destruct (fold_incr_spec (verts s) m) as (A & B & C); [apply SSgt_NoDup, Hs|auto|].
      destruct (IH (fold_left (fun m v => map_incr v m) (verts s) m)) as (A' & B' & C'); auto.
      { intros; apply Hg; simpl; auto. }
      split; auto. split.
      * intro u. rewrite B', B. unfold pos_containing. split.
        -- intros [(t & Ht & Hp)|[Hu|Hu]]; auto; left; [exists t; auto|].
           exists s. rewrite E. split; auto. simpl. apply mem_In; auto.
        -- intros [(t & [<-|Ht] & Hp)|Hu]; auto; [|left; eauto].
           rewrite E in Hp. simpl in Hp. apply mem_In in Hp. auto.
      * intro u. rewrite C', C. unfold pos_containing at 2. rewrite E. simpl.
        destruct (mem u (verts s)); simpl; lia.
    + destruct (IH m) as (A' & B' & C'); auto. { intros; apply Hg; simpl; auto. }
      split; auto. split.
      * intro u. rewrite B'. unfold pos_containing. split.
        -- intros [(t & Ht & Hp)|Hu]; auto. left. exists t. auto.
        -- intros [(t & [<-|Ht] & Hp)|Hu]; auto; [|left; eauto]. rewrite E in Hp. discriminate.
      * intro u. rewrite C'. unfold pos_containing at 2. rewrite E. simpl. auto.
Qed.

Lemma map_get_In m p : StronglySorted lt (map fst m) -> In p m -> map_get m (fst p) = snd p.
Proof.
  intros Hs Hp. apply SSlt_NoDup in Hs. unfold map_get.
  induction m as [|q m IH]; [easy|]. simpl in *. inversion Hs as [|x y Hni Hn]; subst.
  destruct (Nat.eqb_spec (fst q) (fst p)).
  - destruct Hp as [<-|Hp]; auto. exfalso. apply Hni. rewrite e. apply in_map; auto.
  - destruct Hp as [->|Hp]; [easy|]. auto.
Qed.

Lemma degrees_correct K : kwf K ->
  exists vs, StronglySorted lt vs /\
    (forall v, In v vs <-> exists s, In s (by_index K) /\ pos_containing v s = true) /\
    degrees K = map (fun v => length (filter (pos_containing v) (by_index K))) vs.
Proof.
  intro HK. destruct (degrees_loop (by_index K) []) as (A & B & C).
  - apply (kwf_good K HK).
  - constructor.
  - set (m := fold_left _ (by_index K) []) in *. exists (map fst m). split; auto. split.
    + intro v. rewrite B. simpl. intuition.
    + unfold degrees. fold m. rewrite map_map. apply map_ext_in. intros p Hp.
      rewrite <- (map_get_In m p) by auto. rewrite C. auto.
Qed.

Lemma filter_length_eq {A} (f : A -> bool) l : length (filter f l) = length l <-> forall x, In x l -> f x = true.
Proof.
  split.
  - intros H x Hx. induction l as [|a l IH]; [easy|]. simpl in *.
    assert (Hle : length (filter f l) <= length l).
    { clear. induction l; simpl; auto. destruct (f a); simpl; lia. }
    destruct (f a) eqn:E; simpl in H; [|lia].
    destruct Hx as [<-|Hx]; auto.
  - intro H. rewrite filter_all; auto.
Qed.

Lemma dimension_spec K : kwf K ->
  (by_index K = [] -> k_dimension K = Throw RuntimeError) /\
  (by_index K <> [] -> exists d, k_dimension K = Ok d /\
     (exists s, In s (by_index K) /\ length (verts s) = S d) /\
     (forall s, In s (by_index K) -> length (verts s) <= S d)).
Proof.
  intro HK. unfold k_dimension. pose proof (kwf_perm K HK) as P. split.
  - intro E. rewrite E in P. apply Permutation_nil in P. rewrite P. auto.
  - intro E. destruct (last_opt (by_dim K)) as [s|] eqn:L.
    + assert (Hin : In s (by_index K)) by (apply in_dim; auto; apply last_opt_In; auto).
      assert (Hlen : forall t, In t (by_index K) -> length (verts t) = S (sdim t)).
      { intros t Ht. destruct (kwf_good K HK t Ht) as [_ Hn]. unfold sdim. destruct (verts t); [easy|simpl; lia]. }
      exists (sdim s). split; auto. split; [exists s; auto|].
      intros t Ht. rewrite Hlen by auto. apply le_n_S. eapply last_dim_max; eauto.
      * apply kwf_sorted; auto.
      * apply in_dim; auto.
    + apply last_opt_none in L. rewrite L in P. apply Permutation_sym, Permutation_nil in P. easy.
Qed.

Lemma n_degree_correct K s : kwf K -> wf s -> by_index K <> [] ->
  exists d, k_dimension K = Ok d /\
    n_degree K s = Ok (length (filter (fun t => (length (verts t) =? S d) && supersetb t (verts s)) (by_index K))).
Proof.
  intros HK Hs Hne. destruct (dimension_spec K HK) as [_ H]. destruct (H Hne) as (d & Ed & _).
  exists d. split; auto. unfold n_degree. rewrite Ed. cbn [bind]. f_equal.
  rewrite range_filter by auto. rewrite filter_filter.
  rewrite (Permutation_length (filter_perm _ _ _ (kwf_perm K HK))). f_equal.
  apply filter_ext_in. intros t Ht. apply in_dim in Ht; auto.
  destruct (kwf_good K HK t Ht) as [_ Hn]. f_equal.
  - unfold sdim. destruct (verts t); [easy|simpl]. rewrite Nat.sub_0_r. auto.
  - apply eq_true_iff_eq. rewrite Nat.eqb_eq, filter_length_eq, supersetb_spec. split.
    + intros Hv v Hin. apply mem_In, Hv. apply set_range_In; auto.
    + intros Hv v Hin. apply mem_In, Hv. apply set_range_In in Hin. destruct Hin as [|[]]; auto.
Qed.
