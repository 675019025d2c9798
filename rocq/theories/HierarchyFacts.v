(** * Paths between critical points, and the main loop of the extended persistence hierarchy. *)
From Coq Require Import List Arith Bool ZArith Lia Sorted Permutation Relations.
From Verif Require Import Base BaseFacts Matrix Simplex SimplexFacts SpecComplex Complex ComplexFacts History SubcomplexFacts RepFacts
  RipsFacts PropertiesRips UnionFind UnionFindFacts Components ComponentFacts FloydFacts ExtendedHierarchy SearchFacts ExtendedFacts InterlevelFacts PathFacts.
Import ListNotations.

Section Between.
  Variable S : complex.
  Hypothesis HR : reachable S.
  Hypothesis HC : closed (by_index S).
  Hypothesis HD : forall s, In s (by_index S) -> sdim s <= 1.
  Let L := by_index S.
  Let HK : kwf S := reachable_kwf S HR.
  Let V := k_vertices S.
  Variable tags : tag_map.
  Hypothesis HT : forall k s u v, nth_error L k = Some s -> verts s = [u; v] -> exists t, tag_at tags s = Ok t /\ tagged L k t.

  Lemma edge_deref j x y d : edge L j x y d -> exists s, find_deref S (simplex_of [x; y] 0) = Ok s /\ nth_error L j = Some s.
  Proof.
    intros (s & H1 & H2 & H3 & H4). exists s. split; [|exact H1]. assert (Hs : In s (by_index S)) by (eapply nth_error_In; eauto). unfold find_deref.
    rewrite (proj2 (lookup_some S (simplex_of [x; y] 0) s HK)); [reflexivity|]. split; [exact Hs|]. apply wf_ext; [apply (kwf_good S HK s Hs)|apply simplex_of_wf|].
    intro w. rewrite simplex_of_In. apply H2.
  Qed.
  Lemma self_deref x : In x V -> exists s, find_deref S (simplex_of [x; x] 0) = Ok s.
  Proof.
    intro Hx. apply (V_spec S HR x) in Hx. destruct Hx as (s & Hs & Es). exists s. unfold find_deref.
    rewrite (proj2 (lookup_some S (simplex_of [x; x] 0) s HK)); [reflexivity|]. split; [exact Hs|]. apply wf_ext; [apply (kwf_good S HK s Hs)|apply simplex_of_wf|].
    intro w. rewrite simplex_of_In, Es. simpl. tauto.
  Qed.

  Variables lo hi : Z.
  Variables (indices : list nat) (adj : list (list nat)).
  Hypothesis Hnd : NoDup indices.
  Hypothesis Hlen : length adj = length indices.
  Hypothesis Hin : forall w, In w indices <-> vertex_within L lo hi w.
  Hypothesis Hadj : forall a b, In b (nth a adj []) <-> exists x y, nth_error indices a = Some x /\ nth_error indices b = Some y /\ exists j, level_edge L lo hi j x y.

  Lemma level_sym j x y : level_edge L lo hi j x y -> level_edge L lo hi j y x.
  Proof. intros ((d & H1 & H2) & H3 & H4). refine (conj _ (conj H4 H3)). exists d. split; [apply edge_sym; exact H1|exact H2]. Qed.
  Lemma indices_V x : In x indices -> In x V.
  Proof. intro H. apply Hin in H. destruct H as (e & (s & H1 & H2 & _) & _). apply (V_spec S HR x). exists s. auto. Qed.
  Lemma index_inj a b x : nth_error indices a = Some x -> nth_error indices b = Some x -> a = b.
  Proof. intros H1 H2. apply (proj1 (NoDup_nth_error indices) Hnd); [apply nth_error_Some; congruence|congruence]. Qed.

  Variables (u a : nat) (p : list nat) (lv : nat -> nat).
  Hypothesis Ha : nth_error indices u = Some a.
  Hypothesis Hpu : nth_error p u = Some u.
  Hypothesis Hlu : lv u = 0.
  Let reach := clos_refl_trans nat (fun x y => In y (nth x adj [])) u.
  Hypothesis Hb : forall x, reach x ->
      x < length indices /\ (forall y, In y (nth x adj []) -> lv y <= Datatypes.S (lv x)) /\
      (x <> u -> exists y, nth_error p x = Some y /\ lv x = Datatypes.S (lv y) /\ In x (nth y adj []) /\ reach y).

  Lemma path_tags_ok fuel v b acc : reach v -> nth_error indices v = Some b -> lv v < fuel -> StronglySorted lt acc ->
    exists c vs ts, path_tags fuel S tags indices p v acc = Ok c /\ StronglySorted lt c /\ level_path L lo hi b a vs ts /\ length vs = Datatypes.S (lv v) /\
      forall t, In t c <-> In t ts \/ In t acc.
  Proof.
    revert v b acc. induction fuel as [|fuel IH]; intros v b acc Hv Eb Hf Hacc; [lia|]. cbn [path_tags]. destruct (Nat.eq_dec v u) as [->|Hne].
    - rewrite (proj2 (BaseFacts.at_ok p u u) Hpu). cbn [bind]. rewrite (proj2 (BaseFacts.at_ok indices u a) Ha). cbn [bind]. destruct (self_deref a) as (s & ->); [apply indices_V; eapply nth_error_In; eauto|]. cbn [bind]. rewrite Nat.eqb_refl.
      assert (b = a) by congruence. subst b. exists acc, [a], []. refine (conj eq_refl (conj Hacc (conj (path_nil L lo hi a) (conj _ _)))); [rewrite Hlu; reflexivity|]. intro t. simpl. tauto.
    - destruct (Hb v Hv) as (Hlt & _ & H). destruct (H Hne) as (y & E1 & E2 & E3 & E4). rewrite (proj2 (BaseFacts.at_ok p v y) E1). cbn [bind]. rewrite (proj2 (BaseFacts.at_ok indices v b) Eb). cbn [bind].
      apply Hadj in E3. destruct E3 as (x1 & x2 & X1 & X2 & j & X3). assert (x2 = b) by congruence. subst x2. rewrite (proj2 (BaseFacts.at_ok indices y x1) X1). cbn [bind]. apply level_sym in X3.
      destruct X3 as ((d & Hd1 & Hd2) & Hd3 & Hd4). destruct (edge_deref j b x1 d Hd1) as (s & -> & Hs). cbn [bind]. destruct (Nat.eqb_spec y v) as [->|_]; [lia|].
      destruct (edge_inv S HR HC j b x1 d Hd1) as (s' & Hs' & _ & Hvs & _). assert (s' = s) by (unfold L in *; congruence). subst s'.
      assert (Ht : exists t, tag_at tags s = Ok t /\ tagged L j t) by (destruct Hvs as [Hvs|Hvs]; apply (HT j s _ _ Hs Hvs)). destruct Ht as (t & -> & Ht). cbn [bind].
      destruct (IH y x1 (set_insert t acc) E4 X1) as (c & vs & ts & H1 & H2 & H3 & H4 & H5); [lia|apply set_insert_sorted; exact Hacc|].
      exists c, (b :: vs), (t :: ts). refine (conj H1 (conj H2 (conj _ (conj _ _)))).
      + apply (path_cons L lo hi b x1 a vs ts j t); [|exact Ht|exact H3]. refine (conj _ (conj Hd3 Hd4)). exists d. auto.
      + cbn [length]. rewrite H4, E2. reflexivity.
      + intro r. rewrite H5, set_insert_In. simpl. split; [intros [?|[?|?]]; auto|intros [[?|?]|?]; auto].
  Qed.

  (** no path is shorter *)
  Lemma path_bound b z vs ts : level_path L lo hi b z vs ts -> z = a -> forall v, nth_error indices v = Some b -> reach v /\ Datatypes.S (lv v) <= length vs.
  Proof.
    induction 1 as [x|x y z vs ts j t He Ht Hp IH]; intros -> v Hv.
    - assert (v = u) by (apply (index_inj v u a); assumption). subst v. split; [apply rt_refl|]. rewrite Hlu. simpl. lia.
    - assert (Hy : In y indices) by (apply Hin; apply He). apply In_nth_error in Hy. destruct Hy as [w Hw]. destruct (IH eq_refl w Hw) as [R1 R2].
      assert (Hvw : In v (nth w adj [])) by (apply Hadj; exists y, x; refine (conj Hw (conj Hv _)); exists j; apply level_sym; exact He).
      destruct (Hb w R1) as (_ & H & _). specialize (H v Hvw). split; [eapply rt_trans; [exact R1|apply rt_step; exact Hvw]|]. cbn [length]. lia.
  Qed.
End Between.

Section Main.
  Variable S : complex.
  Hypothesis HR : reachable S.
  Hypothesis HC : closed (by_index S).
  Hypothesis HD : forall s, In s (by_index S) -> sdim s <= 1.
  Let L := by_index S.
  Let HK : kwf S := reachable_kwf S HR.
  Let V := k_vertices S.
  Variable tags : tag_map.
  Hypothesis HT : forall k s u v, nth_error L k = Some s -> verts s = [u; v] -> exists t, tag_at tags s = Ok t /\ tagged L k t.

  Lemma level_path_within lo hi b a vs ts : level_path L lo hi b a vs ts -> b = a \/ (vertex_within L lo hi b /\ vertex_within L lo hi a).
  Proof.
    induction 1 as [x|x y z vs ts j t He Ht Hp IH]; [auto|]. right. split; [apply He|]. destruct IH as [-> |IH]; [apply He|apply IH].
  Qed.
  Lemma level_path_joined lo hi b a vs ts : level_path L lo hi b a vs ts -> clos_refl_sym_trans nat (fun x y => exists j, level_edge L lo hi j x y) b a.
  Proof. induction 1 as [x|x y z vs ts j t He Ht Hp IH]; [apply rst_refl|]. eapply rst_trans; [apply rst_step; eauto|exact IH]. Qed.

  Lemma between_ok ca cb s a b : verts ca = [a] -> verts cb = [b] -> In a V -> In b V -> a <> b ->
    exists r, criticalPoints_between S tags ca cb s = Ok r /\
      match r with
      | None => forall vs ts, ~ level_path L (data ca) (data s) b a vs ts
      | Some c => NoDup c /\ exists vs ts, shortest_path L (data ca) (data s) b a vs ts /\ forall t, In t c <-> In t ts
      end.
  Proof.
    intros Ea Eb HaV HbV Hab. unfold criticalPoints_between. set (lo := data ca). set (hi := data s).
    destruct (makeInterlevelSet_ok S HR HC HD lo hi) as (K & uf & -> & HKK & EK & Lu & rep & Hi & Hrep). cbn [bind]. rewrite Ea, Eb. unfold get_ at 1 2. cbn [nth_error bind].
    set (VL := set_insert_range _ []) in Hi.
    assert (VLs : forall w, In w VL <-> vertex_within L lo hi w) by (intro w; apply (VL_spec S HR HD lo hi w)).
    assert (NoP : ~ In a VL \/ ~ In b VL -> forall vs ts, ~ level_path L lo hi b a vs ts).
    { intros H vs ts Hp. apply level_path_within in Hp. destruct Hp as [->|[H1 H2]]; [contradiction|]. destruct H as [H|H]; apply H; apply VLs; assumption. }
    destruct (uf_contains uf a) eqn:Ca; cbn [andb bind].
    2:{ exists None. split; [reflexivity|]. apply NoP. left. intro X. apply (contains_inv VL uf Lu rep a Hi) in X. congruence. }
    destruct (uf_contains uf b) eqn:Cb; cbn [andb bind].
    2:{ exists None. split; [reflexivity|]. apply NoP. right. intro X. apply (contains_inv VL uf Lu rep b Hi) in X. congruence. }
    apply (contains_inv VL uf Lu rep a Hi) in Ca. apply (contains_inv VL uf Lu rep b Hi) in Cb.
    destruct (find_spec VL uf Lu rep a Hi Ca) as (uf1 & -> & Hi1). cbn [bind]. destruct (find_spec VL uf1 Lu rep b Hi1 Cb) as (uf2 & -> & Hi2). cbn [bind].
    assert (Rel : forall x y, part_edge S lo hi (by_index K) x y <-> exists j, level_edge L lo hi j x y) by (intros x y; rewrite EK; apply (part_edge_level S HR HD lo hi x y)).
    destruct (Nat.eqb_spec (rep a) (rep b)) as [Er|Er].
    2:{ exists None. split; [reflexivity|]. intros vs ts Hp. apply Er. symmetry. apply Hrep; auto. apply level_path_joined in Hp. rewrite <- EK. clear - Hp Rel.
      induction Hp as [x y H|x|x y _ IH|x y z _ IH1 _ IH2]; [apply rst_step; apply Rel; exact H|apply rst_refl|apply rst_sym; exact IH|eapply rst_trans; eassumption]. }
    assert (KIn : forall t, In t (by_index K) -> In t (by_index S) /\ within lo hi (data t)) by (intros t Ht; rewrite EK in Ht; apply (flt_In S HD lo hi t); exact Ht).
    destruct (adjacencyGraph_ok K HKK) as (indices & adj & -> & Hnd & Hlen & Hin0 & Hadj0); [intros t Ht; apply HD; apply KIn; exact Ht|]. cbn [bind].
    assert (Hin : forall w, In w indices <-> vertex_within L lo hi w).
    { intro w. rewrite Hin0. split.
      - intros (t & H1 & H2). destruct (KIn t H1) as [H3 H4]. exists (data t). split; [exists t; auto|exact H4].
      - intros (e & (t & H1 & H2 & <-) & H3). exists t. split; [|exact H2]. rewrite EK. apply (flt_In S HD lo hi t). auto. }
    assert (Hadj : forall x y, In y (nth x adj []) <-> exists v w, nth_error indices x = Some v /\ nth_error indices y = Some w /\ exists j, level_edge L lo hi j v w).
    { intros x y. rewrite Hadj0. split; intros (v & w & H1 & H2 & H3); exists v, w; refine (conj H1 (conj H2 _)).
      - destruct H3 as (t & H3 & H4). destruct (KIn t H3) as [H5 H6]. apply In_nth_error in H5. destruct H5 as [j Hj]. exists j.
        assert (X : edge L j v w (data t)) by (destruct H4 as [H4|H4]; [|apply edge_sym]; apply (edge_of S HR HC j t _ _ Hj H4)).
        refine (conj _ (conj _ _)); [exists (data t); auto|apply Hin; eapply nth_error_In; eauto|apply Hin; eapply nth_error_In; eauto].
      - destruct H3 as (j & (d & He & Hd) & _). destruct (edge_inv S HR HC j v w d He) as (t & Ht & <- & Hvs & _). exists t. split; [|exact Hvs]. rewrite EK. apply (flt_In S HD lo hi t). split; [eapply nth_error_In; eauto|exact Hd]. }
    destruct (position_In a indices Hnd) as (u & -> & Hu); [apply Hin; apply VLs; exact Ca|]. destruct (position_In b indices Hnd) as (v & -> & Hv); [apply Hin; apply VLs; exact Cb|].
    destruct (bfs_spec (length indices) adj u) as (p & lv & -> & Hpl & Hlu & Hpu & HB).
    - exact Hlen.
    - intros x y H. apply Hadj in H. destruct H as (_ & w & _ & H & _). apply nth_error_Some. congruence.
    - apply nth_error_Some. congruence.
    - cbn [bind].
      assert (Reach : clos_refl_trans nat (fun x y => In y (nth x adj [])) u v).
      { assert (H : clos_refl_sym_trans nat (fun x y => exists j, level_edge L lo hi j x y) a b).
        { apply Hrep in Er; auto. rewrite <- EK in Er. clear - Er Rel. induction Er as [x y H|x|x y _ IH|x y z _ IH1 _ IH2]; [apply rst_step; apply Rel; exact H|apply rst_refl|apply rst_sym; exact IH|eapply rst_trans; eassumption]. }
        assert (G : forall x y, clos_refl_sym_trans nat (fun x y => exists j, level_edge L lo hi j x y) x y -> (In x indices <-> In y indices) /\
          forall i k, nth_error indices i = Some x -> nth_error indices k = Some y -> clos_refl_trans nat (fun c d => In d (nth c adj [])) i k /\ clos_refl_trans nat (fun c d => In d (nth c adj [])) k i).
        { clear - Hadj Hnd Hin HR HC. induction 1 as [x y (j & He)|x|x y _ [IH1 IH2]|x y z _ [IH1 IH2] _ [IH3 IH4]].
          - split; [rewrite !Hin; destruct He as (_ & ? & ?); tauto|]. intros i k Hi Hk. split; apply rt_step; apply Hadj; [exists x, y|exists y, x]; refine (conj _ (conj _ _)); try assumption; exists j; [exact He|apply level_sym; exact He].
          - split; [tauto|]. intros i k Hi Hk. assert (i = k) by (apply (index_inj indices Hnd i k x); assumption). subst k. split; apply rt_refl.
          - split; [tauto|]. intros i k Hi Hk. destruct (IH2 k i Hk Hi). auto.
          - split; [tauto|]. intros i k Hi Hk. assert (Hy : In y indices) by (apply IH3; eapply nth_error_In; eauto). apply In_nth_error in Hy. destruct Hy as [m Hm].
            destruct (IH2 i m Hi Hm). destruct (IH4 m k Hm Hk). split; eapply rt_trans; eassumption. }
        exact (proj1 (proj2 (G a b H) u v Hu Hv)). }
      destruct (path_tags_ok S HR HC tags HT lo hi indices adj Hlen Hin Hadj u a p lv Hu Hpu Hlu HB (Datatypes.S (length indices)) v b []) as (c & vs & ts & -> & Hc & Hp & Hl & Ht).
      + exact Reach.
      + exact Hv.
      + (* the level is bounded by the number of vertices *)
        assert (G : forall k x, lv x = k -> clos_refl_trans nat (fun c d => In d (nth c adj [])) u x -> exists l, NoDup l /\ length l = Datatypes.S k /\ (forall y, In y l -> y < length indices /\ lv y <= k)).
        { induction k as [|k IH]; intros x Ex Hx; destruct (HB x Hx) as (Hlt & _ & Hstep).
          - exists [x]. refine (conj _ (conj eq_refl _)); [constructor; [intros []|constructor]|]. intros y [<-|[]]. lia.
          - destruct (Nat.eq_dec x u) as [->|Hne]; [lia|]. destruct (Hstep Hne) as (y & _ & E & _ & Hy). destruct (IH y) as (l & H1 & H2 & H3); [lia|exact Hy|].
            exists (x :: l). refine (conj _ (conj _ _)); [constructor; [intro X; apply H3 in X; lia|exact H1]|simpl; lia|]. intros z [<-|Hz]; [lia|]. apply H3 in Hz. lia. }
        destruct (G (lv v) v eq_refl Reach) as (l & H1 & H2 & H3). assert (X : incl l (seq 0 (length indices))) by (intros y Hy; apply in_seq; apply H3 in Hy; lia).
        apply (NoDup_incl_length H1) in X. rewrite seq_length in X. lia.
      + constructor.
      + cbn [bind]. exists (Some c). split; [reflexivity|]. split; [apply SSlt_NoDup; exact Hc|]. exists vs, ts. split.
        * split; [exact Hp|]. intros vs' ts' Hp'. destruct (path_bound S lo hi indices adj Hnd Hlen Hin Hadj u a p lv Hu Hlu HB b a vs' ts' Hp' eq_refl v Hv) as [_ X]. lia.
        * intro t. rewrite Ht. simpl. tauto.
  Qed.
End Main.
