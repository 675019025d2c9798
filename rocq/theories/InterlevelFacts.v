(** * Tags, interlevel sets and paths of the extended persistence hierarchy. *)
From Coq Require Import List Arith Bool ZArith Lia Sorted Permutation Relations.
From Verif Require Import Base BaseFacts Matrix Simplex SimplexFacts SpecComplex Complex ComplexFacts History SubcomplexFacts RepFacts
  RipsFacts PropertiesRips UnionFind UnionFindFacts Components ComponentFacts FloydFacts ExtendedHierarchy SearchFacts ExtendedFacts.
Import ListNotations.

Lemma contains_inv V m L rep u : inv V m L rep -> (uf_contains m u = true <-> In u V).
Proof.
  intro Hi. rewrite <- (inv_keys V m L rep Hi u). unfold uf_contains, parent_of. split.
  - destruct (find (fun q => fst q =? u) m) as [q|] eqn:E; [|discriminate]. intros _. apply find_some in E. destruct E as [E1 E2]. apply Nat.eqb_eq in E2. subst u. apply in_map. exact E1.
  - intro H. apply in_map_iff in H. destruct H as (q & <- & Hq). destruct (find (fun q0 => fst q0 =? fst q) m) eqn:E; [reflexivity|]. exfalso. pose proof (find_none _ _ E q Hq) as X. cbn in X. rewrite Nat.eqb_refl in X. discriminate.
Qed.
Lemma position_In u l : NoDup l -> In u l -> exists i, position (Nat.eqb u) l = Some i /\ nth_error l i = Some u.
Proof.
  intros _ Hu. destruct (position (Nat.eqb u) l) as [i|] eqn:E.
  - exists i. split; [reflexivity|]. apply position_some in E. destruct E as (x & H1 & H2 & _). apply Nat.eqb_eq in H2. congruence.
  - exfalso. pose proof (proj1 (position_none (Nat.eqb u) l) E u Hu) as X. rewrite Nat.eqb_refl in X. discriminate.
Qed.

Lemma firstn_S_nth {A} i (l : list A) x : nth_error l i = Some x -> firstn (S i) l = firstn i l ++ [x].
Proof.
  revert l. induction i as [|i IH]; intros [|y l] H; try discriminate; [injection H as ->; reflexivity|]. cbn [nth_error] in H. cbn [firstn app]. f_equal. apply IH. exact H.
Qed.

Section Level.
  Variable S : complex.
  Hypothesis HR : reachable S.
  Hypothesis HC : closed (by_index S).
  Hypothesis HD : forall s, In s (by_index S) -> sdim s <= 1.
  Let L := by_index S.
  Let HK : kwf S := reachable_kwf S HR.
  Let V := k_vertices S.

  (** *** tags *)
  Lemma tagEdges_ok : exists tags, tagEdges S = Ok tags /\
    forall k s u v, nth_error L k = Some s -> verts s = [u; v] -> exists t, tag_at tags s = Ok t /\ tagged L k t.
  Proof.
    unfold tagEdges. destruct (foldM_ind (tag_step S) (fun i st => tinv S i (fst st) (snd st)) (by_index S) (vm_init (k_vertices S), [])) as ((crit, tags) & -> & [T1 T2 T3]).
    - constructor; cbn [fst snd].
      + intros w Hw. rewrite (vm_init_V S w Hw). apply leads_self. intros; lia.
      + intros; lia.
      + intros q [].
    - intros i s (crit, tags) Hi HT. cbn [fst snd] in HT. destruct (tag_step_ok S HR HC i s crit tags Hi HT) as (crit' & tags' & E & HT'). exists (crit', tags'). auto.
    - cbn [bind snd]. exists tags. split; [reflexivity|]. intros k s u v Hk Es. apply (T2 k s u v); auto. apply nth_error_Some. unfold L in Hk. rewrite Hk. discriminate.
  Qed.

  (** *** interlevel sets *)
  Variables lo hi : Z.
  Let flt := filter (fun s => ((Z.min lo hi <=? data s)%Z && (data s <=? Z.max lo hi)%Z) && (sdim s <=? 1)) (by_index S).
  Lemma flt_In s : In s flt <-> In s (by_index S) /\ within lo hi (data s).
  Proof.
    unfold flt, within. rewrite filter_In, !andb_true_iff, !Z.leb_le, Nat.leb_le. split; [tauto|]. intros [H1 H2]. pose proof (HD s H1). tauto.
  Qed.
  Let VL := set_insert_range (flat_map (fun s => if sdim s =? 0 then firstn 1 (verts s) else []) flt) [].
  Lemma VL_spec w : In w VL <-> vertex_within L lo hi w.
  Proof.
    unfold VL. rewrite set_range_In, in_flat_map. split.
    - intros [(s & Hs & Hw)|[]]. apply flt_In in Hs. destruct Hs as [Hs1 Hs2]. destruct (Nat.eqb_spec (sdim s) 0) as [Hd|]; [|destruct Hw]. unfold sdim in Hd.
      destruct (good_verts S HR s Hs1) as [Hn _]. destruct (verts s) as [|a [|b l]] eqn:E; [contradiction| |simpl in Hd; lia]. destruct Hw as [<-|[]]. exists (data s). split; [exists s; auto|exact Hs2].
    - intros (e & (s & H1 & H2 & <-) & H3). left. exists s. split; [apply flt_In; auto|]. unfold sdim. rewrite H2. simpl. auto.
  Qed.
  Lemma VL_V w : In w VL -> In w V.
  Proof. intro H. apply VL_spec in H. destruct H as (e & (s & H1 & H2 & _) & _). apply (V_spec S HR w). exists s. auto. Qed.
  Lemma VL_NoDup : NoDup VL.
  Proof. apply SSlt_NoDup. apply set_range_sorted. constructor. Qed.

  Definition part_edge (pre : list simplex) (a b : nat) : Prop := exists s, In s pre /\ set_eq (verts s) [a; b] /\ a <> b /\ In a VL /\ In b VL.
  Lemma part_edge_level a b : part_edge flt a b <-> exists j, level_edge L lo hi j a b.
  Proof.
    split.
    - intros (s & H1 & H2 & H3 & H4 & H5). apply flt_In in H1. destruct H1 as [H1 H1']. apply In_nth_error in H1. destruct H1 as [j Hj]. exists j. refine (conj _ (conj (proj1 (VL_spec a) H4) (proj1 (VL_spec b) H5))).
      exists (data s). split; [exists s; auto|exact H1'].
    - intros (j & (d & (s & H1 & H2 & H3 & <-) & H4) & H5 & H6). exists s. refine (conj _ (conj H2 (conj H3 (conj (proj2 (VL_spec a) H5) (proj2 (VL_spec b) H6))))). apply flt_In. split; [eapply nth_error_In; eauto|exact H4].
  Qed.

  Definition linv (pre : list simplex) (uf : parents) : Prop := exists Lu rep, inv VL uf Lu rep /\
    forall a b, In a VL -> In b VL -> (rep a = rep b <-> clos_refl_sym_trans nat (part_edge pre) a b).
  Lemma part_mono pre s a b : clos_refl_sym_trans nat (part_edge pre) a b -> clos_refl_sym_trans nat (part_edge (pre ++ [s])) a b.
  Proof.
    induction 1 as [a b (t & H1 & H2)| | |]; [apply rst_step; exists t; split; [apply in_or_app; auto|exact H2]|apply rst_refl|apply rst_sym; assumption|eapply rst_trans; eassumption].
  Qed.
  Lemma part_same pre s : (forall a b, set_eq (verts s) [a; b] -> a <> b -> In a VL -> In b VL -> clos_refl_sym_trans nat (part_edge pre) a b) ->
    forall a b, clos_refl_sym_trans nat (part_edge (pre ++ [s])) a b <-> clos_refl_sym_trans nat (part_edge pre) a b.
  Proof.
    intros Hs a b. split; [|apply part_mono]. induction 1 as [a b (t & H1 & H2 & H3 & H4 & H5)| | |]; [|apply rst_refl|apply rst_sym; assumption|eapply rst_trans; eassumption].
    apply in_app_or in H1. destruct H1 as [H1|[<-|[]]]; [apply rst_step; exists t; auto|apply Hs; assumption].
  Qed.

  Lemma interlevel_step_ok pre s uf : In s flt -> linv pre uf -> exists uf', interlevel_step S uf s = Ok uf' /\ linv (pre ++ [s]) uf'.
  Proof.
    intros Hs (Lu & rep & Hi & Hrep). apply flt_In in Hs. destruct Hs as [Hs Hw]. unfold interlevel_step.
    destruct (Nat.eqb_spec (sdim s) 1) as [Hd|Hd].
    2:{ exists uf. split; [reflexivity|]. exists Lu, rep. split; [exact Hi|]. intros a b Ha Hb. rewrite (Hrep a b Ha Hb). symmetry. apply part_same. intros x y H1 H2 _ _. exfalso. apply Hd.
      destruct (In_nth_error _ _ Hs) as [j Hj]. destruct (edge_inv S HR HC j x y (data s)) as (s' & E1 & _ & _ & E2 & _); [exists s; auto|]. unfold L in *. congruence. }
    destruct (edge_form S s Hd Hs) as (u & v & Es). destruct (In_nth_error _ _ Hs) as [j Hj]. destruct (edge_of S HR HC j s u v Hj Es) as (He & Hu & Hv & Hne). rewrite Es. unfold get_ at 1 2. cbn [nth_error bind].
    assert (Ends : forall x y, set_eq (verts s) [x; y] -> x <> y -> (x = u /\ y = v) \/ (x = v /\ y = u)).
    { intros x y H1 H2. destruct (edge_unique S HR HC j x y (data s) u v (data s)) as [_ H]; [exists s; auto|exact He|exact H]. }
    destruct (uf_contains uf u) eqn:Cu; cbn [negb orb].
    2:{ exists uf. split; [reflexivity|]. exists Lu, rep. split; [exact Hi|]. intros a b Ha Hb. rewrite (Hrep a b Ha Hb). symmetry. apply part_same. intros x y H1 H2 H3 H4. exfalso.
      assert (X : uf_contains uf u = true); [|congruence]. apply (contains_inv VL uf Lu rep u Hi). destruct (Ends x y H1 H2) as [[-> ->]|[-> ->]]; assumption. }
    destruct (uf_contains uf v) eqn:Cv; cbn [negb].
    2:{ exists uf. split; [reflexivity|]. exists Lu, rep. split; [exact Hi|]. intros a b Ha Hb. rewrite (Hrep a b Ha Hb). symmetry. apply part_same. intros x y H1 H2 H3 H4. exfalso.
      assert (X : uf_contains uf v = true); [|congruence]. apply (contains_inv VL uf Lu rep v Hi). destruct (Ends x y H1 H2) as [[-> ->]|[-> ->]]; assumption. }
    apply (contains_inv VL uf Lu rep u Hi) in Cu. apply (contains_inv VL uf Lu rep v Hi) in Cv.
    destruct (find_spec VL uf Lu rep u Hi Cu) as (uf1 & -> & Hi1). cbn [bind]. destruct (find_spec VL uf1 Lu rep v Hi1 Cv) as (uf2 & -> & Hi2). cbn [bind].
    destruct (Nat.eqb_spec (rep u) (rep v)) as [Er|Er].
    { exists uf2. split; [reflexivity|]. exists Lu, rep. split; [exact Hi2|]. intros a b Ha Hb. rewrite (Hrep a b Ha Hb). symmetry. apply part_same. intros x y H1 H2 H3 H4. apply Hrep; auto.
      destruct (Ends x y H1 H2) as [[-> ->]|[-> ->]]; congruence. }
    destruct (inv_rep _ _ _ _ Hi2 u Cu) as [Ru RuL]. destruct (inv_rep _ _ _ _ Hi2 v Cv) as [Rv RvL].
    destruct (by_age_spec S HR (rep u) (rep v) (VL_V _ Ru) (VL_V _ Rv) Er) as (y & o & -> & Hyo & _). cbn [bind].
    assert (HyV : In y VL /\ In o VL) by (destruct Hyo as [[-> ->]|[-> ->]]; auto). destruct HyV as [HyV HoV].
    destruct (merge_spec VL uf2 Lu rep y o Hi2 HyV HoV) as (uf3 & Lu3 & -> & Hi3). exists uf3. split; [reflexivity|]. exists Lu3, (merged rep y o). split; [exact Hi3|].
    pose proof (proj2 (inv_root _ _ _ _ Hi2 (rep u) Ru RuL)) as Ruu. pose proof (proj2 (inv_root _ _ _ _ Hi2 (rep v) Rv RvL)) as Rvv.
    assert (Ry : rep y = y) by (destruct Hyo as [[-> ->]|[-> ->]]; assumption). assert (Ro : rep o = o) by (destruct Hyo as [[-> ->]|[-> ->]]; assumption).
    assert (Huv : clos_refl_sym_trans nat (part_edge (pre ++ [s])) u v).
    { apply rst_step. exists s. rewrite Es. refine (conj _ (conj _ (conj Hne (conj Cu Cv)))); [apply in_or_app; simpl; auto|intro; reflexivity]. }
    assert (Hself : forall a, In a VL -> clos_refl_sym_trans nat (part_edge (pre ++ [s])) a (rep a)).
    { intros a Ha. apply part_mono. destruct (inv_rep _ _ _ _ Hi2 a Ha) as [Ra RaL]. apply Hrep; auto. symmetry. apply (inv_root _ _ _ _ Hi2 (rep a) Ra RaL). }
    assert (Hruv : clos_refl_sym_trans nat (part_edge (pre ++ [s])) (rep u) (rep v)) by (apply rst_trans with u; [apply rst_sym; apply Hself; exact Cu|apply rst_trans with v; [exact Huv|apply Hself; exact Cv]]).
    assert (Hyo3 : clos_refl_sym_trans nat (part_edge (pre ++ [s])) y o) by (destruct Hyo as [[-> ->]|[-> ->]]; [exact Hruv|apply rst_sym; exact Hruv]).
    assert (Hm : forall a, In a VL -> clos_refl_sym_trans nat (part_edge (pre ++ [s])) a (merged rep y o a)).
    { intros a Ha. unfold merged. rewrite Ry, Ro. destruct (Nat.eqb_spec (rep a) y) as [E|E]; [|apply Hself; exact Ha]. apply rst_trans with y; [rewrite <- E; apply Hself; exact Ha|exact Hyo3]. }
    assert (Hm2 : forall a b, rep a = rep b -> merged rep y o a = merged rep y o b) by (intros a b E; unfold merged; rewrite E; reflexivity).
    intros a b Ha Hb. split.
    - intro E. apply rst_trans with (merged rep y o a); [apply Hm; exact Ha|rewrite E; apply rst_sym; apply Hm; exact Hb].
    - intro H. assert (G : forall a b, clos_refl_sym_trans nat (part_edge (pre ++ [s])) a b -> (In a VL <-> In b VL) /\ (In a VL -> merged rep y o a = merged rep y o b)).
      { clear a b Ha Hb H. induction 1 as [a b (t & H1 & H2 & H3 & H4 & H5)|a|a b _ [IH1 IH2]|a b c _ [IH1 IH2] _ [IH3 IH4]].
        - split; [tauto|]. intros _. apply in_app_or in H1. destruct H1 as [H1|[<-|[]]].
          + apply Hm2. apply Hrep; auto. apply rst_step. exists t. auto.
          + assert (X : merged rep y o u = merged rep y o v).
            { unfold merged. rewrite Ry, Ro. destruct Hyo as [[-> ->]|[-> ->]]; destruct (Nat.eqb_spec (rep u) (rep u)), (Nat.eqb_spec (rep v) (rep u)), (Nat.eqb_spec (rep u) (rep v)), (Nat.eqb_spec (rep v) (rep v)); congruence. }
            destruct (Ends a b H2 H3) as [[-> ->]|[-> ->]]; [exact X|symmetry; exact X].
        - split; [tauto|reflexivity].
        - split; [tauto|]. intro Hx. symmetry. apply IH2. apply IH1. exact Hx.
        - split; [tauto|]. intro Hx. rewrite IH2 by exact Hx. apply IH4. apply IH1. exact Hx. }
      apply (G a b H). exact Ha.
  Qed.

  Lemma makeInterlevelSet_ok : exists K uf, makeInterlevelSet lo hi S = Ok (K, uf) /\ kwf K /\ by_index K = flt /\ linv flt uf.
  Proof.
    unfold makeInterlevelSet.
    assert (E : (if (hi <? lo)%Z then (hi, lo) else (lo, hi)) = (Z.min lo hi, Z.max lo hi)) by (destruct (Z.ltb_spec hi lo); f_equal; lia). rewrite E.
    change (filter (fun s => ((Z.min lo hi <=? data s)%Z && (data s <=? Z.max lo hi)%Z) && (sdim s <=? 1)) (by_index S)) with flt.
    destruct (of_range_new flt) as (K & -> & HKK & EK).
    - intros s Hs. apply flt_In in Hs. apply (kwf_good S HK). apply Hs.
    - unfold flt. pose proof (kwf_nodup S HK) as Hn. clear - Hn. induction (by_index S) as [|s l IH]; [constructor|]. inversion Hn as [|? ? H1 H2]; subst. cbn [filter map]. specialize (IH H2).
      destruct (((Z.min lo hi <=? data s)%Z && (data s <=? Z.max lo hi)%Z) && (sdim s <=? 1)); [|exact IH]. cbn [map]. constructor; [|exact IH]. intro X. apply H1. apply in_map_iff in X. destruct X as (t & <- & Ht). apply in_map. apply filter_In in Ht. apply Ht.
    - cbn [bind]. rewrite EK. fold VL.
      destruct (foldM_ind (interlevel_step S) (fun i uf => linv (firstn i flt) uf) flt (uf_init VL)) as (uf & -> & Hl).
      + exists [], (fun u => u). split; [apply init_inv|]. intros a b _ _. cbn [firstn]. split; [intros ->; apply rst_refl|]. induction 1 as [a b (s & [] & _)| | |]; congruence.
      + intros i s uf Hi Hl. destruct (interlevel_step_ok (firstn i flt) s uf) as (uf' & E1 & E2); [eapply nth_error_In; eauto|exact Hl|]. exists uf'. split; [exact E1|]. rewrite (firstn_S_nth i flt s Hi). exact E2.
      + exists K, uf. rewrite firstn_all in Hl. auto.
  Qed.
End Level.
