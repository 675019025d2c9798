(** * C29: shortest paths. *)
From Coq Require Import List Arith Bool ZArith Lia Permutation Sorted.
From Verif Require Import Base BaseFacts Simplex SimplexFacts SpecComplex Complex ComplexFacts ClosureFacts
  History Subcomplex SubcomplexFacts PropertiesComplex SymmetricMatrix PropertiesSmall
  SpecGraph FloydWarshall FloydFacts.
Import ListNotations.

(** ** C29 *)
Definition lab (L : list simplex) (i : nat) : nat := nth i (vertex_order L) 0.

Lemma vertex_order_eq K : kwf K -> vertex_order (by_index K) = map (fun s => hd 0 (verts s)) (fw_vertices K) /\
  forall s, In s (fw_vertices K) -> In s (by_index K) /\ exists v, verts s = [v].
Proof.
  intro HK. pose proof (kwf_good K HK) as Hg. unfold fw_vertices, vertex_order. split.
  - induction (by_index K) as [|s l IH]; auto. cbn [flat_map filter]. rewrite IH by (intros; apply Hg; simpl; auto).
    destruct (Hg s ltac:(simpl; auto)) as [_ Hn]. unfold sdim. destruct (verts s) as [|v [|v' r]] eqn:E; [easy| |].
    + cbn. rewrite E. auto.
    + cbn. auto.
  - intros s Hs. apply filter_In in Hs. destruct Hs as [Hs E]. split; auto. destruct (Hg s Hs) as [_ Hn].
    apply Nat.eqb_eq in E. unfold sdim in E. destruct (verts s) as [|v [|v' r]]; [easy|eauto|simpl in E; lia].
Qed.

Lemma vertex_order_NoDup K : kwf K -> NoDup (vertex_order (by_index K)).
Proof.
  intro HK. pose proof (kwf_nodup K HK) as Hn. unfold vertex_order. induction (by_index K) as [|s l IH]; [constructor|].
  simpl in Hn. inversion Hn as [|? ? H1 H2]; subst. cbn [flat_map]. destruct (verts s) as [|v [|v' r]] eqn:E; auto.
  cbn [app]. constructor; auto. intro H. apply in_flat_map in H. destruct H as (t & Ht & Hv).
  apply H1. destruct (verts t) as [|w [|w' r]] eqn:Et; try contradiction. destruct Hv as [->|[]]. rewrite <- Et. apply in_map; auto.
Qed.

Lemma fw_index_spec K u : kwf K ->
  (forall i, fw_index K u = Ok i <-> nth_error (vertex_order (by_index K)) i = Some u) /\
  (~ In u (vertex_order (by_index K)) -> fw_index K u = Throw OutOfRange).
Proof.
  intro HK. destruct (vertex_order_eq K HK) as [E Hv]. pose proof (vertex_order_NoDup K HK) as Hn. rewrite E in *.
  assert (P : forall i s, nth_error (fw_vertices K) i = Some s -> s_eqb (simplex_vertex u 0) s = true <-> hd 0 (verts s) = u).
  { intros i s Hs. destruct (Hv s (nth_error_In _ _ Hs)) as (_ & v & Ev). rewrite s_eqb_eq, Ev. simpl. split; congruence. }
  unfold fw_index. destruct (position (s_eqb (simplex_vertex u 0)) (fw_vertices K)) as [k|] eqn:Ek.
  - apply ComplexFacts.position_some in Ek. destruct Ek as (a & Ha & Ea & _). apply (P k a Ha) in Ea.
    assert (Hk : nth_error (map (fun s => hd 0 (verts s)) (fw_vertices K)) k = Some u) by (rewrite nth_error_map, Ha; simpl; congruence).
    split.
    + intro i. split; [intro H; injection H as <-; auto|]. intro Hi. f_equal.
      apply (proj1 (NoDup_nth_error _) Hn); [apply (nth_error_lt _ _ _ Hk)|congruence].
    + intro H. exfalso. apply H. apply (nth_error_In _ _ Hk).
  - rewrite ComplexFacts.position_none in Ek. split; auto. intro i. split; [discriminate|]. intro Hi. exfalso.
    rewrite nth_error_map in Hi. destruct (nth_error (fw_vertices K) i) as [s|] eqn:Es; [|discriminate].
    simpl in Hi. injection Hi as Hi. apply (P i s Es) in Hi. rewrite (Ek s (nth_error_In _ _ Es)) in Hi. discriminate.
Qed.

Lemma joined_app L1 L2 w u v x : joined (L1 ++ L2) w u v x <-> joined L1 w u v x \/ joined L2 w u v x.
Proof.
  unfold joined. split.
  - intros (s & Hs & H). apply in_app_or in Hs. destruct Hs; [left|right]; eauto.
  - intros [(s & Hs & H)|(s & Hs & H)]; exists s; split; auto; apply in_or_app; auto.
Qed.
Lemma joined_sym L w u v x : joined L w u v x -> joined L w v u x.
Proof.
  intros (s & Hs & Hn & He & Hx). exists s. refine (conj Hs (conj _ (conj _ Hx))); auto.
  intro z. rewrite (He z). simpl. tauto.
Qed.

Lemma edge_verts s u v : good s -> u <> v -> set_eq (verts s) [u; v] -> verts s = [u; v] /\ v < u \/ verts s = [v; u] /\ u < v.
Proof.
  intros [Hw _] Hn He. unfold wf in Hw. destruct (lt_dec v u) as [H|H].
  - left. split; auto. change [u; v] with (verts (Simplex [u; v] 0)). apply wf_ext; auto. repeat constructor; auto.
  - right. split; [|lia]. change [v; u] with (verts (Simplex [v; u] 0)). apply wf_ext; auto; [repeat constructor; lia|].
    intro z. rewrite (He z). simpl. tauto.
Qed.

Section FW.
  Variable K : complex.
  Variable w : Z.
  Hypothesis HK : kwf K.
  Hypothesis Hstored : forall s v, In s (by_index K) -> In v (verts s) -> In v (vertex_order (by_index K)).
  Notation L := (by_index K).
  Notation n := (length (vertex_order (by_index K))).
  Notation VO := (vertex_order (by_index K)).

  Definition edges_ok (l : list simplex) (g : nat -> nat -> ext) : Prop :=
    (forall a, a < n -> g a a = Fin 0) /\
    forall a b, a < n -> b < n -> a <> b ->
      match g a b with Fin x => joined l w (lab L a) (lab L b) x | Inf => forall x, ~ joined l w (lab L a) (lab L b) x end.

  Lemma lab_inj a b : a < n -> b < n -> lab L a = lab L b -> a = b.
  Proof. intros Ha Hb. apply (proj1 (NoDup_nth VO 0) (vertex_order_NoDup K HK)); auto. Qed.
  Lemma lab_nth a u : nth_error VO a = Some u -> lab L a = u /\ a < n.
  Proof. intro H. split; [apply nth_error_nth; auto|apply (nth_error_lt _ _ _ H)]. Qed.
  Lemma lab_ex u : In u VO -> exists a, a < n /\ lab L a = u /\ fw_index K u = Ok a.
  Proof.
    intro H. apply In_nth_error in H. destruct H as [a Ha]. exists a. destruct (lab_nth a u Ha). refine (conj _ (conj _ _)); auto.
    apply fw_index_spec; auto.
  Qed.

  Lemma edge_loop M g : rep n M g -> edges_ok [] g -> exists M' g', foldM (fw_edge K w) L M = Ok M' /\ rep n M' g' /\ edges_ok L g'.
  Proof.
    intros HM Hg0. 
    destruct (foldM_ind (fw_edge K w) (fun p M => exists g, rep n M g /\ edges_ok (firstn p L) g) L M) as (M' & E & g' & H1 & H2).
    - exists g. auto.
    - intros p s M1 Hs (g1 & R1 & D1 & J1).
      assert (HsL : In s L) by (apply (nth_error_In _ _ Hs)). pose proof (kwf_good K HK s HsL) as Hgood.
      assert (Ef : firstn (S p) L = firstn p L ++ [s]).
      { clear - Hs. revert p Hs. generalize L as l. induction l as [|y l IH]; intros [|p] H; simpl in *; try discriminate.
        - injection H as ->. auto.
        - rewrite IH; auto. }
      rewrite Ef. unfold fw_edge. rewrite good_dimension by auto. cbn [bind].
      destruct (Nat.eqb_spec (sdim s) 1) as [Ed|Ed].
      + unfold sdim in Ed. destruct (verts s) as [|u [|v [|z r]]] eqn:Ev; cbn in Ed; try lia.
        unfold s_nth, at_. rewrite Ev. cbn [nth_error bind].
        destruct Hgood as [Hw _]. unfold wf in Hw. rewrite Ev in Hw. assert (Huv : v < u) by (inversion Hw as [|? ? _ F]; subst; inversion F; auto).
        destruct (lab_ex u) as (iu & Lu & Eu & Iu); [apply (Hstored s); auto; rewrite Ev; simpl; auto|].
        destruct (lab_ex v) as (iv & Lv & Ev' & Iv); [apply (Hstored s); auto; rewrite Ev; simpl; auto|].
        rewrite Iu, Iv. cbn [bind]. set (x := if (data s =? 0)%Z then w else data s).
        destruct (rep_set n M1 g1 iu iv (Fin x) R1 Lu Lv) as (M2 & E2 & R2). exists M2. split; auto.
        assert (Hne : iu <> iv) by (intros ->; lia).
        assert (Hj : joined [s] w u v x).
        { exists s. refine (conj (or_introl eq_refl) (conj _ (conj _ eq_refl))); [lia|]. rewrite Ev. intro; tauto. }
        eexists. split; [exact R2|]. split.
        * intros a Ha. unfold upd2. destruct (Nat.eqb_spec a iu), (Nat.eqb_spec a iv); cbn [andb orb]; auto; congruence.
        * intros a b Ha Hb Hab.
          assert (Hcase : (a = iu /\ b = iv \/ a = iv /\ b = iu) /\ upd2 g1 iu iv (Fin x) a b = Fin x \/
                          ~ (a = iu /\ b = iv \/ a = iv /\ b = iu) /\ upd2 g1 iu iv (Fin x) a b = g1 a b).
          { unfold upd2. destruct (Nat.eqb_spec a iu), (Nat.eqb_spec b iv), (Nat.eqb_spec a iv), (Nat.eqb_spec b iu); cbn [andb orb]; tauto. }
          destruct Hcase as [[Hc ->]|[Hc ->]].
          -- apply joined_app. right. destruct Hc as [[-> ->]|[-> ->]]; rewrite Eu, Ev'; auto. apply joined_sym; auto.
          -- specialize (J1 a b Ha Hb Hab). destruct (g1 a b) as [y|]; [apply joined_app; auto|].
             intros y Hy. apply joined_app in Hy. destruct Hy as [Hy|(t & [<-|[]] & Hn & He & _)]; [eapply J1; eauto|].
             apply Hc. rewrite Ev in He.
             assert (A1 : lab L a = u \/ lab L a = v) by (destruct (proj2 (He (lab L a)) (or_introl eq_refl)) as [|[|[]]]; auto).
             assert (A2 : lab L b = u \/ lab L b = v) by (destruct (proj2 (He (lab L b)) (or_intror (or_introl eq_refl))) as [|[|[]]]; auto).
             assert (I1 : lab L a = lab L iu -> a = iu) by (apply lab_inj; auto).
             assert (I2 : lab L a = lab L iv -> a = iv) by (apply lab_inj; auto).
             assert (I3 : lab L b = lab L iu -> b = iu) by (apply lab_inj; auto).
             assert (I4 : lab L b = lab L iv -> b = iv) by (apply lab_inj; auto).
             destruct A1, A2; try congruence; [left|right]; split; (apply I1 || apply I2 || apply I3 || apply I4); congruence.
      + exists M1. split; auto. exists g1. refine (conj R1 (conj D1 _)). intros a b Ha Hb Hab. specialize (J1 a b Ha Hb Hab).
        destruct (g1 a b) as [y|]; [apply joined_app; auto|]. intros y Hy. apply joined_app in Hy.
        destruct Hy as [Hy|(t & [<-|[]] & Hn & He & _)]; [eapply J1; eauto|].
        apply Ed. unfold sdim. destruct (edge_verts s _ _ Hgood Hn He) as [[-> _]|[-> _]]; reflexivity.
    - exists M', g'. rewrite firstn_all in H2. auto.
  Qed.
End FW.

(** The entry for two vertices is the weight of a lightest walk between them,
    or infinite if there is none.  Rows follow the order of the vertices. *)
Theorem C29_shortest_walks : forall K w, reachable K -> closed (by_index K) ->
  (forall u v x, joined (by_index K) w u v x -> (0 <= x)%Z) ->
  exists M, floydWarshall K w = Ok M /\ sm_rows M = length (vertex_order (by_index K)) /\
  forall i j u v, nth_error (vertex_order (by_index K)) i = Some u -> nth_error (vertex_order (by_index K)) j = Some v ->
    exists e, sm_get M i j = Ok e /\
      match e with
      | Fin d => walk (by_index K) w u v d /\ forall d', walk (by_index K) w u v d' -> (d <= d')%Z
      | Inf => forall d, ~ walk (by_index K) w u v d
      end.
Proof.
  intros K w HR HC Hpos. pose proof (reachable_kwf K HR) as HK.
  assert (Hstored : forall s v, In s (by_index K) -> In v (verts s) -> In v (vertex_order (by_index K))).
  { intros s v Hs Hv. destruct (HC s [v]) as (t & Ht & Et); auto; [discriminate|intros z [<-|[]]; auto|].
    unfold vertex_order. apply in_flat_map. exists t. split; auto. destruct (kwf_good K HK t Ht) as [Hw _].
    replace (verts t) with [v]; [simpl; auto|]. symmetry. change [v] with (verts (Simplex [v] 0)). apply wf_ext; auto. repeat constructor. }
  set (n := length (vertex_order (by_index K))).
  assert (En : length (fw_vertices K) = n) by (unfold n; destruct (vertex_order_eq K HK) as [-> _]; rewrite map_length; auto).
  destruct (init_loop n) as (M0 & g0 & E0 & R0 & G0).
  destruct (edge_loop K w HK Hstored M0 g0 R0) as (M1 & g1 & E1 & R1 & D1 & J1).
  { split; [intros a Ha; rewrite G0, Nat.eqb_refl; auto|]. intros a b Ha Hb Hab. rewrite G0 by auto. destruct (Nat.eqb_spec a b); [easy|].
    intros x (s & [] & _). }
  set (E := fun a b => if (a <? n) && (b <? n) && negb (a =? b) then match g1 a b with Fin x => Some x | Inf => None end else None).
  assert (HE : forall a b x, E a b = Some x <-> a < n /\ b < n /\ a <> b /\ g1 a b = Fin x).
  { intros a b x. unfold E. destruct (Nat.ltb_spec a n), (Nat.ltb_spec b n), (Nat.eqb_spec a b); cbn [andb negb]; try (split; [discriminate|lia]).
    destruct (g1 a b); split; try discriminate; [intro Q; injection Q as ->; auto|intros (_ & _ & _ & Q); congruence|intros (_ & _ & _ & Q); discriminate]. }
  assert (HJ : forall a b x, E a b = Some x -> joined (by_index K) w (lab (by_index K) a) (lab (by_index K) b) x).
  { intros a b x H. apply HE in H. destruct H as (Ha & Hb & Hab & Hg). specialize (J1 a b Ha Hb Hab). rewrite Hg in J1. auto. }
  assert (HJ' : forall a b x, a < n -> b < n -> joined (by_index K) w (lab (by_index K) a) (lab (by_index K) b) x -> E a b = Some x).
  { intros a b x Ha Hb Hj. assert (Hab : a <> b) by (intros ->; destruct Hj as (s & _ & Hn & _); auto).
    apply HE. refine (conj Ha (conj Hb (conj Hab _))). specialize (J1 a b Ha Hb Hab). destruct (g1 a b) as [y|]; [|exfalso; eapply J1; eauto].
    f_equal. destruct Hj as (s & Hs & Hn & He & ->), J1 as (t & Ht & Hn' & He' & ->).
    assert (s = t); [|subst; auto]. apply (nodup_verts_eq K s t HK); auto. apply wf_ext; try (apply (kwf_good K HK); auto).
    intro z. rewrite (He z), (He' z). tauto. }
  assert (Epos : forall a b x, E a b = Some x -> (0 <= x)%Z) by (intros a b x H; apply HJ in H; eapply Hpos; eauto).
  destruct (stages_loop n E Epos M1 g1 R1) as (M & g & EM & RM & D & Sy & A & B).
  { split; [exact D1|]. split; [intros; apply (rep_sym n M1); auto|]. split.
    - intros a b d Ha Hb Hab Hg. apply iw_one. apply HE. auto.
    - intros a b d Ha Hb Hw. inversion Hw as [? ? ? H|? ? ? ? ? H Hm]; subst; [|lia]. apply HE in H. destruct H as (_ & _ & _ & ->). simpl. lia. }
  exists M. split.
  { unfold floydWarshall. rewrite En, E0. cbn [bind]. rewrite E1. cbn [bind]. exact EM. }
  pose proof RM as (_ & Hrows & Hget). split; auto.
  assert (W1 : forall i j d, iwalk E n i j d -> walk (by_index K) w (lab (by_index K) i) (lab (by_index K) j) d).
  { intros i j d H. induction H as [i j x H|i m j x d H Hm _ IH].
    - rewrite <- (Z.add_0_r x). eapply walk_step; [apply HJ; eauto|constructor].
    - eapply walk_step; [apply HJ; eauto|auto]. }
  assert (W2 : forall u v d, walk (by_index K) w u v d -> forall i j, i < n -> j < n -> lab (by_index K) i = u -> lab (by_index K) j = v ->
     (i = j /\ d = 0%Z) \/ iwalk E n i j d).
  { intros u v d H. induction H as [u|u m v x d Hj Hw IH]; intros i j Hi Hj' Eu Ev.
    - left. split; auto. apply (lab_inj K HK); auto. congruence.
    - destruct Hj as (s & Hs & Hn & He & Hx).
      assert (Hm : In m (vertex_order (by_index K))) by (apply (Hstored s); auto; apply He; simpl; auto).
      destruct (lab_ex K HK m Hm) as (im & Lm & Em & _).
      assert (Hedge : E i im = Some x) by (apply HJ'; auto; rewrite Eu, Em; exists s; auto).
      right. destruct (IH im j Lm Hj' Em Ev) as [[-> ->]|Hiw].
      + rewrite Z.add_0_r. apply iw_one; auto.
      + eapply iw_step; eauto. }
  intros i j u v Hi Hj. destruct (lab_nth K i u Hi) as [Eu Li]. destruct (lab_nth K j v Hj) as [Ev Lj]. fold n in Li, Lj.
  exists (g i j). split; [apply Hget; auto|].
  destruct (Nat.eq_dec i j) as [->|Hij].
  - rewrite (D j Lj). assert (Evu : v = u) by congruence. rewrite Evu. split; [apply walk_stay|].
    intros d' Hw. destruct (W2 _ _ _ Hw j j Lj Lj Eu Eu) as [[_ ->]|H]; [lia|]. apply (iwalk_pos E Epos) in H. auto.
  - destruct (g i j) as [d|] eqn:Eg.
    + split; [rewrite <- Eu, <- Ev; apply W1, A; auto|]. intros d' Hw. destruct (W2 _ _ _ Hw i j Li Lj Eu Ev) as [[H _]|H]; [easy|].
      specialize (B i j d' Li Lj H). rewrite Eg in B. exact B.
    + intros d Hw. destruct (W2 _ _ _ Hw i j Li Lj Eu Ev) as [[H _]|H]; [easy|].
      specialize (B i j d Li Lj H). rewrite Eg in B. exact B.
Qed.

(** 0 -5- 1 -1- 2 -1- 3, 0 -1- 2, and the isolated vertex 7; weights 0 are
    replaced by the default weight *)
Definition weighted_graph : complex :=
  mk [InsertRange [([0], 0%Z); ([1], 0%Z); ([2], 0%Z); ([3], 0%Z); ([7], 0%Z); ([0; 1], 5%Z); ([1; 2], 1%Z); ([2; 3], 0%Z); ([0; 2], 2%Z)]].
Example C29_example : exists M, floydWarshall weighted_graph 1 = Ok M /\
  map (fun q => sm_get M (fst q) (snd q)) [(0, 1); (1, 3); (3, 0); (4, 2); (2, 2)] =
  [Ok (Fin 3); Ok (Fin 2); Ok (Fin 3); Ok Inf; Ok (Fin 0)].
Proof. eexists. split; vm_compute; reflexivity. Qed.

Print Assumptions C29_shortest_walks.

(** an edge whose vertices are not stored *)
Theorem C29_not_closed_refuted : exists K, reachable K /\ floydWarshall K 1 = Throw OutOfRange.
Proof. exists (mk [InsertRange [([0; 1], 5%Z)]]). split; [apply mk_reachable|vm_compute; reflexivity]. Qed.
Print Assumptions C29_not_closed_refuted.
