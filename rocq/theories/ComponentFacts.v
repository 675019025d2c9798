(** * Zero-dimensional persistence by union-find against matrix reduction. *)
From Coq Require Import List Arith Bool ZArith Lia Permutation Sorted Relations.
From Verif Require Import Base BaseFacts Matrix SpecMatrix ReductionFacts PairingFacts DualFacts RepFacts
  PropertiesMatrix HomologyFacts Simplex SimplexFacts SpecComplex Complex ComplexFacts FiltrationFacts History SubcomplexFacts
  PropertiesComplex UnionFind UnionFindFacts SpecDiagram SpecComponents Diagram DiagramFacts Components.
Import ListNotations.

Local Arguments min_low : simpl never.

Section Zero.
  Variables (K : complex) (M : matrix).
  Hypothesis HR : reachable K.
  Hypothesis HC : closed (by_index K).
  Hypothesis HV : valid_boundary (cols M) (dims M).
  Hypothesis HL : length (cols M) = k_size K.
  Hypothesis Hdims : dims M = map sdim (by_index K).
  Hypothesis Hcol : forall j s, nth_error (by_index K) j = Some s ->
    exists c, getColumn M j = Ok c /\
      (forall r, In r c <-> exists t, nth_error (by_index K) r = Some t /\
            subset (verts t) (verts s) /\ S (length (verts t)) = length (verts s)).

  Let HK : kwf K := reachable_kwf K HR.
  Let C := cols M.
  Let V := k_vertices K.
  Definition idx (u : nat) : nat := match k_find K (simplex_vertex u 0) with Some i => i | None => 0 end.

  Lemma V_spec u : In u V <-> exists s, In s (by_index K) /\ verts s = [u].
  Proof. apply (vertices_spec K HK). Qed.

  Lemma idx_spec u : In u V -> exists s, nth_error (by_index K) (idx u) = Some s /\ verts s = [u] /\
    k_index K (simplex_vertex u 0) = Ok (idx u).
  Proof.
    intro Hu. apply V_spec in Hu. destruct Hu as (s & Hs & Es). apply In_nth_error in Hs. destruct Hs as [i Hi].
    assert (F : k_find K (simplex_vertex u 0) = Some i) by (apply find_pos_spec; auto; exists s; auto).
    unfold idx, k_index. rewrite F. eauto.
  Qed.

  Lemma idx_of i s u : nth_error (by_index K) i = Some s -> verts s = [u] -> In u V /\ idx u = i.
  Proof.
    intros Hi Es. split; [apply V_spec; exists s; split; auto; eapply nth_error_In; eauto|].
    unfold idx. assert (F : k_find K (simplex_vertex u 0) = Some i) by (apply find_pos_spec; auto; exists s; auto).
    rewrite F. auto.
  Qed.

  Lemma idx_inj u v : In u V -> In v V -> idx u = idx v -> u = v.
  Proof.
    intros Hu Hv E. destruct (idx_spec u Hu) as (s & H1 & H2 & _). destruct (idx_spec v Hv) as (t & H3 & H4 & _).
    rewrite E, H3 in H1. injection H1 as ->. congruence.
  Qed.

  Lemma idx_lt u : In u V -> idx u < k_size K.
  Proof. intro Hu. destruct (idx_spec u Hu) as (s & H1 & _). eapply nth_error_lt; eauto. Qed.

  Lemma dim_nth j s : nth_error (by_index K) j = Some s -> nth j (dims M) 0 = sdim s.
  Proof. intro H. rewrite Hdims. apply (map_nth_error sdim) in H. apply (nth_error_nth _ _ 0 H). Qed.

  Lemma good_verts s : In s (by_index K) -> verts s <> [] /\ NoDup (verts s).
  Proof.
    intro Hs. destruct (kwf_good K HK s Hs) as [Hw Hn]. split; auto. apply SSgt_NoDup. exact Hw.
  Qed.

  (** an edge *)
  Lemma edge_ends j s u v : nth_error (by_index K) j = Some s -> verts s = [u; v] ->
    In u V /\ In v V /\ u <> v.
  Proof.
    intros Hj Es. assert (Hs : In s (by_index K)) by (eapply nth_error_In; eauto).
    assert (G : forall w, In w (verts s) -> In w V).
    { intros w Hw. destruct (HC s [w] Hs) as (t & Ht & Et); [discriminate|intros x [<-|[]]; auto|].
      apply V_spec. exists t. split; auto. destruct (good_verts t Ht) as [Hn Hnd].
      assert (X : forall x, In x (verts t) -> x = w) by (intros x Hx; apply Et in Hx; destruct Hx as [<-|[]]; auto).
      destruct (verts t) as [|x [|y l]]; [easy| |].
      - f_equal. apply X; simpl; auto.
      - assert (x = w) by (apply X; simpl; auto). assert (y = w) by (apply X; simpl; auto). subst.
        inversion Hnd as [|? ? Hnot]; subst. elim Hnot. simpl; auto. }
    rewrite Es in G. destruct (good_verts s Hs) as [_ Hnd]. rewrite Es in Hnd.
    refine (conj (G u _) (conj (G v _) _)); simpl; auto. intros ->. inversion Hnd as [|? ? Hnot]; subst.
    apply Hnot. simpl; auto.
  Qed.

  Lemma edge_entry j s u v r : nth_error (by_index K) j = Some s -> verts s = [u; v] ->
    entry C r j = xorb (r =? idx u) (r =? idx v).
  Proof.
    intros Hj Es. destruct (edge_ends j s u v Hj Es) as (Hu & Hv & Hne).
    destruct (Hcol j s Hj) as (c & Ec & Hc).
    assert (Hn : nth j C [] = c).
    { unfold getColumn in Ec. apply BaseFacts.at_ok in Ec. apply (nth_error_nth _ _ [] Ec). }
    apply eq_true_iff_eq. unfold entry. rewrite Hn.
    assert (A : existsb (Nat.eqb r) c = true <-> In r c) by (apply (mem_In r c)).
    rewrite A, Hc. split.
    - intros (t & Ht & Hsub & Hlen). rewrite Es in Hsub, Hlen. simpl in Hlen.
      destruct (verts t) as [|x [|y l]] eqn:Et; simpl in Hlen; try lia.
      destruct (idx_of r t x Ht Et) as [Hx <-].
      assert (Hin : In x [u; v]) by (apply Hsub; simpl; auto). simpl in Hin.
      destruct Hin as [<-|[<-|[]]].
      + rewrite Nat.eqb_refl. destruct (Nat.eqb_spec (idx u) (idx v)) as [E|]; auto. elim Hne. apply idx_inj; auto.
      + rewrite Nat.eqb_refl. destruct (Nat.eqb_spec (idx v) (idx u)) as [E|]; auto. elim Hne. apply idx_inj; auto.
    - intro H. assert (H' : r = idx u \/ r = idx v).
      { destruct (Nat.eqb_spec r (idx u)); auto. destruct (Nat.eqb_spec r (idx v)); auto. discriminate. }
      destruct H' as [->| ->].
      + destruct (idx_spec u Hu) as (t & Ht & Et & _). exists t. rewrite Es, Et. split; auto. split; [|auto].
        intros x [<-|[]]. simpl; auto.
      + destruct (idx_spec v Hv) as (t & Ht & Et & _). exists t. rewrite Es, Et. split; auto. split; [|auto].
        intros x [<-|[]]. simpl; auto.
  Qed.

  (** columns of other simplices have no entries in rows of vertices *)
  Lemma other_entry j s u : nth_error (by_index K) j = Some s -> length (verts s) <> 2 -> In u V ->
    entry C (idx u) j = false.
  Proof.
    intros Hj Hn Hu. destruct (entry C (idx u) j) eqn:E; auto. destruct HV as (_ & _ & Hg & _).
    apply Hg in E. destruct E as [_ E]. destruct (idx_spec u Hu) as (t & Ht & Et & _).
    rewrite (dim_nth _ t Ht), (dim_nth _ s Hj) in E. unfold sdim in E. rewrite Et in E. simpl in E.
    assert (Hs : In s (by_index K)) by (eapply nth_error_In; eauto).
    destruct (good_verts s Hs) as [Hne _]. destruct (verts s) as [|a [|b [|c l]]]; simpl in *; try easy; lia.
  Qed.

  (** the default traits of the function drop pairs with equal data *)
  Definition kept (keep : bool) (q : nat * option nat) : bool :=
    match snd q with
    | Some k => keep || negb (data_at K (fst q) =? data_at K k)%Z
    | None => true
    end.

  Record zinv (keep : bool) (j : nat) (st : zstate) (P : list (nat * option nat)) (L : list nat) (rep : nat -> nat) : Prop := {
    zi_uf : inv V (z_uf st) L rep;
    zi_path : forall u v, In u V -> In v V -> rep u = rep v ->
      exists S, (forall k, In k S -> k < j) /\ forall r, sum_cols C S r = xorb (r =? idx u) (r =? idx v);
    zi_edges : forall k s u v, k < j -> nth_error (by_index K) k = Some s -> verts s = [u; v] -> rep u = rep v;
    zi_conn : forall u, In u V -> joined K u (rep u);
    zi_min : forall u, In u V -> idx (rep u) <= idx u;
    zi_pp : z_pp st = filter (kept keep) P;
    zi_pd : forall inf, z_pd st = map (pair_point inf K) (z_pp st);
    zi_P : forall i o, In (i, o) P <-> exists k, o = Some k /\ k < j /\ nth k (dims M) 0 = 1 /\ min_low C k (Some i);
    zi_nodup : NoDup P;
    zi_roots : forall u, In u V -> (rep u = u <-> forall k, ~ In (idx u, Some k) P)
  }.

  Lemma sum_cols_app' S T r : sum_cols C (S ++ T) r = xorb (sum_cols C S r) (sum_cols C T r).
  Proof. apply RepFacts.sum_cols_app. Qed.

  (** nothing happens *)
  Lemma zinv_skip keep j st P L rep s : nth_error (by_index K) j = Some s -> length (verts s) <> 2 ->
    zinv keep j st P L rep -> zinv keep (S j) st P L rep.
  Proof.
    intros Hj Hn Z. destruct Z as [Z1 Z2 Z3 Z0 Z4 Z5 Z6 Z7 Z8 Z9]. constructor; auto.
    - intros u v Hu Hv E. destruct (Z2 u v Hu Hv E) as (S0 & H1 & H2). exists S0. split; [intros k Hk; specialize (H1 k Hk); lia|auto].
    - intros k t u v Hk Ht Et. destruct (Nat.eq_dec k j) as [->|]; [|apply (Z3 k t); auto; lia].
      rewrite Hj in Ht. injection Ht as ->. rewrite Et in Hn. elim Hn. auto.
    - intros i o. rewrite Z7. split; intros (k & E & Hk & Hd & Hm); exists k; refine (conj E (conj _ (conj Hd Hm))); [lia|].
      destruct (Nat.eq_dec k j) as [->|]; [|lia]. exfalso. rewrite (dim_nth j s Hj) in Hd. unfold sdim in Hd. lia.
  Qed.

  Section Step.
    Variables (keep : bool) (j : nat) (P : list (nat * option nat)) (L : list nat) (rep : nat -> nat).
    Variables (s : simplex) (u v : nat).
    Hypothesis Hj : nth_error (by_index K) j = Some s.
    Hypothesis Es : verts s = [u; v].
    Variable st : zstate.
    Hypothesis Z : zinv keep j st P L rep.

    Let Hends := edge_ends j s u v Hj Es.

    Lemma rep_V w : In w V -> In (rep w) V /\ rep (rep w) = rep w.
    Proof.
      intro Hw. destruct (inv_rep _ _ _ _ (zi_uf _ _ _ _ _ _ Z) w Hw) as [A B]. split; auto.
      apply (inv_root _ _ _ _ (zi_uf _ _ _ _ _ _ Z)); auto.
    Qed.

    (** both ends are in the same class *)
    Lemma same_class_low : rep u = rep v -> min_low C j None.
    Proof.
      intro E. destruct Hends as (Hu & Hv & _). destruct (zi_path _ _ _ _ _ _ Z u v Hu Hv E) as (S0 & H1 & H2).
      exists (fun r => xorb (entry C r j) (sum_cols C S0 r)). split.
      - exists S0. auto.
      - intro r. rewrite H2, (edge_entry j s u v r Hj Es). apply xorb_nilpotent.
    Qed.

    Lemma zinv_same m : rep u = rep v -> inv V m L rep ->
      zinv keep (S j) (ZState m (z_pd st) (z_pp st)) P L rep.
    Proof.
      intros E Hm. pose proof (same_class_low E) as Hlow. destruct Z as [Z1 Z2 Z3 Z0 Z4 Z5 Z6 Z7 Z8 Z9]. constructor; auto.
      - intros a b Ha Hb Eab. destruct (Z2 a b Ha Hb Eab) as (S0 & H1 & H2). exists S0. split; [intros k Hk; specialize (H1 k Hk); lia|auto].
      - intros k t a b Hk Ht Et. destruct (Nat.eq_dec k j) as [->|]; [|apply (Z3 k t); auto; lia].
        rewrite Hj in Ht. injection Ht as <-. rewrite Es in Et. injection Et as <- <-. auto.
      - intros i o. rewrite Z7. split; intros (k & Eo & Hk & Hd & Hmin); exists k; refine (conj Eo (conj _ (conj Hd Hmin))); [lia|].
        destruct (Nat.eq_dec k j) as [->|]; [|lia]. exfalso. pose proof (min_low_unique _ _ _ _ Hmin Hlow). discriminate.
    Qed.

    (** different classes *)
    Variables (y o : nat).
    Hypothesis Hyo : (y = rep u /\ o = rep v) \/ (y = rep v /\ o = rep u).
    Hypothesis Hlt : idx o < idx y.

    Lemma yo_V : In y V /\ In o V /\ rep y = y /\ rep o = o /\ y <> o.
    Proof.
      destruct Hends as (Hu & Hv & _). destruct (rep_V u Hu), (rep_V v Hv).
      destruct Hyo as [[-> ->]|[-> ->]]; refine (conj _ (conj _ (conj _ (conj _ _)))); auto; intro E; rewrite E in Hlt; lia.
    Qed.

    Lemma path_to_root a : In a V -> exists S0, (forall k, In k S0 -> k < j) /\
      forall r, sum_cols C S0 r = xorb (r =? idx a) (r =? idx (rep a)).
    Proof.
      intro Ha. destruct (rep_V a Ha) as [H1 H2]. destruct (zi_path _ _ _ _ _ _ Z a (rep a) Ha H1) as (S0 & A & B); eauto.
    Qed.

    Lemma merged_chain : exists S0, (forall k, In k S0 -> k < j) /\
      forall r, xorb (entry C r j) (sum_cols C S0 r) = xorb (r =? idx y) (r =? idx o).
    Proof.
      destruct Hends as (Hu & Hv & _).
      destruct (path_to_root u Hu) as (S1 & A1 & B1). destruct (path_to_root v Hv) as (S2 & A2 & B2).
      exists (S1 ++ S2). split.
      - intros k Hk. apply in_app_iff in Hk. destruct Hk; auto.
      - intro r. rewrite sum_cols_app', B1, B2, (edge_entry j s u v r Hj Es).
        destruct Hyo as [[-> ->]|[-> ->]];
        destruct (r =? idx u), (r =? idx v), (r =? idx (rep u)), (r =? idx (rep v)); reflexivity.
    Qed.

    (** rows of the vertices in the class of [y] *)
    Definition T : list nat := map idx (filter (fun w => rep w =? y) V).

    Lemma V_NoDup : NoDup V.
    Proof. apply SSlt_NoDup. apply (vertices_spec K HK). Qed.

    Lemma bigx_idx w l : incl l V -> NoDup l -> In w V -> bigx (fun r => r =? idx w) (map idx l) = existsb (Nat.eqb w) l.
    Proof.
      induction l as [|a l IH]; intros Hl Hn Hw; [reflexivity|]. inversion Hn as [|? ? Hna Hn']; subst.
      assert (Ha : In a V) by (apply Hl; simpl; auto). assert (Hl' : incl l V) by (intros x Hx; apply Hl; simpl; auto).
      cbn [map]. rewrite bigx_cons, IH by auto. simpl.
      destruct (Nat.eqb_spec (idx a) (idx w)) as [E|E].
      - apply idx_inj in E; auto. subst a. rewrite Nat.eqb_refl. simpl.
        destruct (existsb (Nat.eqb w) l) eqn:X; auto. apply (mem_In w l) in X. easy.
      - destruct (Nat.eqb_spec w a) as [->|]; [easy|]. simpl. destruct (existsb (Nat.eqb w) l); auto.
    Qed.

    Lemma bigx_T w : In w V -> bigx (fun r => r =? idx w) T = (rep w =? y).
    Proof.
      intro Hw. unfold T. rewrite bigx_idx; auto.
      - apply eq_true_iff_eq. etransitivity; [apply (mem_In w)|]. rewrite filter_In. tauto.
      - intros x Hx. apply filter_In in Hx. tauto.
      - apply NoDup_filter, V_NoDup.
    Qed.

    Lemma phi_edge k t a b : nth_error (by_index K) k = Some t -> verts t = [a; b] ->
      bigx (fun r => entry C r k) T = xorb (rep a =? y) (rep b =? y).
    Proof.
      intros Hk Et. destruct (edge_ends k t a b Hk Et) as (Ha & Hb & _).
      rewrite (bigx_ext _ (fun r => xorb (r =? idx a) (r =? idx b))) by (intros; apply (edge_entry k t); auto).
      rewrite bigx_linear, !bigx_T; auto.
    Qed.

    Lemma phi_before k : k < j -> bigx (fun r => entry C r k) T = false.
    Proof.
      intro Hk. destruct (nth_error (by_index K) k) as [t|] eqn:Ht.
      2:{ apply nth_error_None in Ht. pose proof (nth_error_lt _ _ _ Hj). lia. }
      destruct (Nat.eq_dec (length (verts t)) 2) as [E2|E2].
      - destruct (verts t) as [|a [|b [|c l]]] eqn:Et; try discriminate.
        rewrite (phi_edge k t a b Ht Et), (zi_edges _ _ _ _ _ _ Z k t a b Hk Ht Et). apply xorb_nilpotent.
      - apply bigx_zero. intros r Hr. apply in_map_iff in Hr. destruct Hr as (w & <- & Hw). apply filter_In in Hw.
        apply (other_entry k t); auto; tauto.
    Qed.

    Lemma phi_j : bigx (fun r => entry C r j) T = true.
    Proof.
      rewrite (phi_edge j s u v Hj Es). destruct yo_V as (_ & _ & _ & _ & Hne).
      destruct Hyo as [[E1 E2]|[E1 E2]].
      - rewrite <- E1, <- E2, Nat.eqb_refl. destruct (Nat.eqb_spec o y); [congruence|auto].
      - rewrite <- E1, <- E2, Nat.eqb_refl. destruct (Nat.eqb_spec o y); [congruence|auto].
    Qed.

    Lemma diff_class_low : min_low C j (Some (idx y)).
    Proof.
      split.
      - destruct merged_chain as (S0 & H1 & H2). exists (fun r => xorb (r =? idx y) (r =? idx o)). split.
        + exists S0. split; [exact H1|]. intro r. symmetry. apply H2.
        + split.
          * rewrite Nat.eqb_refl. destruct (Nat.eqb_spec (idx y) (idx o)); [lia|auto].
          * intros r Hr. destruct (Nat.eqb_spec r (idx y)), (Nat.eqb_spec r (idx o)); auto; lia.
      - intros x (S0 & HS & Hx).
        assert (Hphi : bigx x T = true).
        { rewrite (bigx_ext x (fun r => xorb (entry C r j) (sum_cols C S0 r))) by (intros; apply Hx).
          rewrite bigx_linear, phi_j.
          assert (X : bigx (sum_cols C S0) T = false); [|rewrite X; auto].
          clear Hx. induction S0 as [|k S0 IH].
          - apply bigx_zero. auto.
          - rewrite (bigx_ext _ (fun r => xorb (entry C r k) (sum_cols C S0 r))) by auto.
            rewrite bigx_linear, phi_before by (apply HS; simpl; auto). rewrite IH; auto. intros; apply HS; simpl; auto. }
        apply bigx_true in Hphi. destruct Hphi as (r & Hr & Hxr). exists r. split; auto.
        apply in_map_iff in Hr. destruct Hr as (w & <- & Hw). apply filter_In in Hw. destruct Hw as [Hw Ew].
        apply Nat.eqb_eq in Ew. rewrite <- Ew. apply (zi_min _ _ _ _ _ _ Z); auto.
    Qed.

    Lemma zinv_merge m L' : inv V m L' (merged rep y o) ->
      forall pd pp, pp = z_pp st ++ filter (kept keep) [(idx y, Some j)] ->
        (forall inf, pd = map (pair_point inf K) pp) ->
      zinv keep (S j) (ZState m pd pp) (P ++ [(idx y, Some j)]) L' (merged rep y o).
    Proof.
      intros Hm pd pp Hpp Hpd. pose proof diff_class_low as Hlow. destruct yo_V as (HyV & HoV & Ry & Ro & Hne).
      destruct Hends as (Hu & Hv & Huv).
      destruct merged_chain as (SM & HM1 & HM2).
      assert (HjM : forall a b, rep a = y -> rep b = o -> In a V -> In b V ->
        exists S0, (forall k, In k S0 -> k < Datatypes.S j) /\ forall r, sum_cols C S0 r = xorb (r =? idx a) (r =? idx b)).
      { intros a b Ea Eb Ha Hb. destruct (path_to_root a Ha) as (S1 & A1 & B1). destruct (path_to_root b Hb) as (S2 & A2 & B2).
        exists (j :: SM ++ S1 ++ S2). split.
        - intros k [<-|Hk]; [lia|]. apply in_app_iff in Hk. destruct Hk as [Hk|Hk]; [specialize (HM1 k Hk); lia|].
          apply in_app_iff in Hk. destruct Hk as [Hk|Hk]; [specialize (A1 k Hk)|specialize (A2 k Hk)]; lia.
        - intro r. change (sum_cols C (j :: SM ++ S1 ++ S2) r) with (xorb (entry C r j) (sum_cols C (SM ++ S1 ++ S2) r)).
          rewrite !sum_cols_app', B1, B2, Ea, Eb. specialize (HM2 r).
          destruct (entry C r j), (sum_cols C SM r), (r =? idx y), (r =? idx o), (r =? idx a), (r =? idx b);
            simpl in *; congruence. }
      destruct Z as [Z1 Z2 Z3 Z0 Z4 Z5 Z6 Z7 Z8 Z9]. constructor; cbn [z_uf z_pd z_pp]; auto.
      - intros a b Ha Hb. unfold merged. rewrite Ry, Ro.
        destruct (Nat.eqb_spec (rep a) y) as [Ea|Ea], (Nat.eqb_spec (rep b) y) as [Eb|Eb]; intro E.
        + destruct (Z2 a b Ha Hb) as (S0 & H1 & H2); [congruence|]. exists S0. split; [intros k Hk; specialize (H1 k Hk); lia|auto].
        + apply HjM; auto.
        + destruct (HjM b a Eb E Hb Ha) as (S0 & H1 & H2). exists S0. split; auto. intro r. rewrite H2. apply xorb_comm.
        + destruct (Z2 a b Ha Hb E) as (S0 & H1 & H2). exists S0. split; [intros k Hk; specialize (H1 k Hk); lia|auto].
      - intros k t a b Hk Ht Et. destruct (Nat.eq_dec k j) as [->|].
        + rewrite Hj in Ht. injection Ht as <-. rewrite Es in Et. injection Et as <- <-. unfold merged. rewrite Ry, Ro.
          destruct Hyo as [[<- <-]|[<- <-]]; rewrite Nat.eqb_refl; destruct (Nat.eqb_spec o y); congruence.
        + apply rep_merged_same. apply (Z3 k t); auto; lia.
      - intros a Ha. unfold merged. rewrite Ry, Ro. destruct (Nat.eqb_spec (rep a) y) as [Ea|Ea]; auto.
        assert (Huv' : joined K u v).
        { apply rst_step. exists s. split; [eapply nth_error_In; eauto|]. rewrite Es. intro; tauto. }
        assert (Hyo' : joined K y o).
        { destruct Hyo as [[-> ->]|[-> ->]].
          - eapply rst_trans; [apply rst_sym, Z0; auto|]. eapply rst_trans; [exact Huv'|]. apply Z0; auto.
          - eapply rst_trans; [apply rst_sym, Z0; auto|]. eapply rst_trans; [apply rst_sym; exact Huv'|]. apply Z0; auto. }
        eapply rst_trans; [|exact Hyo']. rewrite <- Ea. apply Z0; auto.
      - intros a Ha. unfold merged. rewrite Ry, Ro. destruct (Nat.eqb_spec (rep a) y) as [Ea|Ea]; auto.
        specialize (Z4 a Ha). rewrite Ea in Z4. lia.
      - rewrite filter_app, <- Z5. auto.
      - intros i o'. rewrite in_app_iff, Z7. split.
        + intros [(k & Eo & Hk & Hd & Hmin)|[[= <- <-]|[]]].
          * exists k. refine (conj Eo (conj _ (conj Hd Hmin))). lia.
          * exists j. refine (conj eq_refl (conj (Nat.lt_succ_diag_r j) (conj _ Hlow))).
            rewrite (dim_nth j s Hj). unfold sdim. rewrite Es. auto.
        + intros (k & Eo & Hk & Hd & Hmin). destruct (Nat.eq_dec k j) as [->|].
          * right. left. pose proof (min_low_unique _ _ _ _ Hmin Hlow) as X. injection X as ->. congruence.
          * left. exists k. refine (conj Eo (conj _ (conj Hd Hmin))). lia.
      - apply NoDup_app_intro; auto; [constructor; [easy|constructor]|].
        intros q Hq [<-|[]]. apply Z7 in Hq. destruct Hq as (k & [= <-] & Hk & _). lia.
      - intros a Ha. unfold merged. rewrite Ry, Ro.
        assert (Hrep : (if rep a =? y then o else rep a) = a <-> rep a = a /\ a <> y).
        { destruct (Nat.eqb_spec (rep a) y) as [Ea|Ea].
          - split; [intros <-; congruence|]. intros [E1 E2]. congruence.
          - split; [intro E1; split; auto; congruence|tauto]. }
        rewrite Hrep, (Z9 a Ha). split.
        + intros [H1 H2] k Hk. apply in_app_iff in Hk. destruct Hk as [Hk|[[= Hk _]|[]]]; [apply (H1 k); auto|].
          apply H2. apply idx_inj; auto.
        + intro H. split; [intros k Hk; apply (H k); apply in_app_iff; auto|]. intros ->. apply (H j). apply in_app_iff. simpl; auto.
    Qed.
  End Step.

  Lemma kept_filter keep i j :
    filter (kept keep) [(i, Some j)] = if keep || negb (data_at K i =? data_at K j)%Z then [(i, Some j)] else [].
  Proof. reflexivity. Qed.

  Lemma step_zinv keep j s st P L rep : nth_error (by_index K) j = Some s -> zinv keep j st P L rep ->
    exists st' P' L' rep', zero_step keep K st s = Ok st' /\ zinv keep (S j) st' P' L' rep'.
  Proof.
    intros Hj Z. assert (Hs : In s (by_index K)) by (eapply nth_error_In; eauto).
    unfold zero_step. rewrite (good_dimension s (kwf_good K HK s Hs)). simpl bind.
    destruct (Nat.eqb_spec (sdim s) 1) as [Hd|Hd]; simpl negb; cbv iota.
    2:{ exists st, P, L, rep. split; auto. eapply zinv_skip; eauto. unfold sdim in Hd. lia. }
    destruct (good_verts s Hs) as [Hn _].
    destruct (verts s) as [|u [|v [|w l]]] eqn:Es; unfold sdim in Hd; rewrite Es in Hd; simpl in Hd; try lia.
    destruct (edge_ends j s u v Hj Es) as (Hu & Hv & Huv).
    unfold get_. simpl nth_error. simpl bind.
    destruct (find_spec V _ L rep u (zi_uf _ _ _ _ _ _ Z) Hu) as (m1 & E1 & Hi1). rewrite E1. simpl bind.
    destruct (find_spec V m1 L rep v Hi1 Hv) as (m2 & E2 & Hi2). rewrite E2. simpl bind.
    destruct (rep_V keep j P L rep st Z u Hu) as [HruV Hru]. destruct (rep_V keep j P L rep st Z v Hv) as [HrvV Hrv].
    destruct (Nat.eqb_spec (rep u) (rep v)) as [E|E].
    { eexists _, P, L, rep. split; [reflexivity|]. apply (zinv_same keep j P L rep s u v Hj Es st Z m2 E Hi2). }
    destruct (idx_spec _ HruV) as (su & Hsu & Esu & Eu). destruct (idx_spec _ HrvV) as (sv & Hsv & Esv & Ev).
    rewrite Eu, Ev. simpl bind.
    assert (Hjd : data_at K j = data s) by (unfold data_at; rewrite (nth_error_nth _ _ dummy_simplex Hj); auto).
    assert (Hjl : j < length (by_index K)) by (eapply nth_error_lt; eauto). apply Nat.ltb_lt in Hjl.
    assert (Hidx : k_index K s = Ok j).
    { unfold k_index. rewrite (proj2 (find_pos_spec K s j HK)); auto. exists s; auto. }
    assert (Fin : forall y o c, (y = rep u /\ o = rep v) \/ (y = rep v /\ o = rep u) -> idx o < idx y ->
      In y V -> In o V -> nth_error (by_index K) (idx y) = Some c ->
      exists st' P' L' rep',
        (let* c := k_get K (idx y) in
         let* m3 := uf_merge m2 y o in
         if keep || negb (data c =? data s)%Z then
           let* j := k_index K s in
           Ok (ZState m3 (z_pd st ++ [(data c, data s)]) (z_pp st ++ [(idx y, Some j)]))
         else Ok (ZState m3 (z_pd st) (z_pp st))) = Ok st' /\ zinv keep (S j) st' P' L' rep').
    { intros y o c Hyo Hlt HyV HoV Hc. unfold k_get, get_. rewrite Hc. simpl bind.
      destruct (merge_spec V m2 L rep y o Hi2 HyV HoV) as (m3 & L' & E3 & Hi3). rewrite E3. simpl bind.
      assert (Hcd : data_at K (idx y) = data c) by (unfold data_at; rewrite (nth_error_nth _ _ dummy_simplex Hc); auto).
      rewrite Hidx. simpl bind.
      pose proof (zinv_merge keep j P L rep s u v Hj Es st Z y o Hyo Hlt m3 L' Hi3) as G.
      rewrite kept_filter, Hcd, Hjd in G.
      destruct (keep || negb (data c =? data s)%Z).
      - eexists _, _, L', _. split; [reflexivity|]. apply G; auto. intro inf. rewrite map_app, <- (zi_pd _ _ _ _ _ _ Z inf). simpl.
        unfold pair_point. simpl. rewrite Hjl, Hcd, Hjd. auto.
      - eexists _, _, L', _. split; [reflexivity|]. apply G; auto. + rewrite app_nil_r; auto. + apply (zi_pd _ _ _ _ _ _ Z). }
    destruct (Nat.ltb_spec (idx (rep u)) (idx (rep v))) as [Hlt|Hge].
    - apply (Fin (rep v) (rep u) sv); auto.
    - apply (Fin (rep u) (rep v) su); auto. assert (idx (rep u) <> idx (rep v)) by (intro X; apply E, idx_inj; auto). lia.
  Qed.

  Lemma init_zinv keep : zinv keep 0 (ZState (uf_init V) [] []) [] [] (fun u => u).
  Proof.
    constructor; simpl; auto.
    - apply init_inv.
    - intros u v Hu Hv ->. exists []. split; [easy|]. intro r. simpl. destruct (r =? idx v); auto.
    - intros k s u v Hk. lia.
    - intros u _. apply rst_refl.
    - intros i o. split; [easy|]. intros (k & _ & Hk & _). lia.
    - constructor.
    - intros u Hu. split; auto.
  Qed.

  Lemma steps_zinv keep l1 l2 st P L rep : by_index K = l1 ++ l2 -> zinv keep (length l1) st P L rep ->
    exists st' P' L' rep', foldM (zero_step keep K) l2 st = Ok st' /\ zinv keep (k_size K) st' P' L' rep'.
  Proof.
    revert l1 st P L rep. induction l2 as [|s l2 IH]; intros l1 st P L rep E Z.
    - simpl. exists st, P, L, rep. split; auto. unfold k_size. rewrite E, app_nil_r. auto.
    - assert (Hj : nth_error (by_index K) (length l1) = Some s) by (rewrite E, nth_error_app2, Nat.sub_diag by lia; auto).
      destruct (step_zinv keep (length l1) s st P L rep Hj Z) as (st1 & P1 & L1 & rep1 & E1 & Z1).
      simpl. rewrite E1. simpl bind. apply (IH (l1 ++ [s]) st1 P1 L1 rep1).
      + rewrite <- app_assoc. auto.
      + rewrite app_length. simpl. rewrite Nat.add_1_r. auto.
  Qed.

  Lemma roots_loop inf roots st : incl roots V -> z_pd st = map (pair_point inf K) (z_pp st) ->
    exists m, foldM (zero_root inf K) roots st
      = Ok (ZState m (map (pair_point inf K) (z_pp st ++ map (fun u => (idx u, None)) roots))
                     (z_pp st ++ map (fun u => (idx u, None)) roots)).
  Proof.
    revert st. induction roots as [|u roots IH]; intros st Hin Hpd; simpl.
    - exists (z_uf st). rewrite app_nil_r, <- Hpd. destruct st; auto.
    - assert (Hu : In u V) by (apply Hin; simpl; auto).
      destruct (idx_spec u Hu) as (s & Hs & Es & _).
      unfold zero_root at 1. rewrite (proj2 (lookup_some K (simplex_vertex u 0) s HK)).
      2:{ split; auto. eapply nth_error_In; eauto. }
      assert (Hidx : k_index K s = Ok (idx u)).
      { unfold k_index. rewrite (proj2 (find_pos_spec K s (idx u) HK)); auto. exists s; auto. }
      rewrite Hidx. simpl bind.
      destruct (IH (ZState (z_uf st) (z_pd st ++ [unpaired_point inf (data s)]) (z_pp st ++ [(idx u, None)]))) as (m & E).
      + intros x Hx. apply Hin. simpl; auto.
      + simpl. rewrite map_app, <- Hpd. simpl. unfold pair_point, data_at, unpaired_point. simpl.
        rewrite (nth_error_nth _ _ dummy_simplex Hs). auto.
      + exists m. rewrite E. simpl. rewrite <- app_assoc. auto.
  Qed.

  Lemma joined_rep keep st P L rep : zinv keep (k_size K) st P L rep ->
    forall u v, joined K u v -> rep u = rep v.
  Proof.
    intros Z u v H. induction H as [a b (s & Hs & Es)| | |]; try congruence.
    destruct (good_verts s Hs) as [Hn Hd]. apply In_nth_error in Hs. destruct Hs as [k Hk].
    assert (Hlt : k < k_size K) by (eapply nth_error_lt; eauto).
    destruct (Nat.eq_dec a b) as [->|Hab]; auto.
    assert (X : verts s = [a; b] \/ verts s = [b; a]).
    { assert (X : forall x, In x (verts s) -> x = a \/ x = b).
      { intros x Hx. apply Es in Hx. simpl in Hx. intuition. }
      assert (Ha : In a (verts s)) by (apply Es; simpl; auto). assert (Hb : In b (verts s)) by (apply Es; simpl; auto).
      destruct (verts s) as [|x [|y [|z l]]].
      - easy.
      - simpl in *. intuition congruence.
      - simpl in *. intuition congruence.
      - exfalso. inversion Hd as [|? ? H1 Hd']; subst. inversion Hd' as [|? ? H2 Hd'']; subst.
        destruct (X x), (X y), (X z); simpl in *; auto; subst; tauto. }
    destruct X as [X|X].
    - apply (zi_edges _ _ _ _ _ _ Z k s); auto.
    - symmetry. apply (zi_edges _ _ _ _ _ _ Z k s); auto.
  Qed.

  Theorem zero_correct inf keep order p : (forall l, Permutation (order l) l) ->
    is_pairing C (dims M) true (fun _ => True) p ->
    exists pp, zeroDimensional inf keep order K = Ok (map (pair_point inf K) pp, pp) /\
      Permutation pp (filter (fun q => (nth (fst q) (dims M) 0 =? 0) && kept keep q) p) /\
      exists rep,
        (forall u, In u V -> In (rep u) V /\ joined K u (rep u) /\ idx (rep u) <= idx u /\
                             (In (idx u, None) pp <-> rep u = u)) /\
        (forall u v, joined K u v -> rep u = rep v).
  Proof.
    intros Ho Hp. unfold zeroDimensional.
    destruct (steps_zinv keep [] (by_index K) _ _ _ _ eq_refl (init_zinv keep)) as (st & P & L & rep & E & Z).
    fold V. rewrite E. simpl bind.
    destruct (roots_spec V order (z_uf st) L rep (zi_uf _ _ _ _ _ _ Z)) as (m & Er & _). rewrite Er. simpl bind.
    set (R := order (filter (fun u => rep u =? u) (map fst (z_uf st)))).
    assert (HRin : forall u, In u R <-> In u V /\ rep u = u).
    { intro u. unfold R. split.
      - intro H. apply (Permutation_in u (Ho _)), filter_In in H. destruct H as [H1 H2]. apply Nat.eqb_eq in H2.
        split; auto. apply (inv_keys _ _ _ _ (zi_uf _ _ _ _ _ _ Z)); auto.
      - intros [H1 H2]. apply (Permutation_in u (Permutation_sym (Ho _))), filter_In. split; [|apply Nat.eqb_eq; auto].
        apply (inv_keys _ _ _ _ (zi_uf _ _ _ _ _ _ Z)); auto. }
    assert (HRn : NoDup R).
    { eapply Permutation_NoDup; [apply Permutation_sym, Ho|]. apply NoDup_filter, (inv_nodup _ _ _ _ (zi_uf _ _ _ _ _ _ Z)). }
    destruct (roots_loop inf R (ZState m (z_pd st) (z_pp st))) as (m' & El).
    { intros u Hu. apply HRin in Hu. tauto. }
    { apply (zi_pd _ _ _ _ _ _ Z). }
    rewrite El. simpl. eexists. split; [reflexivity|].
    rewrite (zi_pp _ _ _ _ _ _ Z).
    destruct Hp as (Hsort & Hpair & Hun).
    split; [|exists rep; split; [|apply (joined_rep keep st P L rep Z)]].
    2:{ intros u Hu. destruct (inv_rep _ _ _ _ (zi_uf _ _ _ _ _ _ Z) u Hu) as [A _].
        refine (conj A (conj (zi_conn _ _ _ _ _ _ Z u Hu) (conj (zi_min _ _ _ _ _ _ Z u Hu) _))).
        rewrite in_app_iff. split.
        - intros [H|H].
          + apply filter_In in H. destruct H as [H _]. apply (zi_P _ _ _ _ _ _ Z) in H. destruct H as (k & [=] & _).
          + apply in_map_iff in H. destruct H as (w & [= Hw] & HwR). apply HRin in HwR. destruct HwR as [HwV Ew].
            apply idx_inj in Hw; auto. subst w. auto.
        - intro H. right. apply in_map_iff. exists u. split; auto. apply HRin. auto. }
    apply NoDup_Permutation.
    - apply NoDup_app_intro.
      + apply NoDup_filter, (zi_nodup _ _ _ _ _ _ Z).
      + apply NoDup_map_inj_in; auto. intros a b Ha Hb [= Hab]. apply HRin in Ha, Hb. apply idx_inj; tauto.
      + intros q Hq Hq'. apply in_map_iff in Hq'. destruct Hq' as (u & <- & _). apply filter_In in Hq. destruct Hq as [Hq _].
        apply (zi_P _ _ _ _ _ _ Z) in Hq. destruct Hq as (k & [=] & _).
    - apply NoDup_filter, pairs_sorted_NoDup; auto.
    - intros [i o]. rewrite in_app_iff, !filter_In, andb_true_iff, Nat.eqb_eq. simpl fst. split.
      + intros [[HP Hk]|Hq].
        * apply (zi_P _ _ _ _ _ _ Z) in HP. destruct HP as (k & -> & Hkn & Hd & Hm). rewrite <- HL in Hkn. split; [|split; auto].
          -- apply Hpair. auto.
          -- destruct (valid_low_facts M HV i k Hkn Hm) as (_ & Hdd & _). lia.
        * apply in_map_iff in Hq. destruct Hq as (u & [= <- <-] & Hu). apply HRin in Hu. destruct Hu as [Hu Hrep].
          destruct (idx_spec u Hu) as (su & Hsu & Esu & _).
          assert (Hd0 : nth (idx u) (dims M) 0 = 0) by (rewrite (dim_nth _ su Hsu); unfold sdim; rewrite Esu; auto).
          split; [|split; auto]. apply Hun.
          split; [fold C; unfold C; rewrite HL; apply idx_lt; auto|]. split; [|split; [|auto]].
          -- exists (fun r => xorb (entry C r (idx u)) (sum_cols C [] r)). split; [exists []; split; [easy|auto]|].
             intro r. simpl. rewrite xorb_false_r. destruct (entry C r (idx u)) eqn:X; auto.
             destruct HV as (_ & _ & Hg & _). apply Hg in X. lia.
          -- intros w Hw Hm. pose proof (proj1 (zi_roots _ _ _ _ _ _ Z u Hu) Hrep w) as Hno. apply Hno.
             apply (zi_P _ _ _ _ _ _ Z). exists w. refine (conj eq_refl (conj _ (conj _ Hm))); [rewrite <- HL; auto|].
             destruct (valid_low_facts M HV _ w Hw Hm) as (_ & Hdd & _). lia.
      + intros (Hin & Hd & Hk). destruct o as [k|].
        * left. split; auto. apply Hpair in Hin. destruct Hin as (Hkn & Hm & _). apply (zi_P _ _ _ _ _ _ Z).
          exists k. refine (conj eq_refl (conj _ (conj _ Hm))); [rewrite <- HL; auto|].
          destruct (valid_low_facts M HV i k Hkn Hm) as (_ & Hdd & _). lia.
        * right. apply Hun in Hin. destruct Hin as (Hin & _ & Hno & _).
          destruct (nth_error (by_index K) i) as [t|] eqn:Ht.
          2:{ apply nth_error_None in Ht. unfold C in Hin. rewrite HL in Hin. unfold k_size in Hin. lia. }
          rewrite (dim_nth i t Ht) in Hd. assert (Htin : In t (by_index K)) by (eapply nth_error_In; eauto).
          destruct (good_verts t Htin) as [Hne _].
          destruct (verts t) as [|u [|w l]] eqn:Et; unfold sdim in Hd; rewrite Et in Hd; simpl in Hd; try easy; try lia.
          destruct (idx_of i t u Ht Et) as [Hu <-]. apply in_map_iff. exists u. split; auto. apply HRin. split; auto.
          apply (zi_roots _ _ _ _ _ _ Z u Hu). intros k Hk'. apply (zi_P _ _ _ _ _ _ Z) in Hk'.
          destruct Hk' as (k' & [= <-] & Hkn & _ & Hm). apply (Hno k); auto. fold C. unfold C. rewrite HL. auto.
  Qed.
End Zero.
