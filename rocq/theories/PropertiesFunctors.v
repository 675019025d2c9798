(** * Properties of zero-dimensional persistence with a functor. *)
From Coq Require Import List Arith Bool ZArith QArith Lia Permutation Sorted Relations.
From Verif Require Import Base BaseFacts Simplex SimplexFacts SpecComplex Complex ComplexFacts History SubcomplexFacts
  UnionFind UnionFindFacts Diagram Components ComponentFacts BarycentricFacts FiltrationFacts HomologyFacts DiagramFacts
  PairingFacts Functors SpecFunctors FunctorFacts PropertiesComplex PropertiesComponents.
Import ListNotations.
Local Open Scope nat_scope.

(** The default functor does nothing. *)
Definition emptyFunctor : functor unit := Functor (fun x _ => Ok x) (fun x _ _ _ _ _ _ => Ok x) (fun x _ _ => Ok x).

Lemma empty_step keep K st s : functor_step emptyFunctor keep K (st, tt) s = bind (zero_step keep K st s) (fun st' => Ok (st', tt)).
Proof.
  unfold functor_step, zero_step. cbn [fst snd]. rewrite bind_assoc. apply bind_ext. intro d. destruct (negb (d =? 1)); auto.
  rewrite bind_assoc. apply bind_ext. intro u. rewrite bind_assoc. apply bind_ext. intro v.
  destruct (uf_find (z_uf st) u) as [[m1 a]| | |]; auto. cbn [bind].
  destruct (uf_find m1 v) as [[m2 b]| | |]; auto. cbn [bind].
  destruct (a =? b); auto. rewrite bind_assoc. apply bind_ext. intro ia. rewrite bind_assoc. apply bind_ext. intro ib.
  destruct (ia <? ib); rewrite bind_assoc; apply bind_ext; intro c; rewrite bind_assoc; apply bind_ext; intro m3;
    cbn [f_merge emptyFunctor bind]; destruct (keep || negb (data c =? data s)%Z); auto;
    rewrite bind_assoc; apply bind_ext; auto.
Qed.

Lemma empty_root inf K st r : functor_root emptyFunctor inf K (st, tt) r = bind (zero_root inf K st r) (fun st' => Ok (st', tt)).
Proof.
  unfold functor_root, zero_root. destruct (k_lookup K (simplex_vertex r 0)); auto. rewrite bind_assoc. apply bind_ext. auto.
Qed.

Lemma empty_fold {S} (g : S * unit -> simplex -> outcome (S * unit)) h l : (forall st s, g (st, tt) s = bind (h st s) (fun st' => Ok (st', tt))) ->
  forall st, foldM g l (st, tt) = bind (foldM h l st) (fun st' => Ok (st', tt)).
Proof.
  intro E. induction l as [|s l IH]; intro st; simpl; auto. rewrite E, !bind_assoc. apply bind_ext. intro st'. apply IH.
Qed.

Lemma empty_fold' {S} (g : S * unit -> nat -> outcome (S * unit)) h l : (forall st s, g (st, tt) s = bind (h st s) (fun st' => Ok (st', tt))) ->
  forall st, foldM g l (st, tt) = bind (foldM h l st) (fun st' => Ok (st', tt)).
Proof.
  intro E. induction l as [|s l IH]; intro st; simpl; auto. rewrite E, !bind_assoc. apply bind_ext. intro st'. apply IH.
Qed.

Lemma empty_zero inf keep order K :
  zeroFunctor emptyFunctor inf keep order K tt = bind (zeroDimensional inf keep order K) (fun q => Ok (q, tt)).
Proof.
  unfold zeroFunctor, zeroDimensional.
  assert (E : forall l, foldM (f_initialize emptyFunctor) l tt = Ok tt) by (induction l; auto).
  rewrite E. cbn [bind]. rewrite (empty_fold _ _ _ (empty_step keep K)), !bind_assoc. apply bind_ext. intro st. cbn [bind fst snd].
  destruct (uf_roots order (z_uf st)) as [[m roots]| | |]; auto. cbn [bind].
  rewrite (empty_fold' _ _ _ (empty_root inf K)), !bind_assoc. apply bind_ext. intro st'. auto.
Qed.

Lemma runs_roots K rep evs roots : reachable K -> closed (by_index K) -> runs K (k_size K) rep evs ->
  Permutation roots (filter (fun u => rep u =? u) (k_vertices K)) -> all_roots K (map (fun r => (idx K r, r)) roots).
Proof.
  intros HR HC Hr Hp. pose proof (runs_rep K _ _ _ Hr) as Ho. split.
  - apply NoDup_map_inv with (f := snd). rewrite map_map. simpl. rewrite map_id.
    eapply Permutation_NoDup; [apply Permutation_sym, Hp|]. apply NoDup_filter, V_NoDup; auto.
  - intros i r. rewrite in_map_iff. split.
    + intros (r' & [= <- <-] & Hin). apply (Permutation_in _ Hp), filter_In in Hin. destruct Hin as [Hin E]. apply Nat.eqb_eq in E.
      pose proof (rep_first K HR _ rep r' Ho Hin) as X. rewrite E in X. auto.
    + intro H. destruct (first_rep K HR _ rep i r Ho H) as (Hin & -> & E). exists r. split; auto.
      apply (Permutation_in _ (Permutation_sym Hp)). apply filter_In. split; auto. apply Nat.eqb_eq; auto.
Qed.

(** The calls of the functor: first all vertices, then one call for every edge that joins two
    components of the graph of the edges before it, with the first vertices of both components,
    then one call per component; the diagram does not depend on the functor, and an exception of
    the functor ends the calculation. *)
Theorem C151_calls : forall inf keep order K,
  (forall l, Permutation (order l) l) -> reachable K -> closed (by_index K) ->
  exists evs rs ds,
    all_events K evs /\ all_roots K rs /\ Forall2 (fun q d => data_of K (fst q) d) rs ds /\
    let pd := map (fun e => (ev_creation e, ev_destruction e)) (filter (ev_kept keep) evs) ++ map (fun d => (d, inf)) ds in
    let pp := map (fun e => (ev_creator e, Some (ev_edge e))) (filter (ev_kept keep) evs) ++ map (fun q => (fst q, None)) rs in
    zeroDimensional inf keep order K = Ok (pd, pp) /\
    forall F (f : functor F) x, zeroFunctor f inf keep order K x =
      let* a := foldM (f_initialize f) (k_vertices K) x in
      let* b := foldM (fun x e => f_merge f x (ev_younger e) (ev_older e) (ev_creation e) (ev_destruction e) (ev_u e) (ev_v e)) evs a in
      let* c := foldM (fun x q => f_root f x (fst q) (snd q)) (combine (map snd rs) ds) b in
      Ok (pd, pp, c).
Proof.
  intros inf keep order K Ho HR HC.
  destruct (zero_functor K HR HC keep inf order Ho) as (rep & evs & roots & ds & Hr & Hp & Hds & E).
  exists evs, (map (fun r => (idx K r, r)) roots), ds.
  destruct (runs_events K _ _ _ Hr) as (A & B & C).
  assert (Hjl : forall j, joining K j -> j < k_size K).
  { intros j (u & v & He & _). apply edge_at_iff in He. destruct He as (s & Hs & _). eapply nth_error_lt; eauto. }
  refine (conj (conj A (conj B _)) (conj (runs_roots K rep evs roots HR HC Hr Hp) (conj _ _))).
  - intro j. rewrite C. split; [tauto|]. intro Hj. split; auto.
  - clear - Hds. induction Hds; simpl; constructor; auto.
  - cbv zeta. rewrite !map_map. cbn [fst snd]. rewrite map_id. split.
    + pose proof (E unit emptyFunctor tt) as X. rewrite empty_zero in X.
      assert (E0 : forall l, foldM (f_initialize emptyFunctor) l tt = Ok tt) by (induction l; auto).
      assert (E1 : forall l, foldM (do_merge emptyFunctor) l tt = Ok tt) by (induction l; auto).
      assert (E2 : forall l, foldM (fun x q => f_root emptyFunctor x (fst q) (snd q)) l tt = Ok tt) by (induction l; auto).
      rewrite E0 in X. cbn [bind] in X. rewrite E1 in X. cbn [bind] in X. rewrite E2 in X. cbn [bind] in X.
      destruct (zeroDimensional inf keep order K) as [q| | |]; try discriminate. cbn [bind] in X. injection X as ->. auto.
    + intros F f x. rewrite E. auto.
Qed.

(** ** Sizes of components *)
Definition count (rep : nat -> nat) (V : list nat) (r : nat) : nat := length (filter (fun w => rep w =? r) V).

Lemma count_merged rep V y o : rep y = y -> rep o = o -> y <> o ->
  count (merged rep y o) V o = count rep V o + count rep V y /\
  forall r, r <> y -> r <> o -> count (merged rep y o) V r = count rep V r.
Proof.
  intros Ry Ro Hne. unfold count, merged. rewrite Ry, Ro. induction V as [|w V [IH1 IH2]]; simpl; auto. split.
  - destruct (Nat.eqb_spec (rep w) y) as [E|E].
    + rewrite Nat.eqb_refl. destruct (Nat.eqb_spec (rep w) o); [congruence|]. simpl. lia.
    + destruct (Nat.eqb_spec (rep w) o); simpl; lia.
  - intros r H1 H2. specialize (IH2 r H1 H2). destruct (Nat.eqb_spec (rep w) y) as [E|E].
    + destruct (Nat.eqb_spec o r); [congruence|]. destruct (Nat.eqb_spec (rep w) r); [congruence|]. auto.
    + destruct (Nat.eqb_spec (rep w) r); simpl; lia.
Qed.

Section Members.
  Variable K : complex.
  Hypothesis HR : reachable K.
  Hypothesis HC : closed (by_index K).

  Lemma members_filter j rep u : rep_ok K j rep -> In u (k_vertices K) ->
    members K j u (filter (fun w => rep w =? rep u) (k_vertices K)).
  Proof.
    intros Ho Hu. split; [apply NoDup_filter, V_NoDup; auto|]. intro w. rewrite filter_In, Nat.eqb_eq. split.
    - intros [Hw E]. split; [exists (idx K w); apply vertex_at_iff; auto|]. apply (ro_link _ _ _ Ho); auto.
    - intros [(k & Hk) Hl]. apply vertex_at_iff in Hk; auto. destruct Hk as [Hw _]. split; auto. apply (ro_link _ _ _ Ho); auto.
  Qed.

  Lemma members_perm j u l l' : members K j u l -> members K j u l' -> Permutation l l'.
  Proof. intros [A B] [C D]. apply NoDup_Permutation; auto. intro w. rewrite B, D. tauto. Qed.

  Lemma members_linked j u v l : linked K j u v -> members K j u l -> members K j v l.
  Proof.
    intros Hl [A B]. split; auto. intro w. rewrite B. split; intros [H1 H2]; split; auto.
    - eapply rst_trans; eauto.
    - eapply rst_trans; [exact H2|]. apply rst_sym; auto.
  Qed.

  Lemma members_count j rep u l : rep_ok K j rep -> In u (k_vertices K) -> members K j u l ->
    length l = count rep (k_vertices K) (rep u).
  Proof.
    intros Ho Hu Hl. apply Permutation_length. apply (members_perm j u); auto. apply members_filter; auto.
  Qed.

  (** the components at every position exist *)
  Lemma rep_exists j : j <= k_size K -> exists rep evs, runs K j rep evs.
  Proof.

    intro Hj. destruct (zero_functor K HR HC true 0%Z (fun l => l)) as (rep & evs & _ & _ & Hr & _); [auto|].
    revert Hj Hr. generalize (k_size K) as n. intros n Hj Hr. induction Hr as [|n rep evs Hr IH|n rep evs e Hr IH].
    - assert (j = 0) by lia. subst. exists (fun u => u), []. constructor.
    - destruct (Nat.eq_dec j (S n)) as [->|]; [|apply IH; lia]. exists rep, evs. apply runs_skip; auto.
    - destruct (Nat.eq_dec j (S n)) as [->|]; [|apply IH; lia]. exists (merged rep (ev_younger e) (ev_older e)), (evs ++ [e]). apply runs_merge; auto.
  Qed.

  Lemma members_exist j u : j <= k_size K -> In u (k_vertices K) -> exists l, members K j u l.
  Proof.
    intros Hj Hu. destruct (rep_exists j Hj) as (rep & evs & Hr). eexists. apply (members_filter j rep u); auto. apply (runs_rep K _ _ _ Hr).
  Qed.
End Members.

(** ** The tool for relevant edges *)
Lemma size_of_set m v n w : size_of (set_size m v n) w = if w =? v then n else size_of m w.
Proof.
  unfold size_of, set_size. cbn [find fst]. rewrite (Nat.eqb_sym w v). destruct (Nat.eqb_spec v w) as [->|Hne]; auto.
  induction m as [|[a b] m IH]; simpl; auto. destruct (Nat.eqb_spec a v) as [->|]; simpl.
  - destruct (Nat.eqb_spec v w); [congruence|auto].
  - destruct (a =? w); auto.
Qed.

Lemma filter_edges_id {A} (m : list ((nat * nat) * A)) e : ~ In e (map fst m) -> filter (fun q => negb (edge_eqb (fst q) e)) m = m.
Proof.
  induction m as [|[k a] m IH]; simpl; intro H; auto. unfold edge_eqb at 1. cbn [fst].
  destruct (Nat.eqb_spec (fst k) (fst e)) as [E1|], (Nat.eqb_spec (snd k) (snd e)) as [E2|]; simpl; try (f_equal; apply IH; tauto).
  exfalso. apply H. left. destruct k, e; simpl in *; congruence.
Qed.

Section Sizes.
  Variable K : complex.
  Hypothesis HR : reachable K.
  Hypothesis HC : closed (by_index K).
  Let V := k_vertices K.

  Lemma edge_desc j u v : edge_at K j u v -> v < u.
  Proof.
    intro H. apply edge_at_iff in H. destruct H as (s & Hs & Es).
    destruct (kwf_good K (reachable_kwf K HR) s (nth_error_In _ _ Hs)) as [Hw _]. red in Hw. rewrite Es in Hw.
    apply StronglySorted_inv in Hw. destruct Hw as [_ Hw]. apply Forall_inv in Hw. auto.
  Qed.

  Lemma edge_unique j k u v : edge_at K j u v -> edge_at K k u v -> j = k.
  Proof.
    intros H1 H2. apply edge_at_iff in H1. apply edge_at_iff in H2. destruct H1 as (s & Hs & Es), H2 as (t & Ht & Et).
    pose proof (reachable_kwf K HR) as HK.
    pose proof (proj2 (find_pos_spec K s j HK)) as A. pose proof (proj2 (find_pos_spec K s k HK)) as B.
    rewrite A in B; [|exists s; auto]. assert (X : Some j = Some k) by (apply B; exists t; split; auto; congruence). congruence.
  Qed.

  Definition event_key (e : event) : nat * nat := (ev_v e, ev_u e).

  Lemma runs_keys j rep evs e : runs K j rep evs -> is_event K e -> ev_edge e = j -> ~ In (event_key e) (map event_key evs).
  Proof.
    intros Hr He Ej Hin. apply in_map_iff in Hin. destruct Hin as (e' & E & Hin').
    destruct (runs_events K _ _ _ Hr) as (_ & B & C). rewrite Forall_forall in B. specialize (B e' Hin').
    assert (Hk : In (ev_edge e') (map ev_edge evs)) by (apply in_map; auto). apply C in Hk.
    unfold event_key in E. injection E as E1 E2. pose proof (ie_edge _ _ B) as X. pose proof (ie_edge _ _ He) as Y.
    rewrite E1, E2 in X. pose proof (edge_unique _ _ _ _ X Y). lia.
  Qed.

  Definition relevance_ok (e : event) (q : (nat * nat) * Q) : Prop :=
    fst q = event_key e /\ forall lu lv, members K (ev_edge e) (ev_u e) lu -> members K (ev_edge e) (ev_v e) lv ->
      (snd q == inject_Z (Z.of_nat (Nat.min (length lu) (length lv))) / inject_Z (Z.of_nat (Nat.max (length lu) (length lv))))%Q.
  Definition strength_ok (e : event) (q : (nat * nat) * nat) : Prop :=
    fst q = event_key e /\ forall lu lv, members K (ev_edge e) (ev_u e) lu -> members K (ev_edge e) (ev_v e) lv ->
      snd q = length lu + length lv.

  Lemma Forall2_keys {A} (P : event -> (nat * nat) * A -> Prop) evs m :
    (forall e q, P e q -> fst q = event_key e) -> Forall2 P evs m -> map fst m = map event_key evs.
  Proof. intros H F. induction F; simpl; auto. f_equal; auto. Qed.

  Lemma size_init : forall l x,
    exists x', foldM sf_initialize l x = Ok x' /\ edgeRelevance x' = edgeRelevance x /\ edgeStrength x' = edgeStrength x /\
      sf_labels x' = sf_labels x /\ forall v, size_of (componentSize x') v = if existsb (Nat.eqb v) l then 1 else size_of (componentSize x) v.
  Proof.
    induction l as [|a l IH]; intro x.
    - exists x. simpl. auto.
    - cbn [foldM]. unfold sf_initialize at 1. cbn [bind].
      destruct (IH (SizeFunctor (set_size (componentSize x) a 1) (edgeRelevance x) (edgeStrength x) (sf_labels x))) as (x' & E & A & B & C & D).
      exists x'. refine (conj E (conj A (conj B (conj C _)))). intro v. rewrite D. cbn [componentSize existsb]. rewrite size_of_set.
      destruct (v =? a), (existsb (Nat.eqb v) l); auto.
  Qed.

  Variable labels : list (list nat).
  Hypothesis Hlab : labels = [] \/ forall v, In v V -> v < length labels.

  Lemma sizes_run x0 : edgeRelevance x0 = [] -> edgeStrength x0 = [] -> sf_labels x0 = labels ->
    (forall v, In v V -> size_of (componentSize x0) v = 1) ->
    forall j rep evs, runs K j rep evs ->
    exists x, foldM (do_merge sizeFunctor) evs x0 = Ok x /\ sf_labels x = labels /\
      (forall r, In r V -> rep r = r -> size_of (componentSize x) r = count rep V r) /\
      Forall2 relevance_ok evs (edgeRelevance x) /\ Forall2 strength_ok evs (edgeStrength x).
  Proof.
    intros H1 H2 H3 H4 j rep evs Hr. induction Hr as [|j rep evs Hr IH Ho Hn|j rep evs e Hr IH He Ej Ry Ro Hne HyV HoV Ho Hj].
    - exists x0. simpl. rewrite H1, H2. refine (conj eq_refl (conj H3 (conj _ (conj (Forall2_nil _) (Forall2_nil _))))).
      intros r Hin _. rewrite (H4 r Hin). unfold count. pose proof (V_NoDup K HR) as Hnd. fold V in Hnd. clear - Hin Hnd.
      induction V as [|a l IH]; [easy|]. apply NoDup_cons_iff in Hnd. destruct Hnd as [Ha Hnd]. simpl.
      destruct (Nat.eqb_spec a r) as [->|Hne].
      + simpl. f_equal. clear - Ha. induction l as [|b l IH]; simpl; auto. destruct (Nat.eqb_spec b r); [subst; elim Ha; simpl; auto|].
        apply IH. intro. apply Ha. simpl; auto.
      + destruct Hin as [->|Hin]; [easy|]. auto.
    - destruct IH as (x & E & A & B & C & D). exists x. auto.
    - destruct IH as (x & E & A & B & C & D).
      pose proof (runs_rep K _ _ _ Hr) as Hro. pose proof (ie_edge _ _ He) as Hedge. pose proof (edge_desc _ _ _ Hedge) as Hlt.
      destruct (edge_V K HR HC _ _ _ Hedge) as (Hu & Hv & _).
      pose proof (runs_keys j rep evs e Hr He Ej) as Hkey.
      assert (KR : map fst (edgeRelevance x) = map event_key evs) by (apply (Forall2_keys relevance_ok); [intros ? ? []; auto|auto]).
      assert (KS : map fst (edgeStrength x) = map event_key evs) by (apply (Forall2_keys strength_ok); [intros ? ? []; auto|auto]).
      set (so := size_of (componentSize x) (ev_older e)). set (sy := size_of (componentSize x) (ev_younger e)).
      assert (Eso : so = count rep V (ev_older e)) by (apply B; auto). assert (Esy : sy = count rep V (ev_younger e)) by (apply B; auto).
      set (x' := SizeFunctor (set_size (componentSize x) (ev_older e) (so + sy))
        (edgeRelevance x ++ [((ev_v e, ev_u e), (inject_Z (Z.of_nat (Nat.min so sy)) / inject_Z (Z.of_nat (Nat.max so sy)))%Q)])
        (edgeStrength x ++ [((ev_v e, ev_u e), so + sy)]) labels).
      assert (Estep : do_merge sizeFunctor x e = Ok x').
      { unfold do_merge. cbn [f_merge sizeFunctor]. unfold sf_merge. apply Nat.ltb_lt in Hlt. rewrite Hlt. fold so sy.
        rewrite size_of_set, Nat.eqb_refl. unfold set_edge. rewrite !filter_edges_id by (rewrite ?KR, ?KS; exact Hkey).
        rewrite A. fold x'. destruct Hlab as [El|Hl]; [rewrite El; unfold x'; rewrite El; auto|].
        destruct labels as [|l0 ls] eqn:El; auto. rewrite <- El in *. unfold at_.
        destruct (nth_error labels (ev_v e)) eqn:E1; [|apply nth_error_None in E1; specialize (Hl _ Hv); lia]. cbn [bind].
        destruct (nth_error labels (ev_u e)) eqn:E2; [|apply nth_error_None in E2; specialize (Hl _ Hu); lia]. auto. }
      assert (Hsz : forall lu lv, members K (ev_edge e) (ev_u e) lu -> members K (ev_edge e) (ev_v e) lv ->
        (length lu = sy /\ length lv = so) \/ (length lu = so /\ length lv = sy)).
      { intros lu lv Hlu Hlv. rewrite Ej in Hlu, Hlv. rewrite Eso, Esy. unfold V.
        rewrite (members_count K HR j rep (ev_u e) lu Hro Hu Hlu), (members_count K HR j rep (ev_v e) lv Hro Hv Hlv).
        pose proof (ie_ends _ _ He) as Hends. rewrite Ej in Hends.
        destruct Hends as [[X Y]|[X Y]]; apply (ro_link _ _ _ Hro) in X; auto; apply (ro_link _ _ _ Hro) in Y; auto; rewrite X, Y, Ry, Ro; auto. }
      exists x'. refine (conj _ (conj eq_refl (conj _ (conj _ _)))).
      + rewrite foldM_app, E. cbn [bind foldM]. rewrite Estep. auto.
      + intros r Hin Er. cbn [componentSize x']. rewrite size_of_set.
        destruct (count_merged rep V (ev_younger e) (ev_older e) Ry Ro Hne) as [M1 M2].
        destruct (Nat.eqb_spec r (ev_older e)) as [->|Hro']; [rewrite M1; lia|].
        assert (Hry : r <> ev_younger e).
        { intros ->. unfold merged in Er. rewrite Nat.eqb_refl, Ro in Er. congruence. }
        rewrite M2; auto. apply B; auto. unfold merged in Er. rewrite Ry, Ro in Er. destruct (rep r =? ev_younger e); congruence.
      + apply Forall2_app; auto. constructor; [|constructor]. split; auto. cbn [snd]. intros lu lv Hlu Hlv.
        destruct (Hsz lu lv Hlu Hlv) as [[-> ->]|[-> ->]]; [rewrite Nat.min_comm, Nat.max_comm|]; reflexivity.
      + apply Forall2_app; auto. constructor; [|constructor]. split; auto. cbn [snd]. intros lu lv Hlu Hlv.
        destruct (Hsz lu lv Hlu Hlv) as [[-> ->]|[-> ->]]; lia.
  Qed.
End Sizes.

Lemma Forall2_in_l {A B} (P : A -> B -> Prop) l m a : Forall2 P l m -> In a l -> exists b, In b m /\ P a b.
Proof. intro H. induction H; intros []; [subst; simpl; eauto|]. destruct IHForall2 as (b & Hb & Hp); auto. simpl; eauto. Qed.
Lemma Forall2_in_r {A B} (P : A -> B -> Prop) l m b : Forall2 P l m -> In b m -> exists a, In a l /\ P a b.
Proof. intro H. induction H; intros []; [subst; simpl; eauto|]. destruct IHForall2 as (a & Ha & Hp); auto. simpl; eauto. Qed.

(** Relevance and strength are stored for exactly the edges that join two components; the
    relevance is the quotient of the smaller and the larger number of vertices, the strength the
    number of vertices of the joined component. *)
Theorem C151_relevance : forall inf order labels K,
  (forall l, Permutation (order l) l) -> reachable K -> closed (by_index K) ->
  (labels = [] \/ forall v i, vertex_at K i v -> v < length labels) ->
  exists pd pp x, relevantEdges inf order labels K = Ok (pd, pp, x) /\ zeroDimensional inf false order K = Ok (pd, pp) /\
    (forall a b q, In ((a, b), q) (edgeRelevance x) -> a < b /\ exists j, edge_at K j b a /\ ~ linked K j b a) /\
    (forall a b n, In ((a, b), n) (edgeStrength x) -> a < b /\ exists j, edge_at K j b a /\ ~ linked K j b a) /\
    NoDup (map fst (edgeRelevance x)) /\ NoDup (map fst (edgeStrength x)) /\
    forall j u v, edge_at K j u v -> ~ linked K j u v ->
      exists lu lv q, members K j u lu /\ members K j v lv /\
        In ((v, u), q) (edgeRelevance x) /\ In ((v, u), length lu + length lv) (edgeStrength x) /\
        (q == inject_Z (Z.of_nat (Nat.min (length lu) (length lv))) / inject_Z (Z.of_nat (Nat.max (length lu) (length lv))))%Q.
Proof.
  intros inf order labels K Ho HR HC Hlab. destruct (zero_functor K HR HC false inf order Ho) as (rep & evs & roots & ds & Hr & Hp & Hds & E).
  assert (Hlab' : labels = [] \/ forall v, In v (k_vertices K) -> v < length labels).
  { destruct Hlab as [|H]; auto. right. intros v Hv. apply (H v (idx K v)). apply vertex_at_iff; auto. }
  destruct (size_init (k_vertices K) (SizeFunctor [] [] [] labels)) as (x0 & E0 & A0 & B0 & C0 & D0).
  destruct (sizes_run K HR HC labels Hlab' x0 A0 B0 C0) with (j := k_size K) (rep := rep) (evs := evs) as (x & Ex & _ & _ & FR & FS); auto.
  { intros v Hv. rewrite D0. assert (X : existsb (Nat.eqb v) (k_vertices K) = true) by (apply existsb_exists; exists v; rewrite Nat.eqb_refl; auto).
    rewrite X. auto. }
  destruct (runs_events K _ _ _ Hr) as (HA & HB & HCv). rewrite Forall_forall in HB.
  assert (E2 : forall l (y : size_functor), foldM (fun x q => f_root sizeFunctor x (fst q) (snd q)) l y = Ok y) by (induction l; simpl; auto).
  assert (KR : map fst (edgeRelevance x) = map event_key evs) by (apply (Forall2_keys (relevance_ok K)); [intros ? ? []; auto|auto]).
  assert (KS : map fst (edgeStrength x) = map event_key evs) by (apply (Forall2_keys (strength_ok K)); [intros ? ? []; auto|auto]).
  assert (Hkeys : NoDup (map event_key evs)).
  { clear - Hr HR. induction Hr as [|j rep evs Hr IH|j rep evs e Hr IH He Ej]; auto; [constructor|].
    rewrite map_app. apply PairingFacts.NoDup_app_intro; auto; [constructor; [easy|constructor]|].
    intros q Hq [<-|[]]. apply (runs_keys K HR j rep evs e); auto. }
  assert (Hev : forall a b, In (a, b) (map event_key evs) -> a < b /\ exists j, edge_at K j b a /\ ~ linked K j b a).
  { intros a b Hin. apply in_map_iff in Hin. destruct Hin as (e & [= <- <-] & Hin). specialize (HB e Hin).
    split; [apply (edge_desc K HR _ _ _ (ie_edge _ _ HB))|]. exists (ev_edge e). split; [apply (ie_edge _ _ HB)|apply (ie_joins _ _ HB)]. }
  eexists _, _, x. refine (conj _ (conj _ (conj _ (conj _ (conj _ (conj _ _)))))).
  - unfold relevantEdges. rewrite E. cbn [f_initialize sizeFunctor]. rewrite E0. cbn [bind]. rewrite Ex. cbn [bind]. rewrite E2. reflexivity.
  - pose proof (E unit emptyFunctor tt) as X. rewrite empty_zero in X.
    assert (F0 : forall l, foldM (f_initialize emptyFunctor) l tt = Ok tt) by (induction l; auto).
    assert (F1 : forall l, foldM (do_merge emptyFunctor) l tt = Ok tt) by (induction l; auto).
    assert (F2 : forall l, foldM (fun x q => f_root emptyFunctor x (fst q) (snd q)) l tt = Ok tt) by (induction l; auto).
    rewrite F0 in X. cbn [bind] in X. rewrite F1 in X. cbn [bind] in X. rewrite F2 in X. cbn [bind] in X.
    destruct (zeroDimensional inf false order K) as [q| | |]; try discriminate. cbn [bind] in X. injection X as ->. auto.
  - intros a b q Hin. apply Hev. rewrite <- KR. apply in_map_iff. exists ((a, b), q). auto.
  - intros a b q Hin. apply Hev. rewrite <- KS. apply in_map_iff. exists ((a, b), q). auto.
  - rewrite KR. auto.
  - rewrite KS. auto.
  - intros j u v He Hl. assert (Hj : In j (map ev_edge evs)).
    { apply HCv. split; [|exists u, v; auto]. apply edge_at_iff in He. destruct He as (s & Hs & _). eapply nth_error_lt; eauto. }
    assert (Hjk : j <= k_size K) by (apply HCv in Hj; lia).
    apply in_map_iff in Hj. destruct Hj as (e & <- & Hin). specialize (HB e Hin).
    assert (Huv : u = ev_u e /\ v = ev_v e).
    { pose proof (ie_edge _ _ HB) as X. unfold edge_at in He, X. rewrite He in X. injection X as -> ->. auto. }
    destruct Huv as [-> ->]. destruct (edge_V K HR HC _ _ _ He) as (Hu & Hv & _).
    destruct (members_exist K HR HC (ev_edge e) (ev_u e) Hjk Hu) as (lu & Hlu).
    destruct (members_exist K HR HC (ev_edge e) (ev_v e) Hjk Hv) as (lv & Hlv).
    destruct (Forall2_in_l _ _ _ e FR Hin) as ((k1 & q) & Hq & Kq & Pq). destruct (Forall2_in_l _ _ _ e FS Hin) as ((k2 & n) & Hn & Kn & Pn).
    cbn [fst snd] in *. subst k1 k2. exists lu, lv, q. refine (conj Hlu (conj Hlv (conj Hq (conj _ (Pq lu lv Hlu Hlv))))).
    rewrite <- (Pn lu lv Hlu Hlv). auto.
Qed.

(** a list of labels that does not cover all vertices ends the tool with an exception *)
Theorem C151_labels_refuted : exists inf labels K,
  reachable K /\ closed (by_index K) /\ labels <> [] /\ relevantEdges inf (fun l => l) labels K = Throw OutOfRange.
Proof.
  exists 99%Z, [[1]; [2]], (mk [PushBack [0] 0; PushBack [2] 0; PushBack [0;2] 1]).
  split; [apply mk_reachable|]. split; [apply closed_check; [apply mk_reachable|vm_compute; reflexivity]|].
  split; [discriminate|vm_compute; reflexivity].
Qed.

Definition path_graph : complex :=
  mk [PushBack [0] 0; PushBack [1] 0; PushBack [2] 1; PushBack [3] 0; PushBack [0;1] 1; PushBack [1;2] 2; PushBack [0;2] 3; PushBack [3;2] 4].

Example C151_example :
  (let* q := relevantEdges 99 (fun l => l) [] path_graph in Ok (edgeRelevance (snd q), edgeStrength (snd q)))
  = Ok ([((0, 1), (1 # 1)%Q); ((1, 2), (1 # 2)%Q); ((2, 3), (1 # 3)%Q)], [((0, 1), 2); ((1, 2), 3); ((2, 3), 4)]) /\
  reachable path_graph /\ closed (by_index path_graph).
Proof.
  split; [vm_compute; reflexivity|]. split; [apply mk_reachable|]. apply closed_check; [apply mk_reachable|vm_compute; reflexivity].
Qed.

Print Assumptions C151_calls.
Print Assumptions C151_relevance.
Print Assumptions C151_labels_refuted.
