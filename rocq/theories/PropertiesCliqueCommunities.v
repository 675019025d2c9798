(** * Properties of the tool for clique communities. *)
From Coq Require Import List Arith Bool ZArith Lia Permutation Sorted Relations.
From Verif Require Import Base BaseFacts Simplex SimplexFacts SpecComplex Complex ComplexFacts History SubcomplexFacts
  UnionFind UnionFindFacts Diagram Components ComponentFacts BarycentricFacts FiltrationFacts HomologyFacts DiagramFacts
  PairingFacts Functors SpecFunctors FunctorFacts PropertiesComplex PropertiesComponents PropertiesFunctors
  CliqueGraph PropertiesCliqueGraph PropertiesDowker CliqueCommunities.
Import ListNotations.

(** Vertex [w] belongs to a simplex of [K] whose position is in the component of [r] in the graph
    of the edges of [C] before [j]. *)
Definition touches (K C : complex) (j r w : nat) : Prop :=
  exists m i s, vertex_at C i m /\ linked C j m r /\ nth_error (by_index K) m = Some s /\ In w (verts s).

Definition sq (a b : Z) : Z := ((b - a) * (b - a))%Z.
Definition sum_ev (l : list event) : Z := fold_right (fun e a => (sq (ev_creation e) (ev_destruction e) + a)%Z) 0%Z l.
Definition sum_rt (D : Z) (l : list (nat * nat * Z)) : Z := fold_right (fun q a => (sq (snd q) D + a)%Z) 0%Z l.

(** [w] belongs to [n] communities of the graph [C], with [a] as sum of squared persistence; the
    communities of components that are never merged are counted up to [D]. *)
Definition community_count (K C : complex) (D : Z) (w n : nat) (a : Z) : Prop :=
  exists E R,
    NoDup E /\ NoDup R /\ n = length E + length R /\ a = (sum_ev E + sum_rt D R)%Z /\
    (forall e, In e E <-> is_event C e /\ ev_creation e <> ev_destruction e /\ touches K C (ev_edge e) (ev_younger e) w) /\
    (forall i r c, In (i, r, c) R <-> first_at C (k_size C) i r /\ data_of C i c /\ touches K C (k_size C) r w).

(** an event is determined by its edge *)
Lemma event_unique C : reachable C -> forall e e', is_event C e -> is_event C e' -> ev_edge e = ev_edge e' -> e = e'.
Proof.
  intros HR e e' H H' E. pose proof (ie_edge _ _ H) as A. pose proof (ie_edge _ _ H') as A'. rewrite E in A.
  unfold edge_at in A, A'. rewrite A in A'. injection A' as Eu Ev.
  assert (F : forall j i i' r r', first_at C j i r -> first_at C j i' r' -> linked C j r r' -> i = i' /\ r = r').
  { intros j i i' r r' [B1 B2] [D1 D2] Hl. assert (i <= i') by (apply (B2 i' r'); auto; apply rst_sym; auto).
    assert (i' <= i) by (apply (D2 i r); auto). assert (i = i') by lia. split; auto. subst i'. unfold vertex_at in B1, D1. rewrite B1 in D1. congruence. }
  pose proof (ie_joins _ _ H) as J. pose proof (ie_ends _ _ H) as T. pose proof (ie_ends _ _ H') as T'.
  pose proof (ie_younger _ _ H) as Y. pose proof (ie_younger _ _ H') as Y'.
  destruct (ie_older _ _ H) as (i & Hi & O). destruct (ie_older _ _ H') as (i' & Hi' & O').
  rewrite <- Eu, <- Ev, <- E in T'. rewrite <- E in Y', O'.
  set (j := ev_edge e) in *. assert (S1 : forall a b c, linked C j a b -> linked C j a c -> linked C j b c).
  { intros a b c H1 H2. eapply rst_trans; [apply rst_sym; exact H1|exact H2]. }
  assert (G : (ev_creator e = ev_creator e' /\ ev_younger e = ev_younger e') /\ (i = i' /\ ev_older e = ev_older e')).
  { destruct T as [[T1 T2]|[T1 T2]], T' as [[T3 T4]|[T3 T4]].
    - split; eapply F; eauto.
    - exfalso. destruct (F _ _ _ _ _ Y O' (S1 _ _ _ T1 T4)) as [X _]. destruct (F _ _ _ _ _ O Y' (S1 _ _ _ T2 T3)) as [X' _]. lia.
    - exfalso. destruct (F _ _ _ _ _ Y O' (S1 _ _ _ T1 T4)) as [X _]. destruct (F _ _ _ _ _ O Y' (S1 _ _ _ T2 T3)) as [X' _]. lia.
    - split; eapply F; eauto. }
  destruct G as [[G1 G2] [_ G3]].
  pose proof (ie_creation _ _ H) as X1. pose proof (ie_creation _ _ H') as X2. pose proof (ie_destruction _ _ H) as X3. pose proof (ie_destruction _ _ H') as X4.
  rewrite <- G1 in X2. fold j in X3. rewrite <- E in X4. unfold data_of in *. rewrite X1 in X2. rewrite X3 in X4.
  subst j. destruct e, e'; cbn in *. congruence.
Qed.

(** ** Maps *)
Lemma find_filter_ne {A} (m : list (nat * A)) v w : w <> v ->
  find (fun q => fst q =? w) (filter (fun q => negb (fst q =? v)) m) = find (fun q => fst q =? w) m.
Proof.
  intro H. induction m as [|[k a] m IH]; simpl; auto. destruct (Nat.eqb_spec k v) as [->|]; simpl.
  - destruct (Nat.eqb_spec v w); [congruence|auto].
  - destruct (k =? w); auto.
Qed.
Lemma find_filter_eq {A} (m : list (nat * A)) v : find (fun q => fst q =? v) (filter (fun q => negb (fst q =? v)) m) = None.
Proof.
  induction m as [|[k a] m IH]; simpl; auto. destruct (Nat.eqb_spec k v) as [->|]; simpl; auto.
  destruct (Nat.eqb_spec k v); [congruence|auto].
Qed.
Lemma vim_set m v a w : vim_of (set_vim m v a) w = if w =? v then a else vim_of m w.
Proof.
  unfold vim_of, set_vim. cbn [find fst]. rewrite (Nat.eqb_sym w v). destruct (Nat.eqb_spec v w) as [->|]; auto.
  rewrite find_filter_ne by congruence. auto.
Qed.
Lemma cc_set m v a w : cc_of (set_cc m v a) w = if w =? v then a else cc_of m w.
Proof.
  unfold cc_of, set_cc, erase_cc. cbn [find fst]. rewrite (Nat.eqb_sym w v). destruct (Nat.eqb_spec v w) as [->|]; auto.
  rewrite find_filter_ne by congruence. auto.
Qed.
Lemma cc_erase m v w : w <> v -> cc_of (erase_cc m v) w = cc_of m w.
Proof. intro H. unfold cc_of, erase_cc. rewrite find_filter_ne; auto. Qed.

Lemma component_size x v n : size_of (cc_cs x) v = S n -> getComponentSize x v = Ok (S n).
Proof. unfold size_of, getComponentSize. destruct (find _ _) as [q|]; [congruence|discriminate]. Qed.

Lemma fold_insert l : forall acc, NoDup acc -> NoDup (fold_left hs_insert l acc) /\ forall w, In w (fold_left hs_insert l acc) <-> In w acc \/ In w l.
Proof.
  induction l as [|v l IH]; intros acc Hn; simpl; [split; auto; intro; tauto|].
  assert (H : NoDup (hs_insert acc v) /\ forall w, In w (hs_insert acc v) <-> In w acc \/ v = w).
  { unfold hs_insert. destruct (existsb (Nat.eqb v) acc) eqn:E.
    - apply existsb_exists in E. destruct E as (u & Hu & E). apply Nat.eqb_eq in E. subst u. split; auto. intro w. split; auto.
      intros [H| ->]; auto.
    - assert (Hv : ~ In v acc).
      { intro Hv. assert (X : existsb (Nat.eqb v) acc = true) by (apply existsb_exists; exists v; rewrite Nat.eqb_refl; auto). congruence. }
      split; [apply NoDup_app_intro_snoc; auto|]. intro w. rewrite in_app_iff. simpl. tauto. }
  destruct H as [H1 H2]. destruct (IH _ H1) as [A B]. split; auto. intro w. rewrite B, H2. tauto.
Qed.

Lemma cliqueVertices_ok K l : (forall m, In m l -> m < k_size K) ->
  exists c, cliqueVertices K l = Ok c /\ NoDup c /\
    forall w, In w c <-> exists m s, In m l /\ nth_error (by_index K) m = Some s /\ In w (verts s).
Proof.
  unfold cliqueVertices. intro H.
  assert (G : forall l acc, (forall m, In m l -> m < k_size K) -> NoDup acc ->
    exists c, foldM (fun acc v => let* s := k_at K v in Ok (fold_left hs_insert (verts s) acc)) l acc = Ok c /\ NoDup c /\
      forall w, In w c <-> In w acc \/ exists m s, In m l /\ nth_error (by_index K) m = Some s /\ In w (verts s)).
  { clear. induction l as [|m l IH]; intros acc Hl Hn.
    - exists acc. simpl. refine (conj eq_refl (conj Hn _)). intro w. split; auto. intros [|(? & ? & [] & _)]; auto.
    - assert (Hm : m < k_size K) by (apply Hl; simpl; auto). destruct (nth_error (by_index K) m) as [s|] eqn:Es.
      2:{ apply nth_error_None in Es. unfold k_size in Hm. lia. }
      cbn [foldM]. unfold k_at at 1, at_ at 1. rewrite Es. cbn [bind]. destruct (fold_insert (verts s) acc Hn) as [A B].
      destruct (IH (fold_left hs_insert (verts s) acc)) as (c & E & Hc & Hw); [intros; apply Hl; simpl; auto|auto|].
      exists c. refine (conj E (conj Hc _)). intro w. rewrite Hw, B. split.
      + intros [[H|H]|(m' & s' & H1 & H2)]; auto; right; [exists m, s|exists m', s']; simpl; auto.
      + intros [H|(m' & s' & [<-|H1] & H2 & H3)]; auto; [rewrite Es in H2; injection H2 as <-; auto|]. right. exists m', s'. auto. }
  destruct (G l [] H ltac:(constructor)) as (c & E & Hc & Hw). exists c. refine (conj E (conj Hc _)). intro w. rewrite Hw. simpl. split; [intros [[]|]|]; auto.
Qed.

Lemma accumulate_ok horder p l m : (forall l, Permutation (horder l) l) -> NoDup l -> forall w,
  vim_of (accumulate horder p l m) w = if existsb (Nat.eqb w) l then (S (fst (vim_of m w)), (snd (vim_of m w) + p * p)%Z) else vim_of m w.
Proof.
  intros Ho Hn w. unfold accumulate. specialize (Ho l). assert (Hn' : NoDup (horder l)) by (eapply Permutation_NoDup; [apply Permutation_sym|]; eauto).
  assert (E : existsb (Nat.eqb w) l = existsb (Nat.eqb w) (horder l)).
  { apply eq_true_iff_eq. rewrite !existsb_exists. split; intros (x & Hx & Ex); exists x; (split; [|exact Ex]).
    - apply (Permutation_in _ (Permutation_sym Ho)); auto.
    - apply (Permutation_in _ Ho); auto. }
  rewrite E. clear E Ho Hn. revert m. induction (horder l) as [|v t IH]; intro m; simpl; auto.
  apply NoDup_cons_iff in Hn'. destruct Hn' as [Hv Hn]. rewrite IH by auto. rewrite vim_set.
  destruct (Nat.eqb_spec w v) as [->|]; auto. cbn [orb].
  assert (X : existsb (Nat.eqb v) t = false).
  { destruct (existsb (Nat.eqb v) t) eqn:E; auto. apply existsb_exists in E. destruct E as (x & Hx & E). apply Nat.eqb_eq in E. subst. easy. }
  rewrite X. auto.
Qed.

Lemma existsb_In w l : existsb (Nat.eqb w) l = true <-> In w l.
Proof.
  rewrite existsb_exists. split; [intros (x & Hx & E); apply Nat.eqb_eq in E; subst; auto|]. intro H. exists w. rewrite Nat.eqb_refl. auto.
Qed.

Lemma sum_ev_app l e : sum_ev (l ++ [e]) = (sum_ev l + sq (ev_creation e) (ev_destruction e))%Z.
Proof. induction l as [|a l IH]; simpl; lia. Qed.
Lemma sum_rt_app D l q : sum_rt D (l ++ [q]) = (sum_rt D l + sq (snd q) D)%Z.
Proof. induction l as [|a l IH]; simpl; lia. Qed.

Section Run.
  Variables (K C : complex) (horder : list nat -> list nat).
  Hypothesis HR : reachable C.
  Hypothesis HC : closed (by_index C).
  Hypothesis Hpos : forall m, In m (k_vertices C) -> m < k_size K.
  Hypothesis Hord : forall l, Permutation (horder l) l.
  Let V := k_vertices C.
  Let f := ccifFunctor horder K.

  Lemma cc_init : forall l x,
    exists x', foldM cc_initialize l x = Ok x' /\ cc_vim x' = cc_vim x /\ cc_destruction x' = cc_destruction x /\
      (forall v, size_of (cc_cs x') v = if existsb (Nat.eqb v) l then 1 else size_of (cc_cs x) v) /\
      (forall v, cc_of (cc_cc x') v = if existsb (Nat.eqb v) l then [v] else cc_of (cc_cc x) v).
  Proof.
    induction l as [|a l IH]; intro x.
    - exists x. simpl. auto.
    - cbn [foldM]. unfold cc_initialize at 1. cbn [bind].
      destruct (IH (Ccif (cc_vim x) (set_size (cc_cs x) a 1) (set_cc (cc_cc x) a [a]) (cc_destruction x))) as (x' & E & A & B & D & G).
      exists x'. refine (conj E (conj A (conj B (conj _ _)))); intro v.
      + rewrite D. cbn [cc_cs existsb]. rewrite size_of_set. destruct (v =? a), (existsb (Nat.eqb v) l); auto.
      + rewrite G. cbn [cc_cc existsb]. rewrite cc_set. destruct (Nat.eqb_spec v a) as [Ea|]; [rewrite Ea|]; destruct (existsb _ l); auto.
  Qed.

  (** the events so far that count for [w] *)
  Definition counted (evs : list event) (w : nat) (E : list event) : Prop :=
    NoDup E /\ forall e, In e E <-> In e evs /\ ev_creation e <> ev_destruction e /\ touches K C (ev_edge e) (ev_younger e) w.

  Lemma cc_run x0 : (forall v, In v V -> size_of (cc_cs x0) v = 1 /\ cc_of (cc_cc x0) v = [v]) ->
    forall j rep evs, runs C j rep evs ->
    exists x, foldM (do_merge f) evs x0 = Ok x /\ cc_destruction x = cc_destruction x0 /\
      (forall r, In r V -> rep r = r -> size_of (cc_cs x) r = count rep V r /\ Permutation (cc_of (cc_cc x) r) (filter (fun w => rep w =? r) V)) /\
      (forall e, In e evs -> rep (ev_younger e) <> ev_younger e /\
         exists l, members C (ev_edge e) (ev_younger e) l /\ size_of (cc_cs x) (ev_younger e) = length l) /\
      (forall w, exists E, counted evs w E /\
         vim_of (cc_vim x) w = (fst (vim_of (cc_vim x0) w) + length E, (snd (vim_of (cc_vim x0) w) + sum_ev E)%Z)).
  Proof.
    intros H0 j rep evs Hr. induction Hr as [|j rep evs Hr IH Ho Hn|j rep evs e Hr IH He Ej Ry Ro Hne HyV HoV Ho Hj].
    - exists x0. simpl. refine (conj eq_refl (conj eq_refl (conj _ (conj _ _)))).
      + intros r Hin _. destruct (H0 r Hin) as [-> ->]. unfold count.
        assert (P : Permutation [r] (filter (fun w => w =? r) V)).
        { apply NoDup_Permutation; [constructor; [easy|constructor]|apply NoDup_filter, V_NoDup; auto|].
          intro w. rewrite filter_In, Nat.eqb_eq. simpl. split; [intros [<-|[]]; auto|]. intros [_ ->]. auto. }
        split; auto. apply Permutation_length in P. auto.
      + easy.
      + intro w. exists []. split; [split; [constructor|intro; simpl; tauto]|]. simpl. destruct (vim_of (cc_vim x0) w). cbn [fst snd].
        rewrite Nat.add_0_r, Z.add_0_r. auto.
    - destruct IH as (x & E & A & B & D & G). exists x. auto.
    - destruct IH as (x & E & A & B & D & G). pose proof (runs_rep C _ _ _ Hr) as Hro.
      set (y := ev_younger e) in *. set (o := ev_older e) in *.
      destruct (B y HyV Ry) as [By1 By2]. destruct (B o HoV Ro) as [Bo1 Bo2].
      destruct (cliqueVertices_ok K (cc_of (cc_cc x) y)) as (c & Ec & Hc & Hcw).
      { intros m Hm. apply Hpos. apply (Permutation_in _ By2), filter_In in Hm. tauto. }
      assert (Htouch : forall w, In w c <-> touches K C (ev_edge e) y w).
      { intro w. rewrite Hcw. split.
        - intros (m & s & Hm & Es & Hw). apply (Permutation_in _ By2), filter_In in Hm. destruct Hm as [Hm Em]. apply Nat.eqb_eq in Em.
          exists m, (idx C m), s. refine (conj _ (conj _ (conj Es Hw))); [apply vertex_at_iff; auto|].
          rewrite Ej. apply (ro_link _ _ _ Hro); auto. congruence.
        - intros (m & i & s & Hm & Hl & Es & Hw). apply vertex_at_iff in Hm; auto. destruct Hm as [Hm _]. exists m, s. refine (conj _ (conj Es Hw)).
          apply (Permutation_in _ (Permutation_sym By2)). apply filter_In. split; auto. apply Nat.eqb_eq. rewrite <- Ry.
          apply (ro_link _ _ _ Hro); auto. rewrite <- Ej. auto. }
      set (x' := Ccif (if (ev_creation e =? ev_destruction e)%Z then cc_vim x
                       else accumulate horder (ev_destruction e - ev_creation e) c (cc_vim x))
                      (set_size (cc_cs x) o (size_of (cc_cs x) o + size_of (cc_cs x) y))
                      (erase_cc (set_cc (cc_cc x) o (cc_of (cc_cc x) o ++ cc_of (cc_cc x) y)) y) (cc_destruction x)).
      assert (Estep : do_merge f x e = Ok x').
      { unfold do_merge, f. cbn [f_merge ccifFunctor]. fold y o. unfold cc_merge. rewrite cc_set.
        destruct (Nat.eqb_spec y o); [easy|]. rewrite Ec. reflexivity. }
      assert (Mrep : forall r, merged rep y o r = if rep r =? y then o else rep r) by (intro r; unfold merged; rewrite Ry, Ro; auto).
      exists x'. refine (conj _ (conj A (conj _ (conj _ _)))).
      + rewrite foldM_app, E. cbn [bind foldM]. rewrite Estep. auto.
      + intros r Hin Er. cbn [cc_cs cc_cc x']. rewrite size_of_set.
        destruct (count_merged rep V y o Ry Ro Hne) as [M1 M2].
        assert (Hry : r <> y).
        { intros ->. rewrite Mrep, Ry, Nat.eqb_refl in Er. congruence. }
        rewrite cc_erase, cc_set by auto.
        destruct (Nat.eqb_spec r o) as [->|Hro'].
        * split; [rewrite M1; lia|].
          eapply Permutation_trans; [apply Permutation_app; [exact Bo2|exact By2]|]. clear - Mrep Hne. induction V as [|w l IH]; simpl; auto.
          rewrite Mrep. destruct (Nat.eqb_spec (rep w) y) as [Ew|Ew].
          -- rewrite Nat.eqb_refl. destruct (Nat.eqb_spec (rep w) o); [congruence|]. apply Permutation_sym, Permutation_cons_app, Permutation_sym. auto.
          -- destruct (Nat.eqb_spec (rep w) o); simpl; auto.
        * assert (Err : rep r = r) by (rewrite Mrep in Er; destruct (rep r =? y); congruence).
          destruct (B r Hin Err) as [C1 C2]. split; [rewrite M2; auto|].
          eapply Permutation_trans; [exact C2|]. apply Permutation_refl'. apply filter_ext. intro w. rewrite Mrep.
          destruct (Nat.eqb_spec (rep w) y) as [Ew|Ew]; auto.
          destruct (Nat.eqb_spec (rep w) r), (Nat.eqb_spec o r); congruence.
      + intros e' Hin. apply in_app_iff in Hin. destruct Hin as [Hin|[<-|[]]].
        * destruct (D e' Hin) as (D1 & l & D2 & D3). rewrite Mrep. split.
          -- destruct (Nat.eqb_spec (rep (ev_younger e')) y); auto. intro X. apply D1. rewrite <- X. auto.
          -- exists l. split; auto. cbn [cc_cs x']. rewrite size_of_set. destruct (Nat.eqb_spec (ev_younger e') o) as [X|]; auto.
             elim D1. rewrite X. auto.
        * fold y. rewrite Mrep, Ry, Nat.eqb_refl. split; [congruence|].
          exists (filter (fun w => rep w =? rep y) V). split; [rewrite Ej; apply members_filter; auto|].
          cbn [cc_cs x']. rewrite size_of_set. destruct (Nat.eqb_spec y o); [easy|]. rewrite Ry. auto.
      + intro w. destruct (G w) as (Ew & [N1 N2] & Gw).
        destruct (runs_events C _ _ _ Hr) as (_ & _ & Hjs).
        assert (Hnew : ~ In e evs).
        { intro Hin. assert (X : In (ev_edge e) (map ev_edge evs)) by (apply in_map; auto). apply Hjs in X. lia. }
        cbn [cc_vim x']. destruct (Z.eqb_spec (ev_creation e) (ev_destruction e)) as [Ecd|Ecd].
        * exists Ew. split; auto. split; auto. intro e'. rewrite N2, in_app_iff. simpl. split; [tauto|].
          intros [[Hin|[<-|[]]] [X Y]]; tauto.
        * rewrite accumulate_ok by auto. destruct (existsb (Nat.eqb w) c) eqn:Ex.
          -- apply existsb_In, Htouch in Ex. exists (Ew ++ [e]). split.
             ++ split.
                ** apply NoDup_app_intro; auto; [constructor; [easy|constructor]|]. intros q Hq [<-|[]]. apply N2 in Hq. tauto.
                ** intro e'. rewrite !in_app_iff, N2. simpl. split; [intros [|[<-|[]]]; tauto|tauto].
             ++ rewrite Gw, app_length, sum_ev_app. cbn [fst snd length]. unfold sq. f_equal; lia.
          -- exists Ew. split; auto. split; auto. intro e'. rewrite N2, in_app_iff. simpl. split; [tauto|].
             intros [[Hin|[<-|[]]] [X Y]]; [tauto|]. apply Htouch, existsb_In in Y. congruence.
  Qed.

  Lemma cc_roots j rep qs : rep_ok C j rep -> NoDup (map fst qs) -> (forall r c, In (r, c) qs -> In r V /\ rep r = r) ->
    forall x, (forall r, In r V -> rep r = r -> Permutation (cc_of (cc_cc x) r) (filter (fun w => rep w =? r) V)) ->
    exists x', foldM (fun x q => f_root f x (fst q) (snd q)) qs x = Ok x' /\ cc_destruction x' = cc_destruction x /\ cc_cs x' = cc_cs x /\
      forall w, exists R, NoDup R /\ (forall i r c, In (i, r, c) R <-> In (r, c) qs /\ i = idx C r /\ touches K C j r w) /\
        vim_of (cc_vim x') w = (fst (vim_of (cc_vim x) w) + length R, (snd (vim_of (cc_vim x) w) + sum_rt (cc_destruction x) R)%Z).
  Proof.
    intro Hro. induction qs as [|[r c] qs IH]; intros Hnd Hin x Hcc.
    - exists x. simpl. refine (conj eq_refl (conj eq_refl (conj eq_refl _))). intro w. exists []. refine (conj (NoDup_nil _) (conj _ _)).
      + intros. simpl. tauto.
      + simpl. destruct (vim_of (cc_vim x) w). cbn [fst snd]. rewrite Nat.add_0_r, Z.add_0_r. auto.
    - destruct (Hin r c ltac:(simpl; auto)) as [HrV Rr]. pose proof (Hcc r HrV Rr) as Hr.
      destruct (cliqueVertices_ok K (cc_of (cc_cc x) r)) as (l & El & Hl & Hlw).
      { intros m Hm. apply Hpos. apply (Permutation_in _ Hr), filter_In in Hm. tauto. }
      assert (Htouch : forall w, In w l <-> touches K C j r w).
      { intro w. rewrite Hlw. split.
        - intros (m & s & Hm & Es & Hw). apply (Permutation_in _ Hr), filter_In in Hm. destruct Hm as [Hm Em]. apply Nat.eqb_eq in Em.
          exists m, (idx C m), s. refine (conj _ (conj _ (conj Es Hw))); [apply vertex_at_iff; auto|].
          apply (ro_link _ _ _ Hro); auto. congruence.
        - intros (m & i & s & Hm & Hlk & Es & Hw). apply vertex_at_iff in Hm; auto. destruct Hm as [Hm _]. exists m, s. refine (conj _ (conj Es Hw)).
          apply (Permutation_in _ (Permutation_sym Hr)). apply filter_In. split; auto. apply Nat.eqb_eq. rewrite <- Rr.
          apply (ro_link _ _ _ Hro); auto. }
      cbn [map fst] in Hnd. apply NoDup_cons_iff in Hnd. destruct Hnd as [Hnr Hnd].
      destruct (IH Hnd) with (x := Ccif (accumulate horder (cc_destruction x - c) l (cc_vim x)) (cc_cs x) (cc_cc x) (cc_destruction x))
        as (x' & E & A & B & G).
      { intros r' c' H. apply (Hin r' c'). simpl; auto. }
      { auto. }
      cbn [cc_destruction cc_cs cc_vim] in *.
      exists x'. refine (conj _ (conj A (conj B _))).
      + cbn [foldM fst snd]. unfold f at 1. cbn [f_root ccifFunctor]. unfold cc_root at 1. rewrite El. cbn [bind]. exact E.
      + intro w. destruct (G w) as (R & R1 & R2 & R3). rewrite accumulate_ok in R3 by auto.
        destruct (existsb (Nat.eqb w) l) eqn:Ex.
        * apply existsb_In, Htouch in Ex. exists ((idx C r, r, c) :: R). refine (conj _ (conj _ _)).
          -- constructor; auto. intro H. apply R2 in H. destruct H as [H _]. apply Hnr. apply in_map_iff. exists (r, c). auto.
          -- intros i r' c'. cbn [In]. rewrite R2. split.
             ++ intros [[= <- <- <-]|H]; tauto.
             ++ intros [[[= <- <-]|H] [-> H3]]; tauto.
          -- rewrite R3. change (sum_rt (cc_destruction x) ((idx C r, r, c) :: R)) with (sq c (cc_destruction x) + sum_rt (cc_destruction x) R)%Z.
             cbn [fst snd length]. unfold sq. f_equal; lia.
        * exists R. refine (conj R1 (conj _ R3)). intros i r' c'. rewrite R2. cbn [In]. split; [tauto|].
          intros [[[= <- <-]|H] [-> H3]]; [|tauto]. apply Htouch, existsb_In in H3. congruence.
  Qed.

  Definition pair_size (x : ccif) (q : nat * option nat) : Prop :=
    exists y l, vertex_at C (fst q) y /\ size_of (cc_cs x) y = length l /\
      match snd q with Some j => members C j y l | None => members C (k_size C) y l end.

  Lemma cc_graph inf order x : (forall l, Permutation (order l) l) ->
    exists pd pp x', zeroFunctor f inf false order C x = Ok (pd, pp, x') /\ zeroDimensional inf false order C = Ok (pd, pp) /\
      cc_destruction x' = cc_destruction x /\
      (forall w, exists n a, community_count K C (cc_destruction x) w n a /\
         vim_of (cc_vim x') w = (fst (vim_of (cc_vim x) w) + n, (snd (vim_of (cc_vim x) w) + a)%Z)) /\
      (forall q, In q pp -> pair_size x' q) /\
      Forall2 (fun q p => data_of C (fst q) (fst p) /\
                 match snd q with Some j => data_of C j (snd p) /\ fst p <> snd p | None => snd p = inf end) pp pd.
  Proof.
    intro Ho. destruct (zero_functor C HR HC false inf order Ho) as (rep & evs & roots & ds & Hr & Hp & Hds & E).
    pose proof (runs_rep C _ _ _ Hr) as Hro. destruct (runs_events C _ _ _ Hr) as (HA & HB & HCv). rewrite Forall_forall in HB.
    destruct (cc_init V x) as (x0 & E0 & A0 & B0 & C0 & D0).
    destruct (cc_run x0) with (j := k_size C) (rep := rep) (evs := evs) as (x1 & E1 & A1 & B1 & C1 & D1); auto.
    { intros v Hv. apply existsb_In in Hv. rewrite C0, D0, Hv. auto. }
    assert (Hlen : length roots = length ds) by (clear - Hds; induction Hds; simpl; auto).
    assert (Hfst : map fst (combine roots ds) = roots) by (clear - Hlen; revert ds Hlen; induction roots as [|r l IH]; intros [|d t] H; simpl in *; try discriminate; auto; f_equal; apply IH; lia).
    assert (Hqs : forall r c, In (r, c) (combine roots ds) -> (In r V /\ rep r = r) /\ data_of C (idx C r) c).
    { intros r c Hin. split.
      - apply in_combine_l in Hin. apply (Permutation_in _ Hp), filter_In in Hin. rewrite Nat.eqb_eq in Hin. auto.
      - clear - Hds Hin. induction Hds; [easy|]. destruct Hin as [[= <- <-]|Hin]; auto. }
    destruct (cc_roots (k_size C) rep (combine roots ds) Hro) with (x := x1) as (x2 & E2 & A2 & B2 & D2).
    { rewrite Hfst. eapply Permutation_NoDup; [apply Permutation_sym, Hp|]. apply NoDup_filter, V_NoDup; auto. }
    { intros r c H. apply Hqs in H. tauto. }
    { intros r Hin Er. apply B1; auto. }
    eexists _, _, x2. refine (conj _ (conj _ (conj _ (conj _ (conj _ _))))).
    - rewrite E. unfold f at 1. cbn [f_initialize ccifFunctor]. unfold V in E0. rewrite E0. cbn [bind]. rewrite E1. cbn [bind]. rewrite E2. reflexivity.
    - pose proof (E unit emptyFunctor tt) as X. rewrite empty_zero in X.
      assert (F0 : forall l, foldM (f_initialize emptyFunctor) l tt = Ok tt) by (induction l; auto).
      assert (F1 : forall l, foldM (do_merge emptyFunctor) l tt = Ok tt) by (induction l; auto).
      assert (F2 : forall l, foldM (fun x q => f_root emptyFunctor x (fst q) (snd q)) l tt = Ok tt) by (induction l; auto).
      rewrite F0 in X. cbn [bind] in X. rewrite F1 in X. cbn [bind] in X. rewrite F2 in X. cbn [bind] in X.
      destruct (zeroDimensional inf false order C) as [q| | |]; try discriminate. cbn [bind] in X. injection X as ->. auto.
    - congruence.
    - intro w. destruct (D1 w) as (Ew & [N1 N2] & G1). destruct (D2 w) as (Rw & R1 & R2 & G2).
      exists (length Ew + length Rw), (sum_ev Ew + sum_rt (cc_destruction x) Rw)%Z. split.
      + exists Ew, Rw. refine (conj N1 (conj R1 (conj eq_refl (conj eq_refl (conj _ _))))).
        * intro e. rewrite N2. split; [intros (H1 & H2 & H3); auto|]. intros (H1 & H2 & H3). refine (conj _ (conj H2 H3)).
          assert (Hj : joining C (ev_edge e)) by (exists (ev_u e), (ev_v e); split; [apply (ie_edge _ _ H1)|apply (ie_joins _ _ H1)]).
          assert (Hj' : In (ev_edge e) (map ev_edge evs)).
          { apply HCv. split; auto. destruct Hj as (u & v & He & _). apply edge_at_iff in He. destruct He as (s & Hs & _). eapply nth_error_lt; eauto. }
          apply in_map_iff in Hj'. destruct Hj' as (e' & Ee & Hin). rewrite <- (event_unique C HR e' e); auto.
        * intros i r c. rewrite R2. split.
          -- intros (H1 & -> & H3). destruct (Hqs r c H1) as [[X1 X2] X3]. refine (conj _ (conj X3 H3)).
             pose proof (rep_first C HR _ rep r Hro X1) as X. rewrite X2 in X. auto.
          -- intros (H1 & H2 & H3). destruct (first_rep C HR _ rep i r Hro H1) as (X1 & -> & X2). refine (conj _ (conj eq_refl H3)).
             assert (Hr' : In r roots) by (apply (Permutation_in _ (Permutation_sym Hp)), filter_In; rewrite Nat.eqb_eq; auto).
             rewrite <- Hfst in Hr'. apply in_map_iff in Hr'. destruct Hr' as ([r' c'] & Er & Hin). cbn [fst] in Er. subst r'.
             destruct (Hqs r c' Hin) as [_ X3]. unfold data_of in *. rewrite H2 in X3. injection X3 as ->. auto.
      + rewrite G2, G1. cbn [fst snd]. rewrite A0, A1, B0. f_equal; lia.
    - intros q Hq. apply in_app_iff in Hq. destruct Hq as [Hq|Hq].
      + apply in_map_iff in Hq. destruct Hq as (e & <- & He). apply filter_In in He. destruct He as [He _].
        destruct (C1 e He) as (_ & l & L1 & L2). exists (ev_younger e), l. cbn [fst snd]. rewrite B2. refine (conj _ (conj L2 L1)).
        apply (ie_younger _ _ (HB e He)).
      + apply in_map_iff in Hq. destruct Hq as (r & <- & Hr'). apply (Permutation_in _ Hp), filter_In in Hr'. destruct Hr' as [HrV Rr].
        apply Nat.eqb_eq in Rr. exists r, (filter (fun w => rep w =? rep r) V). cbn [fst snd]. rewrite B2.
        refine (conj _ (conj _ (members_filter C HR _ rep r Hro HrV))); [apply vertex_at_iff; auto|]. rewrite Rr. apply B1; auto.
    - apply Forall2_app.
      + unfold ev_pairs, ev_points. clear - HB. assert (H : forall e, In e (filter (ev_kept false) evs) -> is_event C e /\ ev_creation e <> ev_destruction e).
        { intros e He. apply filter_In in He. destruct He as [He Hk]. split; auto. unfold ev_kept in Hk. cbn [orb] in Hk.
          apply negb_true_iff, Z.eqb_neq in Hk. auto. }
        revert H. generalize (filter (ev_kept false) evs) as l. induction l as [|e l IH]; intro H; simpl; constructor.
        * cbn [fst snd]. destruct (H e ltac:(simpl; auto)) as [X1 X2]. refine (conj _ (conj _ X2)); [apply (ie_creation _ _ X1)|apply (ie_destruction _ _ X1)].
        * apply IH. intros; apply H; simpl; auto.
      + clear - Hds. induction Hds; simpl; [constructor|constructor; [split; [exact H|reflexivity]|auto]].
  Qed.
End Run.

(** ** The clique graph *)
Lemma graph_closed K k L : reachable K -> cliqueGraph_max K k = Ok L ->
  reachable (k_sort data_cmp L) /\ closed (by_index (k_sort data_cmp L)) /\
  (forall m, In m (k_vertices (k_sort data_cmp L)) <-> exists s, nth_error (by_index K) m = Some s /\ length (verts s) = S k) /\
  (forall t, In t (by_index (k_sort data_cmp L)) -> exists s, In s (by_index K) /\ data t = data s).
Proof.
  intros HR E. destruct (C49_clique_graph Z.max K k HR) as (L' & E' & RL & IL). unfold cliqueGraph_max in E. rewrite E in E'. injection E' as <-.
  pose proof (sort_reachable data_cmp L RL) as RS.
  assert (P : forall t, In t (by_index (k_sort data_cmp L)) <-> In t (by_index L)).
  { intro t. pose proof (C03_sort_permutes L data_cmp RL) as X. split; apply Permutation_in; auto. apply Permutation_sym; auto. }
  assert (V1 : forall i s, nth_error (by_index K) i = Some s -> length (verts s) = S k -> In (Simplex [i] (data s)) (by_index (k_sort data_cmp L))).
  { intros i s Hs Hl. apply P, IL. left. exists i, s. auto. }
  refine (conj RS (conj _ (conj _ _))).
  - intros t vs Ht Hn Hsub. pose proof (proj1 (P t) Ht) as Ht'. apply IL in Ht'.
    destruct Ht' as [(i & s & N & Ls & ->)|(i & j & s & s' & r & N1 & N2 & L1 & L2 & _ & _ & _ & _ & _ & _ & ->)].
    + exists (Simplex [i] (data s)). split; auto. intro v. split; [|apply Hsub]. cbn [verts]. intros [<-|[]].
      destruct vs as [|a vs]; [easy|]. destruct (Hsub a ltac:(simpl; auto)) as [->|[]]. simpl; auto.
    + assert (Hsub' : forall v, In v vs -> v = i \/ v = j).
      { intros v Hv. apply Hsub, simplex_of_In in Hv. simpl in Hv. intuition. }
      destruct (in_dec Nat.eq_dec i vs) as [Hi|Hi], (in_dec Nat.eq_dec j vs) as [Hj|Hj].
      * exists (simplex_of [i; j] (Z.max (data s) (data s'))). split; auto. intro v. rewrite simplex_of_In. simpl. split.
        -- intros [<-|[<-|[]]]; auto.
        -- intro Hv. destruct (Hsub' v Hv); auto.
      * exists (Simplex [i] (data s)). split; [apply V1; auto|]. intro v. cbn [verts]. split; [intros [<-|[]]; auto|].
        intro Hv. destruct (Hsub' v Hv); subst; simpl; tauto.
      * exists (Simplex [j] (data s')). split; [apply V1; auto|]. intro v. cbn [verts]. split; [intros [<-|[]]; auto|].
        intro Hv. destruct (Hsub' v Hv); subst; simpl; tauto.
      * exfalso. destruct vs as [|a vs]; [easy|]. destruct (Hsub' a ltac:(simpl; auto)); subst; simpl in *; tauto.
  - intro m. rewrite (V_spec _ RS m). split.
    + intros (t & Ht & Et). apply P, IL in Ht.
      destruct Ht as [(i & s & N & Ls & ->)|(i & j & s & s' & r & N1 & N2 & L1 & L2 & H3 & _ & _ & _ & _ & _ & ->)].
      * cbn [verts] in Et. injection Et as ->. eauto.
      * assert (Hi : In i [m]) by (rewrite <- Et; apply simplex_of_In; simpl; auto). destruct Hi as [->|[]]. eauto.
    + intros (s & N & Ls). exists (Simplex [m] (data s)). split; [apply V1; auto|auto].
  - intros t Ht. apply P, IL in Ht.
    destruct Ht as [(i & s & N & Ls & ->)|(i & j & s & s' & r & N1 & N2 & L1 & L2 & H3 & _ & _ & _ & _ & _ & ->)].
    + exists s. split; [eapply nth_error_In; eauto|auto].
    + cbn [data simplex_of]. destruct (Z.max_spec (data s) (data s')) as [[_ ->]|[_ ->]]; [exists s'|exists s]; split; auto; eapply nth_error_In; eauto.
Qed.

(** One row of a file: creation, destruction and the number of cliques of the community at the
    moment of its destruction. *)
Definition row_ok (C : complex) (D : Z) (q : nat * option nat) (row : Z * Z * nat) : Prop :=
  exists y l, data_of C (fst q) (fst (fst row)) /\ vertex_at C (fst q) y /\ snd row = length l /\
    match snd q with
    | Some j => data_of C j (snd (fst row)) /\ members C j y l
    | None => snd (fst row) = D /\ members C (k_size C) y l
    end.

Lemma rows_loop C x pd pp (ok : nat * option nat -> Z * Z * nat -> Prop) :
  Forall2 (fun q p => exists s v t n, nth_error (by_index C) (fst q) = Some s /\ verts s = v :: t /\ getComponentSize x v = Ok n /\ ok q (p, n)) pp pd ->
  exists rows, cc_rows C x pd pp = Ok rows /\ Forall2 ok pp rows.
Proof.
  intro F. unfold cc_rows.
  assert (G : forall pp2 pd2 pp1 pd1 rows, length pp1 = length pd1 -> pp = pp1 ++ pp2 -> pd = pd1 ++ pd2 ->
    Forall2 (fun q p => exists s v t n, nth_error (by_index C) (fst q) = Some s /\ verts s = v :: t /\ getComponentSize x v = Ok n /\ ok q (p, n)) pp2 pd2 ->
    exists rows', foldM (fun rows i =>
      let* q := get_ pp i in
      let* p := get_ pd i in
      let* s := k_at C (fst q) in
      let* v := get_ (verts s) 0 in
      let* n := getComponentSize x v in
      Ok (rows ++ [(p, n)])) (seq (length pp1) (length pp2)) rows = Ok (rows ++ rows') /\ Forall2 ok pp2 rows').
  { induction pp2 as [|q pp2 IH]; intros pd2 pp1 pd1 rows HL E1 E2 H.
    - exists []. rewrite app_nil_r. split; auto.
    - inversion H as [|? p ? pd2' (s & v & t & n & Hs & Ev & Hn & Hok) H' ]; subst pd2.
      assert (N1 : get_ pp (length pp1) = Ok q) by (unfold get_; rewrite E1, nth_error_app2, Nat.sub_diag by lia; auto).
      assert (N2 : get_ pd (length pp1) = Ok p) by (unfold get_; rewrite E2, HL, nth_error_app2, Nat.sub_diag by lia; auto).
      cbn [length seq foldM]. rewrite N1. cbn [bind]. rewrite N2. cbn [bind].
      unfold k_at at 1, at_ at 1. rewrite Hs. cbn [bind]. rewrite Ev. unfold get_ at 1. cbn [nth_error bind]. rewrite Hn. cbn [bind].
      destruct (IH pd2' (pp1 ++ [q]) (pd1 ++ [p]) (rows ++ [(p, n)])) as (rows' & E & F').
      + rewrite !app_length. simpl. lia.
      + rewrite <- app_assoc. auto.
      + rewrite <- app_assoc. auto.
      + auto.
      + exists ((p, n) :: rows'). rewrite app_length, Nat.add_1_r in E. rewrite E, <- app_assoc. split; auto. }
  destruct (G pp pd [] [] [] eq_refl eq_refl eq_refl F) as (rows & E & F'). exists rows. auto.
Qed.

(** the sorted graph of the [k]-simplices of [K] (see C49) *)
Definition graph (K : complex) (k : nat) (C : complex) : Prop := exists L, cliqueGraph_max K k = Ok L /\ C = k_sort data_cmp L.
Definition has_clique (K : complex) (k : nat) : Prop := exists s, In s (by_index K) /\ length (verts s) = S k.
Definition sumZ' (l : list Z) : Z := fold_right Z.add 0%Z l.

Section Tool.
  Variables (K : complex) (inf maxWeight : Z) (order horder : list nat -> list nat) (ignoreEmpty : bool).
  Hypothesis HR : reachable K.
  Hypothesis Hord : forall l, Permutation (order l) l.
  Hypothesis Hhord : forall l, Permutation (horder l) l.
  Hypothesis Hfin : forall s, In s (by_index K) -> data s <> inf.
  Let D := (2 * maxWeight)%Z.

  Definition file_ok (p : nat * list (Z * Z * nat)) : Prop :=
    exists C pd pp, graph K (fst p) C /\ zeroDimensional inf false order C = Ok (pd, pp) /\ Forall2 (row_ok C D) pp (snd p).

  Lemma graph_rows k C x : graph K k C -> cc_destruction x = D ->
    exists pd pp x', zeroFunctor (ccifFunctor horder K) inf false order C x = Ok (pd, pp, x') /\ zeroDimensional inf false order C = Ok (pd, pp) /\
      cc_destruction x' = D /\
      (forall w, exists n a, community_count K C D w n a /\
         vim_of (cc_vim x') w = (fst (vim_of (cc_vim x) w) + n, (snd (vim_of (cc_vim x) w) + a)%Z)) /\
      exists rows, cc_rows C x' (map (cc_finite inf D) (points (removeDiagonal (Diagram 0 pd)))) pp = Ok rows /\ Forall2 (row_ok C D) pp rows.
  Proof.
    intros (L & EL & ->) Hx. destruct (graph_closed K k L HR EL) as (RC & CC & VC & DC). set (C := k_sort data_cmp L) in *.
    destruct (cc_graph K C horder RC CC) with (inf := inf) (order := order) (x := x) as (pd & pp & x' & E1 & E2 & E3 & E4 & E5 & E6); auto.
    { intros m Hm. apply VC in Hm. destruct Hm as (s & Hs & _). eapply nth_error_lt; eauto. }
    rewrite Hx in *. exists pd, pp, x'. refine (conj E1 (conj E2 (conj E3 (conj E4 _)))).
    assert (Hd : forall i d, data_of C i d -> d <> inf).
    { intros i d H. unfold data_of in H. rewrite nth_error_map in H. destruct (nth_error (by_index C) i) as [t|] eqn:Et; [|discriminate].
      injection H as <-. apply nth_error_In in Et. destruct (DC t Et) as (s & Hs & ->). auto. }
    assert (Hid : points (removeDiagonal (Diagram 0 pd)) = pd).
    { unfold removeDiagonal. cbn [points]. clear - E6 Hd. induction E6 as [|q p pp pd [H1 H2] _ IH]; simpl; auto. rewrite IH.
      destruct (Z.eqb_spec (fst p) (snd p)) as [Ep|]; auto. exfalso. destruct (snd q) as [j|]; [tauto|]. apply (Hd _ _ H1). congruence. }
    rewrite Hid. clear Hid. apply rows_loop. assert (E5' : Forall (pair_size C x') pp) by (apply Forall_forall; auto). clear - E6 E5' Hd RC D.
    induction E6 as [|q p pp pd [H1 H2] _ IH]; simpl; constructor.
    - apply Forall_inv in E5'. destruct E5' as (y & l & Hy & Hl & Hm). pose proof Hy as Hy'. unfold vertex_at in Hy. rewrite nth_error_map in Hy.
      destruct (nth_error (by_index C) (fst q)) as [s|] eqn:Es; [|discriminate]. injection Hy as Hy.
      assert (Hlen : exists n, length l = S n).
      { assert (In y l).
        { destruct (snd q); apply Hm; (split; [exists (fst q); auto|apply rst_refl]). }
        destruct l; [easy|]. simpl. eauto. }
      destruct Hlen as (n & Hn). exists s, y, [], (length l). refine (conj Es (conj Hy (conj _ _))).
      + rewrite Hn. apply component_size. congruence.
      + exists y, l. cbn [fst snd]. destruct (snd q) as [j|].
        * destruct H2 as [H2 _]. unfold cc_finite. destruct (Z.eqb_spec (snd p) inf) as [X|]; [elim (Hd _ _ H2); auto|]. auto.
        * unfold cc_finite. rewrite H2, Z.eqb_refl. cbn [fst snd]. auto.
    - apply Forall_inv_tail in E5'. auto.
  Qed.

  Lemma graph_empty k C : graph K k C -> (k_size C = 0 <-> ~ has_clique K k).
  Proof.
    intros (L & EL & ->). destruct (graph_closed K k L HR EL) as (RC & CC & VC & DC). set (C := k_sort data_cmp L) in *.
    unfold k_size. split.
    - intros E (s & Hs & Ls). apply In_nth_error in Hs. destruct Hs as [m Hm].
      assert (Hv : In m (k_vertices C)) by (apply VC; eauto). apply (V_spec C RC) in Hv. destruct Hv as (t & Ht & _).
      destruct (by_index C); [easy|discriminate].
    - intro H. destruct (by_index C) as [|t l] eqn:El; auto. exfalso. rewrite <- El in CC. assert (Ht : In t (by_index C)) by (rewrite El; simpl; auto).
      destruct (kwf_good C (reachable_kwf C RC) t Ht) as [_ Hn]. destruct (verts t) as [|v vs] eqn:Ev; [easy|].
      destruct (CC t [v] Ht) as (t' & Ht' & Hs'); [discriminate|intros x [<-|[]]; rewrite Ev; simpl; auto|].
      assert (Hv : exists u, In u (k_vertices C)).
      { exists v. apply (V_spec C RC). exists t'. split; auto. pose proof (kwf_good C (reachable_kwf C RC) t' Ht') as [Hw Hn'].
        apply SSgt_NoDup in Hw. destruct (verts t') as [|a [|b l']].
        - easy.
        - f_equal. destruct (proj1 (Hs' a) ltac:(simpl; auto)) as [|[]]; auto.
        - exfalso. assert (a = v) by (destruct (proj1 (Hs' a) ltac:(simpl; auto)) as [|[]]; auto).
          assert (b = v) by (destruct (proj1 (Hs' b) ltac:(simpl; auto)) as [|[]]; auto). subst. apply NoDup_cons_iff in Hw. destruct Hw as [Hw _]. apply Hw. simpl; auto. }
      destruct Hv as (u & Hu). apply VC in Hu. destruct Hu as (s & Hs & Ls). apply H. exists s. split; auto. eapply nth_error_In; eauto.
  Qed.

  Lemma loop_ok : forall k x, cc_destruction x = D ->
    exists ks files x', cc_loop inf order horder ignoreEmpty K maxWeight k x = Ok (files, x') /\
      StronglySorted gt ks /\
      (forall i, In i ks <-> 1 <= i <= k /\ (ignoreEmpty = true \/ forall i', i <= i' <= k -> has_clique K i')) /\
      StronglySorted gt (map fst files) /\ (forall i, In i (map fst files) <-> In i ks /\ has_clique K i) /\
      Forall file_ok files /\
      (forall w, exists cs, Forall2 (fun i c => exists C, graph K i C /\ community_count K C D w (fst c) (snd c)) ks cs /\
         vim_of (cc_vim x') w = (fst (vim_of (cc_vim x) w) + list_sum (map fst cs), (snd (vim_of (cc_vim x) w) + sumZ' (map snd cs))%Z)).
  Proof.
    induction k as [|k IH]; intros x Hx.
    - exists [], [], x. simpl. refine (conj eq_refl (conj (SSorted_nil _) (conj _ (conj (SSorted_nil _) (conj _ (conj (Forall_nil _) _)))))).
      + intro i. split; [easy|]. intros [? _]. lia.
      + tauto.
      + intro w. exists []. split; [constructor|]. simpl. destruct (vim_of (cc_vim x) w). cbn [fst snd]. rewrite Nat.add_0_r, Z.add_0_r. auto.
    - cbn [cc_loop]. destruct (C49_clique_graph Z.max K (S k) HR) as (L & EL & _). fold (cliqueGraph_max K (S k)) in EL. rewrite EL. cbn [bind].
      set (C := k_sort data_cmp L). assert (HG : graph K (S k) C) by (exists L; auto). pose proof (graph_empty (S k) C HG) as Hempty.
      destruct (negb ignoreEmpty && (k_size C =? 0)) eqn:Estop.
      + apply andb_true_iff in Estop. destruct Estop as [Ei Ez]. apply negb_true_iff in Ei. apply Nat.eqb_eq, Hempty in Ez.
        exists [], [], x. refine (conj eq_refl (conj (SSorted_nil _) (conj _ (conj (SSorted_nil _) (conj _ (conj (Forall_nil _) _)))))).
        * intro i. split; [easy|]. intros [Hi [H|H]]; [congruence|]. elim Ez. apply H. lia.
        * simpl. tauto.
        * intro w. exists []. split; [constructor|]. simpl. destruct (vim_of (cc_vim x) w). cbn [fst snd]. rewrite Nat.add_0_r, Z.add_0_r. auto.
      + assert (Hgo : ignoreEmpty = true \/ has_clique K (S k)).
        { destruct ignoreEmpty; auto. right. cbn [negb andb] in Estop. apply Nat.eqb_neq in Estop.
          assert (Hdec : has_clique K (S k) \/ ~ has_clique K (S k)).
          { unfold has_clique. destruct (existsb (fun s => length (verts s) =? S (S k)) (by_index K)) eqn:Ex.
            - apply existsb_exists in Ex. destruct Ex as (s & Hs & E). apply Nat.eqb_eq in E. eauto.
            - right. intros (s & Hs & E). assert (X : existsb (fun s => length (verts s) =? S (S k)) (by_index K) = true).
              { apply existsb_exists. exists s. split; auto. apply Nat.eqb_eq; auto. } congruence. }
          destruct Hdec; auto. elim Estop. apply Hempty; auto. }
        destruct (graph_rows (S k) C x HG Hx) as (pd & pp & x1 & E1 & E2 & E3 & E4 & rows & Er & Hrows).
        rewrite E1. cbn [bind fst snd].
        destruct (IH x1 E3) as (ks & files & x2 & F1 & F2 & F3 & F4 & F5 & F6 & F7).
        (* the list of the lower dimensions is shorter if this one has no cliques *)
        exists (S k :: ks), ((if k_size C =? 0 then [] else [(S k, rows)]) ++ files), x2.
        assert (Hks : forall i, In i ks -> i < S k) by (intros i Hi; apply F3 in Hi; lia).
        assert (Hfs : forall i, In i (map fst files) -> i < S k) by (intros i Hi; apply F5 in Hi; apply Hks; tauto).
        refine (conj _ (conj _ (conj _ (conj _ (conj _ (conj _ _)))))).
        * destruct (k_size C =? 0); cbn [bind]; [|fold D; rewrite Er; cbn [bind]]; rewrite F1; reflexivity.
        * constructor; auto. apply Forall_forall. intros i Hi. apply Hks in Hi. lia.
        * intro i. cbn [In]. rewrite F3. split.
          -- intros [<-|[Hi H]].
             ++ split; [lia|]. destruct Hgo as [|Hc]; auto. right. intros i' Hi'. assert (i' = S k) by lia. subst. auto.
             ++ split; [lia|]. destruct Hgo as [|Hc]; auto. destruct H as [|H]; auto. right. intros i' Hi'.
                destruct (Nat.eq_dec i' (S k)) as [->|]; auto. apply H. lia.
          -- intros [Hi H]. destruct (Nat.eq_dec i (S k)) as [->|]; auto. right. split; [lia|]. destruct H as [|H]; auto. right.
             intros i' Hi'. apply H. lia.
        * destruct (k_size C =? 0); auto. cbn [app map fst]. constructor; auto. apply Forall_forall. intros i Hi. apply Hfs in Hi. lia.
        * intro i. destruct (Nat.eqb_spec (k_size C) 0) as [Ez|Ez]; cbn [app map fst In]; rewrite F5.
          -- apply Hempty in Ez. split; [tauto|]. intros [[<-|]]; tauto.
          -- split; [|tauto]. intros [<-|[]]; [|tauto]. split; auto. destruct Hgo as [Hg|]; auto.
             destruct (existsb (fun s => length (verts s) =? S (S k)) (by_index K)) eqn:Ex.
             ++ apply existsb_exists in Ex. destruct Ex as (s & Hs & E). apply Nat.eqb_eq in E. exists s. auto.
             ++ exfalso. apply Ez, Hempty. intros (s & Hs & E). assert (X : existsb (fun s => length (verts s) =? S (S k)) (by_index K) = true).
                { apply existsb_exists. exists s. split; auto. apply Nat.eqb_eq; auto. } congruence.
        * apply Forall_app. split; auto. destruct (k_size C =? 0); constructor; [|constructor]. exists C, pd, pp. auto.
        * intro w. destruct (E4 w) as (n & a & G1 & G2). destruct (F7 w) as (cs & G3 & G4). exists ((n, a) :: cs). split.
          -- constructor; auto. exists C. auto.
          -- rewrite G4, G2. cbn [fst snd map list_sum fold_right]. change (sumZ' (a :: map snd cs)) with (a + sumZ' (map snd cs))%Z.
             unfold list_sum. cbn [fold_right]. f_equal; lia.
  Qed.
End Tool.

(** The tool: every dimension from [maxK] down to 1 is processed, unless empty graphs are not
    ignored and one has been met before.  The file of a dimension has one row per pair of the
    zero-dimensional pairing of the clique graph: creation, destruction (twice the maximum weight
    for components that persist) and the number of cliques of the component just before its
    destruction.  The table lists, for all vertices, in how many communities of positive
    persistence (or essential ones) they take part, and the sum of the squares of their persistence. *)
Theorem C152_tool : forall K inf maxWeight order horder ignoreEmpty maxK,
  reachable K -> (forall l, Permutation (order l) l) -> (forall l, Permutation (horder l) l) ->
  (forall s, In s (by_index K) -> data s <> inf) ->
  exists ks files table, cliquePersistence inf order horder ignoreEmpty K maxWeight maxK = Ok (files, table) /\
    StronglySorted gt ks /\
    (forall i, In i ks <-> 1 <= i <= maxK /\ (ignoreEmpty = true \/ forall i', i <= i' <= maxK -> has_clique K i')) /\
    StronglySorted gt (map fst files) /\ (forall i, In i (map fst files) <-> In i ks /\ has_clique K i) /\
    Forall (fun p => exists C pd pp, graph K (fst p) C /\ zeroDimensional inf false order C = Ok (pd, pp) /\
              Forall2 (row_ok C (2 * maxWeight)) pp (snd p)) files /\
    map fst table = k_vertices K /\
    forall w a n, In (w, (a, n)) table ->
      exists cs, Forall2 (fun i c => exists C, graph K i C /\ community_count K C (2 * maxWeight) w (fst c) (snd c)) ks cs /\
        n = list_sum (map fst cs) /\ a = fold_right Z.add 0%Z (map snd cs).
Proof.
  intros K inf maxWeight order horder ignoreEmpty maxK HR Ho Hh Hfin.
  destruct (loop_ok K inf maxWeight order horder ignoreEmpty HR Ho Hh Hfin maxK (ccif_new K (2 * maxWeight)) eq_refl)
    as (ks & files & x & E & A & B & C & D & F & G).
  eexists ks, files, _. refine (conj _ (conj A (conj B (conj C (conj D (conj F (conj _ _))))))).
  - unfold cliquePersistence. rewrite E. reflexivity.
  - rewrite map_map. cbn [fst snd]. apply map_id.
  - intros w a n Hin. apply in_map_iff in Hin. destruct Hin as (v & [= <- <- <-] & _). destruct (G v) as (cs & H1 & H2).
    assert (H0 : vim_of (cc_vim (ccif_new K (2 * maxWeight))) v = (0, 0%Z)).
    { cbn [cc_vim ccif_new]. assert (X : forall l m, vim_of m v = (0, 0%Z) -> vim_of (fold_left (fun m v => set_vim m v (0, 0%Z)) l m) v = (0, 0%Z)).
      { induction l as [|u l IH]; intros m Hm; simpl; auto. apply IH. rewrite vim_set. destruct (v =? u); auto. }
      apply X. reflexivity. }
    rewrite H0 in H2. exists cs. split; auto. rewrite H2. cbn [fst snd]. auto.
Qed.

(** A strip of four triangles; the third one, which comes last, joins the others. *)
Definition strip : complex :=
  k_sort data_cmp (mk [PushBack [0] 0; PushBack [1] 0; PushBack [2] 0; PushBack [3] 0; PushBack [4] 0; PushBack [5] 0;
    PushBack [0;1] 1; PushBack [0;2] 1; PushBack [1;2] 1; PushBack [1;3] 2; PushBack [2;3] 3; PushBack [3;4] 2; PushBack [3;5] 2; PushBack [4;5] 2;
    PushBack [2;4] 3; PushBack [0;1;2] 1; PushBack [1;2;3] 4; PushBack [3;4;5] 2; PushBack [2;3;4] 5]).

Example C152_example :
  cliquePersistence 99 (fun l => l) (fun l => l) true strip 5 3
  = Ok ([(2, [(2%Z, 5%Z, 2); (1%Z, 10%Z, 4)]); (1, [(1%Z, 10%Z, 9)])],
        [(0, (162%Z, 2)); (1, (162%Z, 2)); (2, (171%Z, 3)); (3, (171%Z, 3)); (4, (171%Z, 3)); (5, (171%Z, 3))]) /\
  cliquePersistence 99 (fun l => l) (fun l => l) false strip 5 2 = cliquePersistence 99 (fun l => l) (fun l => l) true strip 5 3 /\
  reachable strip /\ (forall s, In s (by_index strip) -> data s <> 99%Z).
Proof.
  split; [vm_compute; reflexivity|]. split; [vm_compute; reflexivity|]. split; [apply sort_reachable, mk_reachable|].
  vm_compute. intros s Hs. repeat (destruct Hs as [<-|Hs]; [vm_compute; discriminate|]). easy.
Qed.

(** If empty graphs are not ignored, a maximum dimension above that of the largest clique
    suppresses the output of all dimensions. *)
Theorem C152_maximum_refuted : exists K,
  reachable K /\ has_clique K 1 /\ has_clique K 2 /\
  (exists rows rows' table, cliquePersistence 99 (fun l => l) (fun l => l) false K 5 2 = Ok ([(2, rows); (1, rows')], table) /\ rows <> [] /\ rows' <> []) /\
  exists table, cliquePersistence 99 (fun l => l) (fun l => l) false K 5 3 = Ok ([], table) /\ forall v q, In (v, q) table -> q = (0%Z, 0).
Proof.
  exists strip. split; [apply sort_reachable, mk_reachable|].
  assert (H1 : nth_error (by_index strip) 8 <> None /\ option_map (fun s => length (verts s)) (nth_error (by_index strip) 8) = Some 2) by (split; [discriminate|reflexivity]).
  assert (H2 : option_map (fun s => length (verts s)) (nth_error (by_index strip) 18) = Some 3) by reflexivity.
  split; [|split; [|split]].
  - exists (nth 8 (by_index strip) simplex_empty). split; [apply nth_In; vm_compute; lia|vm_compute; reflexivity].
  - exists (nth 18 (by_index strip) simplex_empty). split; [apply nth_In; vm_compute; lia|vm_compute; reflexivity].
  - eexists _, _, _. split; [vm_compute; reflexivity|]. split; discriminate.
  - eexists. split; [vm_compute; reflexivity|]. intros v q H. repeat (destruct H as [[= _ <-]|H]; [reflexivity|]). easy.
Qed.

Print Assumptions C152_tool.
Print Assumptions C152_maximum_refuted.
