(** * Zero-dimensional persistence with a functor: the calls of the functor. *)
From Coq Require Import List Arith Bool ZArith Lia Permutation Sorted Relations.
From Verif Require Import Base BaseFacts Simplex SimplexFacts SpecComplex Complex ComplexFacts History SubcomplexFacts
  UnionFind UnionFindFacts Diagram Components ComponentFacts BarycentricFacts FiltrationFacts HomologyFacts DiagramFacts Functors SpecFunctors.
Import ListNotations.

Lemma bind_assoc {A B C} (m : outcome A) (g : A -> outcome B) (h : B -> outcome C) :
  bind (bind m g) h = bind m (fun x => bind (g x) h).
Proof. destruct m; auto. Qed.

Lemma bind_ext {A B} (m : outcome A) (g h : A -> outcome B) : (forall x, g x = h x) -> bind m g = bind m h.
Proof. intro E. destruct m; simpl; auto. Qed.

Lemma linked_mono K j k u v : j <= k -> linked K j u v -> linked K k u v.
Proof.
  intros Hjk H. induction H as [a b (i & Hi & E)| | |].
  - apply rst_step. exists i. split; [lia|auto].
  - apply rst_refl.
  - apply rst_sym; auto.
  - eapply rst_trans; eauto.
Qed.

(** the call for an event, and for a root *)
Definition do_merge {F} (f : functor F) (x : F) (e : event) : outcome F :=
  f_merge f x (ev_younger e) (ev_older e) (ev_creation e) (ev_destruction e) (ev_u e) (ev_v e).

Definition ev_kept (keep : bool) (e : event) : bool := keep || negb (ev_creation e =? ev_destruction e)%Z.

Section Facts.
  Variable K : complex.
  Hypothesis HR : reachable K.
  Hypothesis HC : closed (by_index K).
  Let HK : kwf K := reachable_kwf K HR.
  Let V := k_vertices K.

  Lemma vertex_at_iff i w : vertex_at K i w <-> In w V /\ idx K w = i.
  Proof.
    unfold vertex_at. rewrite nth_error_map. split.
    - destruct (nth_error (by_index K) i) as [s|] eqn:Es; [|discriminate]. intros [= E]. apply (idx_of K HR i s w Es E).
    - intros [Hw <-]. destruct (idx_spec K HR w Hw) as (s & Hs & Es & _). rewrite Hs. simpl. congruence.
  Qed.

  Lemma edge_at_iff j u v : edge_at K j u v <-> exists s, nth_error (by_index K) j = Some s /\ verts s = [u; v].
  Proof.
    unfold edge_at. rewrite nth_error_map. destruct (nth_error (by_index K) j) as [s|]; simpl; split.
    - intros [= E]. eauto.
    - intros (s' & [= <-] & E). congruence.
    - discriminate.
    - intros (s' & E & _). discriminate.
  Qed.

  Lemma edge_V j u v : edge_at K j u v -> In u V /\ In v V /\ u <> v.
  Proof. intro H. apply edge_at_iff in H. destruct H as (s & Hs & Es). apply (edge_ends K HR HC j s u v Hs Es). Qed.

  Lemma linked_V j u v : linked K j u v -> u = v \/ (In u V /\ In v V).
  Proof.
    intro H. induction H as [a b (i & Hi & E)|a|a b _ IH|a b c _ IH1 _ IH2].
    - right. apply edge_V in E. tauto.
    - auto.
    - destruct IH as [->|[]]; auto.
    - destruct IH1 as [->|[]]; auto. destruct IH2 as [->|[]]; auto.
  Qed.

  Record rep_ok (j : nat) (rep : nat -> nat) : Prop := {
    ro_V : forall u, In u V -> In (rep u) V;
    ro_fix : forall u, In u V -> rep (rep u) = rep u;
    ro_link : forall u v, In u V -> In v V -> (rep u = rep v <-> linked K j u v);
    ro_min : forall u, In u V -> idx K (rep u) <= idx K u
  }.

  Lemma rep_first j rep u : rep_ok j rep -> In u V -> first_at K j (idx K (rep u)) (rep u).
  Proof.
    intros Hr Hu. pose proof (ro_V _ _ Hr u Hu) as Hru. split; [apply vertex_at_iff; auto|].
    intros k w Hw Hl. apply vertex_at_iff in Hw. destruct Hw as [Hw <-].
    apply (ro_link _ _ Hr) in Hl; auto. rewrite (ro_fix _ _ Hr u Hu) in Hl. rewrite <- Hl. apply (ro_min _ _ Hr); auto.
  Qed.

  Lemma first_rep j rep i u : rep_ok j rep -> first_at K j i u -> In u V /\ i = idx K u /\ rep u = u.
  Proof.
    intros Hr [Hv Hm]. apply vertex_at_iff in Hv. destruct Hv as [Hu <-]. refine (conj Hu (conj eq_refl _)).
    pose proof (ro_V _ _ Hr u Hu) as Hru. apply (idx_inj K HR); auto.
    assert (idx K u <= idx K (rep u)).
    { apply (Hm _ (rep u)); [apply vertex_at_iff; auto|]. apply (ro_link _ _ Hr); auto. apply (ro_fix _ _ Hr); auto. }
    pose proof (ro_min _ _ Hr u Hu). lia.
  Qed.

  Lemma linked_rep j rep u : rep_ok j rep -> In u V -> linked K j u (rep u).
  Proof.
    intros Hr Hu. apply (ro_link _ _ Hr); auto; [apply (ro_V _ _ Hr); auto|]. symmetry. apply (ro_fix _ _ Hr); auto.
  Qed.

  (** no change of the components *)
  Lemma skip_rep j rep : rep_ok j rep -> (forall u v, edge_at K j u v -> rep u = rep v) -> rep_ok (S j) rep /\ ~ joining K j.
  Proof.
    intros Hr Hn. split.
    - constructor; try apply Hr. intros u v Hu Hv. rewrite (ro_link _ _ Hr u v Hu Hv). split; [apply linked_mono; lia|].
      intro H. clear Hu Hv. induction H as [a b (i & Hi & E)|a|a b _ IH|a b c _ IH1 _ IH2].
      + destruct (Nat.eq_dec i j) as [->|]; [|apply rst_step; exists i; split; [lia|auto]].
        pose proof (edge_V _ _ _ E) as (Ha & Hb & _). apply (ro_link _ _ Hr); auto.
      + apply rst_refl.
      + apply rst_sym; auto.
      + eapply rst_trans; eauto.
    - intros (u & v & He & Hl). apply Hl. pose proof (edge_V _ _ _ He) as (Ha & Hb & _). apply (ro_link _ _ Hr); auto.
  Qed.

  Lemma merge_rep j rep u v y o : rep_ok j rep -> edge_at K j u v ->
    (y = rep u /\ o = rep v) \/ (y = rep v /\ o = rep u) -> idx K o < idx K y ->
    rep_ok (S j) (merged rep y o) /\ joining K j.
  Proof.
    intros Hr He Hyo Hlt. destruct (edge_V _ _ _ He) as (Hu & Hv & _).
    pose proof (ro_V _ _ Hr) as RV. pose proof (ro_fix _ _ Hr) as RF.
    assert (Ry : rep y = y) by (destruct Hyo as [[-> ->]|[-> ->]]; auto).
    assert (Ro : rep o = o) by (destruct Hyo as [[-> ->]|[-> ->]]; auto).
    assert (HyV : In y V) by (destruct Hyo as [[-> ->]|[-> ->]]; auto).
    assert (HoV : In o V) by (destruct Hyo as [[-> ->]|[-> ->]]; auto).
    assert (Hne : y <> o) by (intros ->; lia).
    assert (Hmu : forall a, merged rep y o a = if rep a =? y then o else rep a) by (intro a; unfold merged; rewrite Ry, Ro; auto).
    assert (Huv : merged rep y o u = merged rep y o v).
    { rewrite !Hmu. destruct Hyo as [[<- <-]|[<- <-]]; rewrite Nat.eqb_refl; destruct (Nat.eqb_spec o y); congruence. }
    assert (Hly : linked K (S j) y o).
    { assert (Hl : linked K (S j) u v) by (apply rst_step; exists j; split; [lia|auto]).
      assert (Hlu : linked K (S j) u (rep u)) by (apply (linked_mono K j); [lia|]; apply linked_rep; auto).
      assert (Hlv : linked K (S j) v (rep v)) by (apply (linked_mono K j); [lia|]; apply linked_rep; auto).
      destruct Hyo as [[-> ->]|[-> ->]].
      - eapply rst_trans; [apply rst_sym; exact Hlu|]. eapply rst_trans; [exact Hl|exact Hlv].
      - eapply rst_trans; [apply rst_sym; exact Hlv|]. eapply rst_trans; [apply rst_sym; exact Hl|exact Hlu]. }
    assert (Hm : forall a, In a V -> linked K (S j) a (merged rep y o a)).
    { intros a Ha. rewrite Hmu. assert (Hla : linked K (S j) a (rep a)) by (apply (linked_mono K j); [lia|]; apply linked_rep; auto).
      destruct (Nat.eqb_spec (rep a) y) as [E|E]; auto. eapply rst_trans; [exact Hla|]. rewrite E. auto. }
    split.
    - constructor.
      + intros a Ha. rewrite Hmu. destruct (rep a =? y); auto.
      + intros a Ha. rewrite (Hmu a). destruct (Nat.eqb_spec (rep a) y) as [E|E]; rewrite Hmu.
        * rewrite Ro. destruct (Nat.eqb_spec o y); congruence.
        * rewrite RF; auto. destruct (Nat.eqb_spec (rep a) y); congruence.
      + intros a b Ha Hb. split.
        * intro E. eapply rst_trans; [apply Hm; auto|]. rewrite E. apply rst_sym, Hm; auto.
        * intro H. clear Ha Hb. induction H as [a b (i & Hi & E)|a|a b _ IH|a b c _ IH1 _ IH2]; auto; [|congruence].
          destruct (Nat.eq_dec i j) as [->|Hij].
          -- apply edge_at_iff in E. apply edge_at_iff in He. destruct E as (s & Es & E1), He as (t & Et & E2).
             rewrite Es in Et. injection Et as <-. rewrite E1 in E2. injection E2 as -> ->. auto.
          -- apply rep_merged_same. pose proof (edge_V _ _ _ E) as (Ha & Hb & _). apply (ro_link _ _ Hr); auto.
             apply rst_step. exists i. split; [lia|auto].
      + intros a Ha. rewrite Hmu. pose proof (ro_min _ _ Hr a Ha). destruct (Nat.eqb_spec (rep a) y) as [E|E]; auto.
        rewrite E in H. lia.
    - exists u, v. split; auto. intro H. apply (ro_link _ _ Hr) in H; auto. destruct Hyo as [[-> ->]|[-> ->]]; congruence.
  Qed.

  (** the events before a position, with the components after them *)
  Inductive runs : nat -> (nat -> nat) -> list event -> Prop :=
  | runs_nil : runs 0 (fun u => u) []
  | runs_skip j rep evs : runs j rep evs -> rep_ok (S j) rep -> ~ joining K j -> runs (S j) rep evs
  | runs_merge j rep evs e : runs j rep evs -> is_event K e -> ev_edge e = j ->
      rep (ev_younger e) = ev_younger e -> rep (ev_older e) = ev_older e -> ev_younger e <> ev_older e ->
      In (ev_younger e) V -> In (ev_older e) V ->
      rep_ok (S j) (merged rep (ev_younger e) (ev_older e)) -> joining K j ->
      runs (S j) (merged rep (ev_younger e) (ev_older e)) (evs ++ [e]).

  Lemma init_rep : rep_ok 0 (fun u => u).
  Proof.
    constructor; auto. intros u v Hu Hv. split; [intros ->; apply rst_refl|]. clear Hu Hv.
    intro H. induction H as [a b (i & Hi & E)| | |]; try congruence. lia.
  Qed.

  Lemma runs_rep j rep evs : runs j rep evs -> rep_ok j rep.
  Proof. intro H. destruct H; auto. apply init_rep. Qed.

  Lemma runs_events j rep evs : runs j rep evs ->
    StronglySorted lt (map ev_edge evs) /\ Forall (is_event K) evs /\
    forall k, In k (map ev_edge evs) <-> k < j /\ joining K k.
  Proof.
    induction 1 as [|j rep evs H IH Hr Hn|j rep evs e H IH He Ee _ _ _ _ _ Hr Hj].
    - simpl. refine (conj (SSorted_nil _) (conj (Forall_nil _) _)). intro k. split; [easy|]. intros [? _]. lia.
    - destruct IH as (A & B & C). refine (conj A (conj B _)). intro k. rewrite C. split; [intros []; split; auto; lia|].
      intros [Hk Hjk]. split; auto. destruct (Nat.eq_dec k j) as [->|]; [easy|lia].
    - destruct IH as (A & B & C). rewrite map_app. simpl. refine (conj _ (conj _ _)).
      + clear - A C Ee. assert (D : forall k, In k (map ev_edge evs) -> k < ev_edge e) by (intros k Hk; apply C in Hk; lia).
        revert A D. generalize (map ev_edge evs) as l. induction l as [|a l IH]; intros A D; simpl; [repeat constructor|].
        apply StronglySorted_inv in A. destruct A as [A1 A2]. constructor.
        * apply IH; auto. intros k Hk. apply D. simpl; auto.
        * apply Forall_app. split; auto. constructor; auto. apply D. simpl; auto.
      + apply Forall_app. auto.
      + intro k. rewrite in_app_iff, C. simpl. split.
        * intros [[H1 H2]|[<-|[]]]; [split; auto; lia|]. rewrite Ee. split; auto; lia.
        * intros [H1 H2]. destruct (Nat.eq_dec k j) as [->|]; auto. left. split; auto; lia.
  Qed.

  (** the loop over all simplices *)
  Section Loop.
    Variable keep : bool.

    Definition ev_points (evs : list event) : list point :=
      map (fun e => (ev_creation e, ev_destruction e)) (filter (ev_kept keep) evs).
    Definition ev_pairs (evs : list event) : list (nat * option nat) :=
      map (fun e => (ev_creator e, Some (ev_edge e))) (filter (ev_kept keep) evs).

    Lemma step_runs j s st rep evs L : nth_error (by_index K) j = Some s ->
      runs j rep evs -> inv V (z_uf st) L rep -> z_pd st = ev_points evs -> z_pp st = ev_pairs evs ->
      exists st' rep' evs' L',
        (forall F (f : functor F) x, functor_step f keep K (st, x) s = bind (foldM (do_merge f) evs' x) (fun x' => Ok (st', x'))) /\
        runs (S j) rep' (evs ++ evs') /\ inv V (z_uf st') L' rep' /\ z_pd st' = ev_points (evs ++ evs') /\ z_pp st' = ev_pairs (evs ++ evs').
    Proof.
      intros Hj Hr Hi Hpd Hpp. assert (Hs : In s (by_index K)) by (eapply nth_error_In; eauto).
      pose proof (runs_rep _ _ _ Hr) as Ho. pose proof (good_dimension s (kwf_good K HK s Hs)) as Hdim.
      destruct (Nat.eqb_spec (sdim s) 1) as [Hd|Hd].
      2:{ assert (Hno : forall u v, edge_at K j u v -> rep u = rep v).
          { intros u v He. apply edge_at_iff in He. destruct He as (t & Et & Ev). rewrite Hj in Et. injection Et as <-.
            elim Hd. unfold sdim. rewrite Ev. auto. }
          destruct (skip_rep j rep Ho Hno) as [S1 S2].
          exists st, rep, [], L. rewrite app_nil_r. refine (conj _ (conj _ (conj Hi (conj Hpd Hpp)))).
          - intros F f x. unfold functor_step. rewrite Hdim. simpl bind. apply Nat.eqb_neq in Hd. rewrite Hd. auto.
          - apply runs_skip; auto. }
      pose proof (kwf_good K HK s Hs) as Hg.
      assert (Ev : exists u v, verts s = [u; v]).
      { unfold sdim in Hd. destruct (verts s) as [|u [|v [|w l]]]; simpl in Hd; try lia. eauto. }
      destruct Ev as (u & v & Es).
      assert (He : edge_at K j u v) by (apply edge_at_iff; eauto).
      destruct (edge_V j u v He) as (Hu & Hv & Huv).
      destruct (find_spec V _ L rep u Hi Hu) as (m1 & E1 & Hi1).
      destruct (find_spec V m1 L rep v Hi1 Hv) as (m2 & E2 & Hi2).
      pose proof (ro_V _ _ Ho u Hu) as HruV. pose proof (ro_V _ _ Ho v Hv) as HrvV.
      assert (Hidx : k_index K s = Ok j).
      { unfold k_index. rewrite (proj2 (find_pos_spec K s j HK)); auto. exists s; auto. }
      destruct (idx_spec K HR _ HruV) as (su & Hsu & Esu & Eu). destruct (idx_spec K HR _ HrvV) as (sv & Hsv & Esv & Ev).
      assert (Hstep : forall F (f : functor F) x, functor_step f keep K (st, x) s =
        if rep u =? rep v then Ok (ZState m2 (z_pd st) (z_pp st), x)
        else
          let '(y, o, yi) := if idx K (rep u) <? idx K (rep v) then (rep v, rep u, idx K (rep v)) else (rep u, rep v, idx K (rep u)) in
          let* c := k_get K yi in
          let* m3 := uf_merge m2 y o in
          let* x := f_merge f x y o (data c) (data s) u v in
          if keep || negb (data c =? data s)%Z then
            Ok (ZState m3 (z_pd st ++ [(data c, data s)]) (z_pp st ++ [(yi, Some j)]), x)
          else Ok (ZState m3 (z_pd st) (z_pp st), x)).
      { intros F f x. unfold functor_step. rewrite Hdim. simpl bind. rewrite Hd. cbn [fst snd Nat.eqb negb].
        rewrite Es. unfold get_ at 1 2. cbn [nth_error bind]. rewrite E1. cbn [bind]. rewrite E2. cbn [bind].
        rewrite Eu, Ev. cbn [bind]. rewrite Hidx. cbn [bind]. auto. }
      destruct (Nat.eqb_spec (rep u) (rep v)) as [E|E].
      { assert (Hno : forall a b, edge_at K j a b -> rep a = rep b).
        { intros a b Hab. apply edge_at_iff in Hab. destruct Hab as (t & Et & Ev'). rewrite Hj in Et. injection Et as <-.
          rewrite Es in Ev'. injection Ev' as <- <-. auto. }
        destruct (skip_rep j rep Ho Hno) as [S1 S2].
        exists (ZState m2 (z_pd st) (z_pp st)), rep, [], L. rewrite app_nil_r. refine (conj Hstep (conj _ (conj Hi2 (conj Hpd Hpp)))).
        apply runs_skip; auto. }
      assert (Fin : forall y o c, (y = rep u /\ o = rep v) \/ (y = rep v /\ o = rep u) -> idx K o < idx K y ->
        In y V -> In o V -> nth_error (by_index K) (idx K y) = Some c ->
        (forall F (f : functor F) x, functor_step f keep K (st, x) s =
           let* c := k_get K (idx K y) in
           let* m3 := uf_merge m2 y o in
           let* x := f_merge f x y o (data c) (data s) u v in
           if keep || negb (data c =? data s)%Z then
             Ok (ZState m3 (z_pd st ++ [(data c, data s)]) (z_pp st ++ [(idx K y, Some j)]), x)
           else Ok (ZState m3 (z_pd st) (z_pp st), x)) ->
        exists st' rep' evs' L',
          (forall F (f : functor F) x, functor_step f keep K (st, x) s = bind (foldM (do_merge f) evs' x) (fun x' => Ok (st', x'))) /\
          runs (S j) rep' (evs ++ evs') /\ inv V (z_uf st') L' rep' /\ z_pd st' = ev_points (evs ++ evs') /\ z_pp st' = ev_pairs (evs ++ evs')).
      { intros y o c Hyo Hlt HyV HoV Hc Hst.
        destruct (merge_spec V m2 L rep y o Hi2 HyV HoV) as (m3 & L' & E3 & Hi3).
        destruct (merge_rep j rep u v y o Ho He Hyo Hlt) as [Hok Hjo].
        set (e := Event j (idx K y) y o (data c) (data s) u v).
        assert (Ry : rep y = y) by (destruct Hyo as [[-> ->]|[-> ->]]; apply (ro_fix _ _ Ho); auto).
        assert (Ro : rep o = o) by (destruct Hyo as [[-> ->]|[-> ->]]; apply (ro_fix _ _ Ho); auto).
        assert (Hev : is_event K e).
        { constructor; cbn [ev_edge ev_creator ev_younger ev_older ev_creation ev_destruction ev_u ev_v e]; auto.
          - intro Hl. apply (ro_link _ _ Ho) in Hl; auto.
          - destruct Hyo as [[-> ->]|[-> ->]]; [left|right]; split; apply linked_rep; auto.
          - pose proof (rep_first j rep y Ho HyV) as X. rewrite Ry in X. auto.
          - exists (idx K o). split; auto. pose proof (rep_first j rep o Ho HoV) as X. rewrite Ro in X. auto.
          - unfold data_of. rewrite nth_error_map, Hc. auto.
          - unfold data_of. rewrite nth_error_map, Hj. auto. }
        assert (Hruns : runs (S j) (merged rep y o) (evs ++ [e])).
        { apply (runs_merge j rep evs e); auto. cbn [ev_younger ev_older e]. intros ->. lia. }
        exists (if keep || negb (data c =? data s)%Z then ZState m3 (z_pd st ++ [(data c, data s)]) (z_pp st ++ [(idx K y, Some j)])
                else ZState m3 (z_pd st) (z_pp st)), (merged rep y o), [e], L'.
        refine (conj _ (conj Hruns _)).
        - intros F f x. rewrite Hst. unfold k_get, get_. rewrite Hc. cbn [bind]. rewrite E3. cbn [bind].
          unfold foldM at 1, do_merge. cbn [ev_younger ev_older ev_creation ev_destruction ev_u ev_v e].
          rewrite bind_assoc. apply bind_ext. intro x'. cbn [bind]. destruct (keep || negb (data c =? data s)%Z); auto.
        - unfold ev_points, ev_pairs. rewrite !filter_app, !map_app. cbn [filter]. unfold ev_kept at 2 4.
          cbn [ev_creation ev_destruction e].
          destruct (keep || negb (data c =? data s)%Z); cbn [z_uf z_pd z_pp map]; rewrite Hpd, Hpp, ?app_nil_r; auto. }
      destruct (Nat.ltb_spec (idx K (rep u)) (idx K (rep v))) as [Hlt|Hge].
      - apply (Fin (rep v) (rep u) sv); auto.
      - apply (Fin (rep u) (rep v) su); auto. assert (idx K (rep u) <> idx K (rep v)) by (intro X; apply E, (idx_inj K HR); auto). lia.
    Qed.

    Lemma loop_runs l2 : forall l1 st rep evs L, by_index K = l1 ++ l2 ->
      runs (length l1) rep evs -> inv V (z_uf st) L rep -> z_pd st = ev_points evs -> z_pp st = ev_pairs evs ->
      exists st' rep' evs' L',
        (forall F (f : functor F) x, foldM (functor_step f keep K) l2 (st, x) = bind (foldM (do_merge f) evs' x) (fun x' => Ok (st', x'))) /\
        runs (k_size K) rep' (evs ++ evs') /\ inv V (z_uf st') L' rep' /\ z_pd st' = ev_points (evs ++ evs') /\ z_pp st' = ev_pairs (evs ++ evs').
    Proof.
      induction l2 as [|s l2 IH]; intros l1 st rep evs L E Hr Hi Hpd Hpp.
      - exists st, rep, [], L. rewrite app_nil_r in *. split; [auto|].
        unfold k_size. rewrite E. auto.
      - assert (Hj : nth_error (by_index K) (length l1) = Some s) by (rewrite E, nth_error_app2, Nat.sub_diag by lia; auto).
        destruct (step_runs (length l1) s st rep evs L Hj Hr Hi Hpd Hpp) as (st1 & rep1 & evs1 & L1 & E1 & Hr1 & Hi1 & Hpd1 & Hpp1).
        destruct (IH (l1 ++ [s]) st1 rep1 (evs ++ evs1) L1) as (st2 & rep2 & evs2 & L2 & E2 & Hr2 & Hi2 & Hpd2 & Hpp2); auto.
        + rewrite <- app_assoc. auto.
        + rewrite app_length. simpl. rewrite Nat.add_1_r. auto.
        + exists st2, rep2, (evs1 ++ evs2), L2. rewrite !app_assoc. split; auto.
          intros F f x. simpl. rewrite E1, foldM_app, !bind_assoc. apply bind_ext. intro x'. simpl. apply E2.
    Qed.

    Lemma roots_runs inf roots : incl roots V -> exists ds : list Z,
      Forall2 (fun r d => data_of K (idx K r) d) roots ds /\
      forall st, exists st', forall F (f : functor F) x,
        foldM (functor_root f inf K) roots (st, x)
        = bind (foldM (fun x q => f_root f x (fst q) (snd q)) (combine roots ds) x) (fun x' => Ok (st', x')) /\
        z_pd st' = z_pd st ++ map (fun d => unpaired_point inf d) ds /\
        z_pp st' = z_pp st ++ map (fun r => (idx K r, None)) roots.
    Proof.
      induction roots as [|r roots IH]; intro Hin.
      - exists []. split; [constructor|]. intro st. exists st. intros F f x. simpl. rewrite !app_nil_r. auto.
      - destruct IH as (ds & Hds & IH); [intros a Ha; apply Hin; simpl; auto|].
        destruct (idx_spec K HR r (Hin r (or_introl eq_refl))) as (s & Hs & Es & _).
        exists (data s :: ds). split.
        { constructor; auto. unfold data_of. rewrite nth_error_map, Hs. auto. }
        intro st. destruct (IH (ZState (z_uf st) (z_pd st ++ [unpaired_point inf (data s)]) (z_pp st ++ [(idx K r, None)]))) as (st' & H').
        exists st'. intros F f x. assert (Hst : forall y, functor_root f inf K (st, y) r = bind (f_root f y r (data s)) (fun x' =>
           Ok (ZState (z_uf st) (z_pd st ++ [unpaired_point inf (data s)]) (z_pp st ++ [(idx K r, None)]), x'))).
        { intro y. unfold functor_root. rewrite (proj2 (lookup_some K (simplex_vertex r 0) s HK)).
          2:{ split; auto. eapply nth_error_In; eauto. }
          assert (Hidx : k_index K s = Ok (idx K r)).
          { unfold k_index. rewrite (proj2 (find_pos_spec K s (idx K r) HK)); auto. exists s; auto. }
          rewrite Hidx. cbn [bind fst snd]. auto. }
        split.
        + cbn [foldM combine fst snd]. rewrite Hst, !bind_assoc. apply bind_ext. intro y. cbn [bind]. apply H'.
        + destruct (H' F f x) as (_ & A & B). rewrite A, B. cbn [z_pd z_pp map]. rewrite <- !app_assoc. auto.
    Qed.

    Theorem zero_functor inf order : (forall l, Permutation (order l) l) ->
      exists rep evs roots ds,
        runs (k_size K) rep evs /\ Permutation roots (filter (fun u => rep u =? u) V) /\
        Forall2 (fun r d => data_of K (idx K r) d) roots ds /\
        forall F (f : functor F) x, zeroFunctor f inf keep order K x =
          let* a := foldM (f_initialize f) V x in
          let* b := foldM (do_merge f) evs a in
          let* c := foldM (fun x q => f_root f x (fst q) (snd q)) (combine roots ds) b in
          Ok (ev_points evs ++ map (fun d => unpaired_point inf d) ds,
              ev_pairs evs ++ map (fun r => (idx K r, None)) roots, c).
    Proof.
      intro Ho. destruct (loop_runs (by_index K) [] (ZState (uf_init V) [] []) (fun u => u) [] [] eq_refl runs_nil (init_inv V) eq_refl eq_refl)
        as (st & rep & evs & L & E & Hr & Hi & Hpd & Hpp). simpl app in *.
      destruct (roots_spec V order (z_uf st) L rep Hi) as (m & Em & Him).
      set (roots := order (filter (fun u => rep u =? u) (map fst (z_uf st)))) in *.
      assert (Hperm : Permutation roots (filter (fun u => rep u =? u) V)).
      { unfold roots. eapply Permutation_trans; [apply Ho|]. apply NoDup_Permutation.
        - apply NoDup_filter. apply (inv_nodup _ _ _ _ Hi).
        - apply NoDup_filter. apply (V_NoDup K HR).
        - intro u. rewrite !filter_In. rewrite (inv_keys _ _ _ _ Hi). tauto. }
      assert (Hin : incl roots V).
      { intros r Hr'. apply (Permutation_in _ Hperm) in Hr'. apply filter_In in Hr'. tauto. }
      destruct (roots_runs inf roots Hin) as (ds & Hds & Hroots).
      destruct (Hroots (ZState m (z_pd st) (z_pp st))) as (st' & H').
      exists rep, evs, roots, ds. refine (conj Hr (conj Hperm (conj Hds _))).
      intros F f x. unfold zeroFunctor. apply bind_ext. intro a. rewrite E, bind_assoc. apply bind_ext. intro b. cbn [bind fst snd].
      fold V. rewrite Em. cbn [bind]. destruct (H' F f b) as (A & B & C). rewrite A, bind_assoc. apply bind_ext. intro c.
      cbn [bind fst snd]. rewrite B, C. cbn [z_pd z_pp]. rewrite Hpd, Hpp. auto.
    Qed.
  End Loop.
End Facts.
