(** * Adjacency graphs and paths of the extended persistence hierarchy. *)
From Coq Require Import List Arith Bool ZArith Lia Sorted Permutation Relations.
From Verif Require Import Base BaseFacts Matrix Simplex SimplexFacts SpecComplex Complex ComplexFacts History SubcomplexFacts RepFacts
  RipsFacts PropertiesRips UnionFind UnionFindFacts Components ComponentFacts FloydFacts ExtendedHierarchy SearchFacts ExtendedFacts InterlevelFacts.
Import ListNotations.

Lemma nth_upd_same (adj : list (list nat)) a x : a < length adj -> nth a (upd adj a x) [] = x.
Proof. intro H. apply nth_error_nth. apply nth_error_upd_eq. exact H. Qed.
Lemma nth_upd_other (adj : list (list nat)) a b x : b <> a -> nth b (upd adj a x) [] = nth b adj [].
Proof.
  intro H. pose proof (nth_error_upd_neq adj a b x (not_eq_sym H)) as E. destruct (nth_error adj b) as [l|] eqn:E1.
  - rewrite (nth_error_nth _ _ _ E). rewrite (nth_error_nth _ _ _ E1). reflexivity.
  - rewrite !nth_overflow; [reflexivity|apply nth_error_None; exact E1|apply nth_error_None; exact E].
Qed.

Section Adjacency.
  Variable K : complex.
  Hypothesis HK : kwf K.
  Hypothesis HD : forall s, In s (by_index K) -> sdim s <= 1.
  Let VK w := exists s, In s (by_index K) /\ verts s = [w].

  Record ainv (pre rest : list simplex) (indices : list nat) (adj : list (list nat)) : Prop := {
    a_in : forall w, In w indices <-> exists s, In s pre /\ verts s = [w];
    a_nodup : NoDup indices;
    a_len : length adj = length indices;
    a_adj : forall a b, In b (nth a adj []) <-> exists x y, nth_error indices a = Some x /\ nth_error indices b = Some y /\
      exists s, In s pre /\ (verts s = [x; y] \/ verts s = [y; x]) /\ VK x /\ VK y;
    a_first : (exists s, In s pre /\ sdim s = 1) -> forall s, In s rest -> sdim s = 1 }.

  Lemma index_lt (l : list nat) a x : nth_error l a = Some x -> a < length l.
  Proof. intro H. apply nth_error_Some. congruence. Qed.

  Lemma graph_step_ok pre s rest indices adj : by_dim K = pre ++ s :: rest -> ainv pre (s :: rest) indices adj ->
    exists indices' adj', graph_step K (indices, adj) s = Ok (indices', adj') /\ ainv (pre ++ [s]) rest indices' adj'.
  Proof.
    intros Eb [A1 A2 A3 A4 A5]. assert (In_by : forall t, In t (pre ++ s :: rest) <-> In t (by_index K)).
    { intro t. rewrite <- Eb. split; apply Permutation_in; [apply Permutation_sym|]; apply (kwf_perm K HK). }
    assert (Hs : In s (by_index K)) by (apply In_by; apply in_or_app; simpl; auto).
    assert (Hn : NoDup (map verts (pre ++ s :: rest))).
    { rewrite <- Eb. apply (Permutation_NoDup (l := map verts (by_index K))); [apply Permutation_map; apply (kwf_perm K HK)|apply (kwf_nodup K HK)]. }
    destruct (kwf_good K HK s Hs) as [Hw Hne]. pose proof (SSgt_NoDup _ Hw) as Hnd. pose proof (HD s Hs) as Hd1.
    assert (Rest : (exists t, In t (pre ++ [s]) /\ sdim t = 1) -> forall t, In t rest -> sdim t = 1).
    { intros (t & Ht & Et) r Hr. apply in_app_or in Ht. destruct Ht as [Ht|[<-|[]]]; [apply A5; [exists t; auto|simpl; auto]|].
      pose proof (kwf_sorted K HK) as HS. rewrite Eb in HS. assert (X : dim_le s r); [|unfold dim_le in X; assert (In r (by_index K)) by (apply In_by; apply in_or_app; simpl; auto); pose proof (HD r H); lia].
      clear - HS Hr. induction pre as [|a p IH]; cbn [app] in HS; inversion HS as [|? ? HS' HF]; subst; [|apply IH; exact HS']. rewrite Forall_forall in HF. apply HF. exact Hr. }
    unfold graph_step. unfold sdim in *. destruct (verts s) as [|u [|v [|x l]]] eqn:Es; [contradiction| | |cbn [length] in Hd1; lia]; cbn [length pred Nat.sub Nat.eqb]; unfold get_ at 1; cbn [nth_error bind].
    - (* a vertex *)
      assert (NoE : forall t, In t pre -> length (verts t) <> 2).
      { intros t Ht E. specialize (A5 (ex_intro _ t (conj Ht (f_equal (fun n => n - 1) E))) s (or_introl eq_refl)). rewrite Es in A5. cbn [length] in A5. lia. }
      exists (indices ++ [u]), (adj ++ [[]]). split; [reflexivity|].
      assert (Hu : ~ In u indices).
      { intro X. apply A1 in X. destruct X as (t & Ht & Et). rewrite map_app in Hn. cbn [map] in Hn. apply NoDup_remove_2 in Hn. apply Hn. apply in_or_app. left. rewrite Es, <- Et. apply in_map. exact Ht. }
      constructor.
      + intro w. rewrite in_app_iff, A1. split.
        * intros [(t & H1 & H2)|[<-|[]]]; [exists t; split; [apply in_or_app; auto|exact H2]|exists s; split; [apply in_or_app; simpl; auto|exact Es]].
        * intros (t & H1 & H2). apply in_app_or in H1. destruct H1 as [H1|[<-|[]]]; [left; eauto|]. right. simpl. left. congruence.
      + apply (Permutation_NoDup (l := u :: indices)); [apply Permutation_cons_append|constructor; assumption].
      + rewrite !app_length, A3. reflexivity.
      + intros a b. assert (E : nth a (adj ++ [[]]) [] = nth a adj []).
        { destruct (Nat.lt_ge_cases a (length adj)) as [H|H]; [apply app_nth1; exact H|]. rewrite app_nth2 by exact H. rewrite (nth_overflow adj) by exact H. destruct (a - length adj) as [|[|k]]; reflexivity. }
        rewrite E, A4. split.
        * intros (x & y & H1 & H2 & t & H3 & H4). exists x, y. refine (conj _ (conj _ _)); [rewrite nth_error_app1; [exact H1|apply (index_lt _ _ _ H1)]|rewrite nth_error_app1; [exact H2|apply (index_lt _ _ _ H2)]|]. exists t. split; [apply in_or_app; auto|exact H4].
        * intros (x & y & H1 & H2 & t & H3 & H4 & H5). exfalso. apply in_app_or in H3. destruct H3 as [H3|[<-|[]]]; [apply (NoE t H3); destruct H4 as [-> | ->]; reflexivity|destruct H4; congruence].
      + exact Rest.
    - (* an edge *)
      unfold get_ at 1; cbn [nth_error bind].
      assert (Huv : u <> v) by (inversion Hnd as [|? ? X]; subst; intros ->; apply X; simpl; auto).
      assert (Same : (forall a b x y, nth_error indices a = Some x -> nth_error indices b = Some y -> ~ ((verts s = [x; y] \/ verts s = [y; x]) /\ VK x /\ VK y)) -> ainv (pre ++ [s]) rest indices adj).
      { intro Hno. constructor; [|exact A2|exact A3| |exact Rest].
        - intro w. rewrite A1. split; [intros (t & H1 & H2); exists t; split; [apply in_or_app; auto|exact H2]|]. intros (t & H1 & H2). apply in_app_or in H1. destruct H1 as [H1|[<-|[]]]; [eauto|congruence].
        - intros a b. rewrite A4. split; intros (x & y & H1 & H2 & t & H3 & H4); exists x, y; refine (conj H1 (conj H2 _)); [exists t; split; [apply in_or_app; auto|exact H4]|].
          apply in_app_or in H3. destruct H3 as [H3|[<-|[]]]; [exists t; auto|]. exfalso. apply (Hno a b x y H1 H2 H4). }
      assert (Cont : forall w, k_contains K (simplex_vertex w 0) = true <-> VK w).
      { intro w. rewrite contains_In. cbn [verts simplex_vertex]. rewrite in_map_iff. split; intros (t & H1 & H2); exists t; auto. }
      destruct (k_contains K (simplex_vertex u 0)) eqn:Cu; cbn [andb].
      2:{ exists indices, adj. split; [reflexivity|]. apply Same. intros a b x y _ _ ([E|E] & H1 & H2); rewrite Es in E; injection E as <- <-; apply Cont in H1; apply Cont in H2; congruence. }
      destruct (k_contains K (simplex_vertex v 0)) eqn:Cv.
      2:{ exists indices, adj. split; [reflexivity|]. apply Same. intros a b x y _ _ ([E|E] & H1 & H2); rewrite Es in E; injection E as <- <-; apply Cont in H1; apply Cont in H2; congruence. }
      apply Cont in Cu. apply Cont in Cv.
      assert (InI : forall w, VK w -> In w indices).
      { intros w (t & H1 & H2). apply A1. exists t. split; [|exact H2]. apply In_by in H1. apply in_app_or in H1. destruct H1 as [H1|[<-|H1]]; [exact H1|congruence|]. exfalso.
        assert (X : length (verts t) - 1 = 1); [|rewrite H2 in X; discriminate]. apply Rest; [|exact H1]. exists s. split; [apply in_or_app; simpl; auto|rewrite Es; reflexivity]. }
      destruct (position_In u indices A2 (InI u Cu)) as (a & -> & Ha). destruct (position_In v indices A2 (InI v Cv)) as (b & -> & Hb).
      pose proof (index_lt _ _ _ Ha) as La. pose proof (index_lt _ _ _ Hb) as Lb. rewrite <- A3 in La, Lb.
      assert (Hab : a <> b) by (intros ->; congruence).
      rewrite (proj2 (get_ok adj a (nth a adj [])) (nth_error_nth' adj [] La)). cbn [bind].
      assert (Gb : nth_error (upd adj a (nth a adj [] ++ [b])) b = Some (nth b adj [])) by (rewrite nth_error_upd_neq by congruence; apply nth_error_nth'; exact Lb).
      rewrite (proj2 (get_ok _ b _) Gb). cbn [bind]. do 2 eexists. split; [reflexivity|].
      constructor; [|exact A2|rewrite !upd_length; exact A3| |exact Rest].
      + intro w. rewrite A1. split; [intros (t & H1 & H2); exists t; split; [apply in_or_app; auto|exact H2]|]. intros (t & H1 & H2). apply in_app_or in H1. destruct H1 as [H1|[<-|[]]]; [eauto|congruence].
      + assert (Nth : forall c, nth c (upd (upd adj a (nth a adj [] ++ [b])) b (nth b adj [] ++ [a])) [] = if c =? a then nth a adj [] ++ [b] else if c =? b then nth b adj [] ++ [a] else nth c adj []).
        { intro c. destruct (Nat.eqb_spec c a) as [->|Nca]; [rewrite nth_upd_other by exact Hab; apply nth_upd_same; exact La|].
          destruct (Nat.eqb_spec c b) as [->|Ncb]; [apply nth_upd_same; rewrite upd_length; exact Lb|]. rewrite !nth_upd_other by assumption. reflexivity. }
        assert (IA : forall c w, nth_error indices c = Some w -> w = u -> c = a) by (intros c w Hc ->; apply (proj1 (NoDup_nth_error indices) A2); [apply (index_lt _ _ _ Hc)|congruence]).
        assert (IB : forall c w, nth_error indices c = Some w -> w = v -> c = b) by (intros c w Hc ->; apply (proj1 (NoDup_nth_error indices) A2); [apply (index_lt _ _ _ Hc)|congruence]).
        assert (Step : forall c d, In d (nth c (upd (upd adj a (nth a adj [] ++ [b])) b (nth b adj [] ++ [a])) []) <-> In d (nth c adj []) \/ (c = a /\ d = b) \/ (c = b /\ d = a)).
        { intros c d. rewrite Nth. destruct (Nat.eqb_spec c a) as [->|Nca]; [rewrite in_app_iff; simpl; intuition congruence|]. destruct (Nat.eqb_spec c b) as [->|Ncb]; [rewrite in_app_iff; simpl; intuition congruence|]. intuition congruence. }
        intros c d. rewrite Step, A4. split.
        * intros [(x & y & H1 & H2 & t & H3 & H4)|[[-> ->]|[-> ->]]].
          -- exists x, y. refine (conj H1 (conj H2 _)). exists t. split; [apply in_or_app; auto|exact H4].
          -- exists u, v. refine (conj Ha (conj Hb _)). exists s. refine (conj _ (conj (or_introl Es) (conj Cu Cv))). apply in_or_app; simpl; auto.
          -- exists v, u. refine (conj Hb (conj Ha _)). exists s. refine (conj _ (conj (or_intror Es) (conj Cv Cu))). apply in_or_app; simpl; auto.
        * intros (x & y & H1 & H2 & t & H3 & H4 & H5). apply in_app_or in H3. destruct H3 as [H3|[<-|[]]]; [left; exists x, y; refine (conj H1 (conj H2 _)); exists t; auto|]. right.
          destruct H4 as [E|E]; rewrite Es in E; injection E as E1 E2; [left; split; [apply (IA c x H1); congruence|apply (IB d y H2); congruence]|right; split; [apply (IB c x H1); congruence|apply (IA d y H2); congruence]].
  Qed.

  Lemma adjacencyGraph_ok : exists indices adj, adjacencyGraph K = Ok (indices, adj) /\ NoDup indices /\ length adj = length indices /\
    (forall w, In w indices <-> VK w) /\
    forall a b, In b (nth a adj []) <-> exists x y, nth_error indices a = Some x /\ nth_error indices b = Some y /\
      exists s, In s (by_index K) /\ (verts s = [x; y] \/ verts s = [y; x]).
  Proof.
    unfold adjacencyGraph.
    destruct (foldM_ind (graph_step K) (fun i G => ainv (firstn i (by_dim K)) (skipn i (by_dim K)) (fst G) (snd G)) (by_dim K) ([], [])) as ((indices & adj) & -> & [A1 A2 A3 A4 _]).
    - cbn [firstn skipn fst snd]. constructor; [|constructor|reflexivity| |].
      + intro w. split; [intros []|intros (s & [] & _)].
      + intros a b. split; [intro H; destruct a; destruct H|intros (x & y & _ & _ & s & [] & _)].
      + intros (s & [] & _).
    - intros i s (indices, adj) Hi A. cbn [fst snd] in A.
      assert (Es : skipn i (by_dim K) = s :: skipn (Datatypes.S i) (by_dim K)).
      { clear - Hi. revert Hi. generalize (by_dim K). induction i as [|i IH]; intros [|x l] Hi; try discriminate; [injection Hi as ->; reflexivity|]. cbn [nth_error] in Hi. cbn [skipn]. rewrite (IH l Hi). reflexivity. }
      rewrite Es in A. destruct (graph_step_ok (firstn i (by_dim K)) s (skipn (Datatypes.S i) (by_dim K)) indices adj) as (indices' & adj' & E1 & E2); [rewrite <- Es; symmetry; apply firstn_skipn|exact A|].
      exists (indices', adj'). split; [exact E1|]. cbn [fst snd]. rewrite (firstn_S_nth i (by_dim K) s Hi). exact E2.
    - cbn [fst snd] in *. rewrite firstn_all in A1, A4. assert (In_by : forall t, In t (by_dim K) <-> In t (by_index K)).
      { intro t. split; apply Permutation_in; [apply Permutation_sym|]; apply (kwf_perm K HK). }
      assert (B1 : forall w, In w indices <-> VK w) by (intro w; rewrite A1; split; intros (s & H1 & H2); exists s; split; try exact H2; apply In_by; exact H1).
      exists indices, adj. refine (conj eq_refl (conj A2 (conj A3 (conj B1 _)))). intros a b. rewrite A4. split; intros (x & y & H1 & H2 & s & H3 & H4); exists x, y; refine (conj H1 (conj H2 _)); exists s.
      + split; [apply In_by; exact H3|apply H4].
      + refine (conj (proj2 (In_by s) H3) (conj H4 (conj _ _))); apply B1; eapply nth_error_In; eauto.
  Qed.
End Adjacency.
