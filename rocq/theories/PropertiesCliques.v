(** * C28: enumeration of maximal cliques. *)
From Coq Require Import List Arith Bool ZArith Lia Permutation Sorted.
From Verif Require Import Base BaseFacts Simplex SimplexFacts SpecComplex Matrix PairingFacts RepFacts Complex ComplexFacts
  History Subcomplex SubcomplexFacts PropertiesComplex MaximalCliques SpecCliques CliqueFacts.
Import ListNotations.

(** the vertices of every edge are stored *)
Definition edges_have_vertices (L : list simplex) : Prop :=
  forall s v, In s L -> length (verts s) = 2 -> In v (verts s) -> has L [v].

Lemma closed_edges L : closed L -> edges_have_vertices L.
Proof. intros H s v Hs _ Hv. apply (H s); auto; [discriminate|]. intros u [<-|[]]; auto. Qed.

Lemma has_vertex K v : kwf K -> (has (by_index K) [v] <-> In v (k_vertices K)).
Proof.
  intro HK. rewrite (proj2 (vertices_spec K HK) v). split.
  - intros (s & Hs & E). exists s. split; auto. change [v] with (verts (Simplex [v] 0)). apply wf_ext; auto; [apply (kwf_good K HK s Hs)|unfold wf; repeat constructor].
  - intros (s & Hs & E). exists s. rewrite E. split; auto. intro; tauto.
Qed.

Lemma vertex_id_ok K v : In v (k_vertices K) -> exists i, vertex_id K v = Ok i /\ nth_error (k_vertices K) i = Some v.
Proof.
  intro Hv. unfold vertex_id. destruct (position (Nat.eqb v) (k_vertices K)) as [i|] eqn:E.
  - exists i. split; auto. apply position_some in E. destruct E as (u & Hu & E & _). apply Nat.eqb_eq in E. congruence.
  - rewrite position_none in E. specialize (E v Hv). rewrite Nat.eqb_refl in E. discriminate.
Qed.

Definition cols_wf (A : sparse) (n : nat) : Prop := length (sp_columns A) = n /\
  forall i c, nth_error (sp_columns A) i = Some c -> StronglySorted lt c /\ forall j, In j c -> j < n.

Lemma sp_set_ok A n r c : cols_wf A n -> r < n -> c < n -> exists A', sp_set A r c = Ok A' /\ cols_wf A' n /\
  forall i j, adj A' i j <-> adj A i j \/ (i = r /\ j = c).
Proof.
  intros [Hl Hw] Hr Hc. rewrite <- Hl in Hc. unfold sp_set, at_. destruct (nth_error (sp_columns A) c) as [col|] eqn:E; [|apply nth_error_None in E; lia].
  cbn [bind]. eexists. split; [reflexivity|]. destruct (Hw c col E) as [S1 S2]. split.
  - split; cbn [sp_columns]; [rewrite upd_length; auto|]. intros i x. rewrite nth_error_upd. destruct (Nat.eqb_spec c i); cbn [andb].
    + destruct (Nat.ltb_spec c (length (sp_columns A))); [|lia]. intros [= <-]. split; [apply set_insert_sorted; auto|].
      intros j Hj. apply set_insert_In in Hj. destruct Hj as [->|]; auto.
    + apply Hw.
  - intros i j. unfold adj. cbn [sp_columns]. split.
    + intros (x & Hx & Hi). rewrite nth_error_upd in Hx. destruct (Nat.eqb_spec c j); cbn [andb] in Hx; [|left; eauto].
      destruct (Nat.ltb_spec c (length (sp_columns A))); [|lia]. injection Hx as <-. apply set_insert_In in Hi. destruct Hi as [->|Hi]; auto. left. subst. eauto.
    + intros [(x & Hx & Hi)|[-> ->]].
      * destruct (Nat.eq_dec c j) as [->|Hne].
        -- exists (set_insert r col). rewrite nth_error_upd_eq by auto. split; auto. apply set_insert_In. rewrite E in Hx. injection Hx as ->. auto.
        -- exists x. rewrite nth_error_upd_neq by auto. auto.
      * exists (set_insert r col). rewrite nth_error_upd_eq by auto. split; auto. apply set_insert_In. auto.
Qed.

Lemma sp_set_index A r c A' : sp_set A r c = Ok A' -> sp_index A' = sp_index A.
Proof. unfold sp_set. destruct (at_ (sp_columns A) c); cbn [bind]; try discriminate. intros [= <-]. reflexivity. Qed.

Lemma adjacency_spec K : reachable K -> edges_have_vertices (by_index K) ->
  exists A, adjacencyMatrix K = Ok A /\ cols_wf A (length (k_vertices K)) /\ sp_index A = k_vertices K /\
  forall i j, adj A i j <-> exists u v, nth_error (k_vertices K) i = Some u /\ nth_error (k_vertices K) j = Some v /\ u <> v /\ has (by_index K) [u; v].
Proof.
  intros HR He. pose proof (reachable_kwf K HR) as HK. set (V := k_vertices K). set (n := length V).
  assert (NV : NoDup V) by (apply SSlt_NoDup, (vertices_spec K HK)).
  unfold adjacencyMatrix. fold V.
  assert (G : forall l A, (forall s, In s l -> In s (by_index K) /\ length (verts s) = 2) -> cols_wf A n ->
    exists A', foldM (fun A s =>
      let* s0 := s_nth s 0 in let* u := vertex_id K s0 in let* s1 := s_nth s 1 in let* v := vertex_id K s1 in
      let* A := sp_set A u v in sp_set A v u) l A = Ok A' /\ cols_wf A' n /\
    forall i j, adj A' i j <-> adj A i j \/ exists s u v, In s l /\ u <> v /\ set_eq (verts s) [u; v] /\ nth_error V i = Some u /\ nth_error V j = Some v).
  { induction l as [|s l IH]; intros A Hl HA; cbn [foldM].
    - exists A. refine (conj eq_refl (conj HA _)). intros i j. split; auto. intros [|(s & u & v & [] & _)]; auto.
    - destruct (Hl s ltac:(simpl; auto)) as [Hs Ls]. destruct (kwf_good K HK s Hs) as [Ws _].
      destruct (verts s) as [|a [|b [|]]] eqn:Ev; simpl in Ls; try lia.
      assert (Hab : a <> b).
      { unfold wf in Ws. rewrite Ev in Ws. apply SSgt_NoDup in Ws. inversion Ws as [|? ? N _]; subst. intros ->. apply N. simpl. auto. }
      assert (Ha : In a V) by (apply has_vertex; auto; apply (He s a Hs); rewrite Ev; simpl; auto).
      assert (Hb : In b V) by (apply has_vertex; auto; apply (He s b Hs); rewrite Ev; simpl; auto).
      destruct (vertex_id_ok K a Ha) as (ia & Ea & Na). destruct (vertex_id_ok K b Hb) as (ib & Eb & Nb). fold V in Na, Nb.
      assert (La : ia < n) by (eapply nth_error_lt; eauto). assert (Lb : ib < n) by (eapply nth_error_lt; eauto).
      unfold s_nth at 1 2. rewrite Ev. cbn [at_ nth_error bind]. rewrite Ea. cbn [bind]. unfold at_. cbn [nth_error]. cbn [bind]. rewrite Eb. cbn [bind].
      destruct (sp_set_ok A n ia ib HA La Lb) as (A1 & E1 & W1 & I1). rewrite E1. cbn [bind].
      destruct (sp_set_ok A1 n ib ia W1 Lb La) as (A2 & E2 & W2 & I2). rewrite E2. cbn [bind].
      destruct (IH A2) as (A' & E' & W' & I'); auto; [intros; apply Hl; simpl; auto|].
      exists A'. refine (conj E' (conj W' _)). intros i j. rewrite I', I2, I1. split.
      + intros [[[H|[-> ->]]|[-> ->]]|(t & u & v & Ht & H)]; auto.
        * right. exists s, a, b. rewrite Ev. refine (conj (or_introl eq_refl) (conj Hab (conj _ (conj Na Nb)))). intro; tauto.
        * right. exists s, b, a. rewrite Ev. refine (conj (or_introl eq_refl) (conj (not_eq_sym Hab) (conj _ (conj Nb Na)))). intro; simpl; tauto.
        * right. exists t, u, v. simpl. tauto.
      + intros [H|(t & u & v & [<-|Ht] & Huv & Et & Nu & Nv)]; auto.
        * left. assert (Hu : u = a \/ u = b) by (pose proof (proj2 (Et u) ltac:(simpl; auto)) as H; rewrite Ev in H; simpl in H; intuition).
          assert (Hv : v = a \/ v = b) by (pose proof (proj2 (Et v) ltac:(simpl; auto)) as H; rewrite Ev in H; simpl in H; intuition).
          rewrite NoDup_nth_error in NV.
          assert (Hi : forall x y w, nth_error V x = Some w -> nth_error V y = Some w -> x = y) by (intros x y w X Y; apply NV; [eapply nth_error_lt; eauto|congruence]).
          destruct Hu as [->| ->], Hv as [->| ->]; try congruence.
          -- left. right. split; eapply Hi; eauto.
          -- right. split; eapply Hi; eauto.
        * right. exists t, u, v. auto. }
  destruct (G (k_range K 1) (sp_make n)) as (A & E & W & IA).
  - intros s Hs. apply range_In in Hs; auto.
  - split; cbn [sp_make sp_columns]; [apply repeat_length|]. intros i c Hc. apply nth_error_In, repeat_spec in Hc. subst c. split; [constructor|intros j []].
  - fold n. rewrite E. cbn [bind]. unfold sp_setIndices. destruct W as [Wl Ww]. rewrite Wl. unfold n at 1. rewrite Nat.eqb_refl.
    eexists. split; [reflexivity|]. split; [split; auto|]. split; [reflexivity|]. intros i j.
    change (adj (Sparse (sp_columns A) V) i j) with (adj A i j). rewrite IA. split.
    + intros [(c & Hc & Hi)|(s & u & v & Hs & Huv & Es & Nu & Nv)].
      * exfalso. cbn [sp_make sp_columns] in Hc. apply nth_error_In, repeat_spec in Hc. subst c. contradiction.
      * exists u, v. refine (conj Nu (conj Nv (conj Huv _))). exists s. apply range_In in Hs; auto. tauto.
    + intros (u & v & Nu & Nv & Huv & (s & Hs & Es)). right. exists s, u, v. refine (conj _ (conj Huv (conj Es (conj Nu Nv)))).
      apply range_In; auto. split; auto. apply (NoDup_same_length (verts s) [u; v]); [apply SSgt_NoDup, (kwf_good K HK s Hs)| |exact Es].
      repeat constructor; simpl; intuition.
Qed.

Section Transfer.
  Variable K : complex.
  Hypothesis HR : reachable K.
  Hypothesis He : edges_have_vertices (by_index K).
  Variable A : sparse.
  Hypothesis HW : cols_wf A (length (k_vertices K)).
  Hypothesis Hidx : sp_index A = k_vertices K.
  Hypothesis Hadj : forall i j, adj A i j <-> exists u v, nth_error (k_vertices K) i = Some u /\ nth_error (k_vertices K) j = Some v /\ u <> v /\ has (by_index K) [u; v].
  Let V := k_vertices K.
  Let lab i := nth i V 0.

  Lemma lab_nth i u : nth_error V i = Some u -> lab i = u.
  Proof. apply nth_error_nth. Qed.
  Lemma lab_ok i : i < length V -> sp_getIndex A i = Ok (lab i).
  Proof.
    intro Hi. assert (E : sp_getIndex A i = at_ (k_vertices K) i).
    { unfold sp_getIndex. rewrite Hidx. unfold V in Hi. clear - Hi. destruct (k_vertices K); [simpl in Hi; lia|reflexivity]. }
    rewrite E. apply BaseFacts.at_ok. apply nth_error_nth'. exact Hi.
  Qed.
  Lemma V_nodup : NoDup V.
  Proof. apply SSlt_NoDup, vertices_spec, reachable_kwf, HR. Qed.
  Lemma lab_inj i j : i < length V -> j < length V -> lab i = lab j -> i = j.
  Proof. intros Hi Hj E. eapply NoDup_nth; eauto. apply V_nodup. Qed.
  Lemma lab_In i : i < length V -> In (lab i) V.
  Proof. apply nth_In. Qed.
  Lemma adj_lab i j : adj A i j <-> i < length V /\ j < length V /\ i <> j /\ has (by_index K) [lab i; lab j].
  Proof.
    rewrite Hadj. split.
    - intros (u & v & Hu & Hv & Huv & H). pose proof (nth_error_lt _ _ _ Hu). pose proof (nth_error_lt _ _ _ Hv).
      rewrite (lab_nth i u Hu), (lab_nth j v Hv). refine (conj H0 (conj H1 (conj _ H))). intros ->. congruence.
    - intros (Hi & Hj & Hij & H). exists (lab i), (lab j). refine (conj (nth_error_nth' _ _ Hi) (conj (nth_error_nth' _ _ Hj) (conj _ H))).
      intro E. apply Hij, lab_inj; auto.
  Qed.
  Lemma adj_sym i j : adj A i j -> adj A j i.
  Proof.
    rewrite !adj_lab. intros (H1 & H2 & H3 & (s & Hs & Es)). refine (conj H2 (conj H1 (conj (not_eq_sym H3) _))).
    exists s. split; auto. intro v. rewrite (Es v). simpl. tauto.
  Qed.
  Lemma adj_irr i : ~ adj A i i.
  Proof. rewrite adj_lab. tauto. Qed.

  Lemma maxclq_maximal E : maxclq A (length V) E <-> (forall i, In i E -> i < length V) /\ maximal_clique (by_index K) (labels lab E).
  Proof.
    pose proof (reachable_kwf K HR) as HK. split.
    - intros ((C1 & C2) & M). split; auto. split.
      + split.
        * intros u Hu. apply labels_In in Hu. destruct Hu as (i & Hi & <-). apply has_vertex; auto. apply lab_In; auto.
        * intros u v Hu Hv Huv. apply labels_In in Hu, Hv. destruct Hu as (i & Hi & <-), Hv as (j & Hj & <-). assert (Hij : i <> j) by (intros ->; auto). apply (proj1 (adj_lab i j) (C2 i j Hi Hj Hij)).
      + intros w Hw (D1 & D2). assert (HwV : In w V) by (apply has_vertex; auto; apply D1; simpl; auto).
        apply In_nth_error in HwV. destruct HwV as (k & Hk). apply (M k (nth_error_lt _ _ _ Hk)). intros i Hi. apply adj_lab.
        refine (conj (C1 i Hi) (conj (nth_error_lt _ _ _ Hk) (conj _ _))).
        * intros ->. apply Hw. apply labels_In. exists k. split; auto. apply lab_nth; auto.
        * rewrite (lab_nth k w Hk). apply D2; simpl; auto; [right; apply labels_In; eauto|]. intro E'. apply Hw. rewrite <- E'. apply labels_In. eauto.
    - intros (C1 & ((D1 & D2) & M)). split; [split; auto|].
      + intros i j Hi Hj Hij. apply adj_lab. refine (conj (C1 i Hi) (conj (C1 j Hj) (conj Hij _))).
        apply D2; [apply labels_In; eauto|apply labels_In; eauto|]. intro E'. apply Hij, lab_inj; auto.
      + intros w Hw Ha.
        assert (Hn : ~ In (lab w) (labels lab E)).
        { intro H. apply labels_In in H. destruct H as (i & Hi & Ei). apply lab_inj in Ei; auto. subst i. apply (adj_irr w). auto. }
        apply (M (lab w) Hn). split.
        * intros u [<-|Hu]; auto. apply has_vertex; auto. apply lab_In; auto.
        * intros u v [<-|Hu] [<-|Hv] Huv; auto; try easy.
          -- apply labels_In in Hv. destruct Hv as (i & Hi & <-). specialize (Ha i Hi). apply adj_sym, adj_lab in Ha. tauto.
          -- apply labels_In in Hu. destruct Hu as (i & Hi & <-). specialize (Ha i Hi). apply adj_lab in Ha. tauto.
  Qed.

  Lemma transfer R : reports A (length V) lab [] (seq 0 (length V)) (fun _ => True) R ->
    NoDup R /\ forall r, In r R <-> StronglySorted lt r /\ maximal_clique (by_index K) r.
  Proof.
    pose proof (reachable_kwf K HR) as HK. intros (N & HIn). split; auto. intro r. rewrite HIn. split.
    - intros (E & HE & _ & ->). apply (due_start A _ (proj1 HW)) in HE. split; [apply labels_sorted|]. apply maxclq_maximal in HE. destruct HE as [_ HE]. exact HE.
    - intros [Sr Mr]. pose proof Mr as ((D1 & _) & _).
      assert (HE : exists E, (forall i, In i E -> i < length V) /\ set_eq (map lab E) r).
      { clear Mr Sr HIn. induction r as [|u r IH]; [exists []; split; [intros i []|intro; simpl; tauto]|].
        destruct IH as (E & E1 & E2); [intros; apply D1; simpl; auto|]. assert (Hu : In u V) by (apply has_vertex; auto; apply D1; simpl; auto).
        apply In_nth_error in Hu. destruct Hu as (k & Hk). exists (k :: E). split.
        - intros i [<-|Hi]; auto. eapply nth_error_lt; eauto.
        - intro v. simpl. rewrite (lab_nth k u Hk), (E2 v). tauto. }
      destruct HE as (E & E1 & E2). assert (EL : r = labels lab E).
      { apply SSlt_ext; auto; [apply labels_sorted|]. intro v. rewrite <- (E2 v), in_map_iff, labels_In. split; intros (i & H1 & H2); eauto. }
      exists E. refine (conj _ (conj Logic.I EL)). apply (due_start A _ (proj1 HW)). apply maxclq_maximal. split; auto. rewrite <- EL. auto.
  Qed.
End Transfer.

(** Both enumerations report every maximal clique exactly once, as an ascending
    list of vertices, whatever the traversal order of the hash sets. *)
Theorem C28_bron_kerbosch : forall order K, (forall C l, Permutation (order C l) l) ->
  reachable K -> edges_have_vertices (by_index K) ->
  exists R, maximalCliquesBronKerbosch order K = Ok R /\ NoDup R /\
    forall r, In r R <-> StronglySorted lt r /\ maximal_clique (by_index K) r.
Proof.
  intros order K Ho HR He. destruct (adjacency_spec K HR He) as (A & EA & [W1 W2] & HI & Hadj).
  unfold maximalCliquesBronKerbosch. rewrite EA. cbn [bind].
  destruct (bron_kerbosch order A (length (k_vertices K)) (fun i => nth i (k_vertices K) 0) Ho W1 W2) with
    (fuel := S (length (k_vertices K))) (C := @nil nat) (I0 := initialVertexSet K) (X := @nil nat) (cl := @nil (list nat)) as (R & E & HR').
  - intros i j. eapply adj_sym; eauto.
  - intros i. eapply adj_irr; eauto.
  - intros i. eapply lab_ok; eauto.
  - intros i j. eapply lab_inj; eauto.
  - unfold initialVertexSet. rewrite seq_length. lia.
  - apply inv_start; auto.
  - exists R. split; auto. eapply transfer; eauto. split; eauto.
Qed.

Theorem C28_koch : forall order K, (forall C l, Permutation (order C l) l) ->
  reachable K -> edges_have_vertices (by_index K) ->
  exists R, maximalCliquesKoch order K = Ok R /\ NoDup R /\
    forall r, In r R <-> StronglySorted lt r /\ maximal_clique (by_index K) r.
Proof.
  intros order K Ho HR He. destruct (adjacency_spec K HR He) as (A & EA & [W1 W2] & HI & Hadj).
  unfold maximalCliquesKoch. rewrite EA. cbn [bind].
  destruct (koch order A (length (k_vertices K)) (fun i => nth i (k_vertices K) 0) Ho W1 W2) with
    (fuel := S (length (k_vertices K))) (C := @nil nat) (I0 := initialVertexSet K) (X := @nil nat) (cl := @nil (list nat)) as (R & E & HR').
  - intros i j. eapply adj_sym; eauto.
  - intros i. eapply adj_irr; eauto.
  - intros i. eapply lab_ok; eauto.
  - intros i j. eapply lab_inj; eauto.
  - unfold initialVertexSet. rewrite seq_length. lia.
  - apply inv_start; auto.
  - exists R. split; auto. eapply transfer; eauto. split; eauto.
Qed.

(** without stored vertices the table of identifiers is accessed out of range *)
Theorem C28_not_closed_refuted : exists K, reachable K /\ has (by_index K) [0; 1] /\
  forall order, maximalCliquesKoch order K = Throw OutOfRange /\ maximalCliquesBronKerbosch order K = Throw OutOfRange.
Proof.
  exists (mk [InsertRange [([0; 1], 0%Z)]]). split; [apply mk_reachable|]. split.
  - exists (Simplex [1; 0] 0). split; [vm_compute; auto|]. intro; simpl; tauto.
  - split; vm_compute; reflexivity.
Qed.

Definition bowtie : complex := mk [InsertRange (map (fun l => (l, 0%Z))
  [[1]; [2]; [3]; [5]; [8]; [9]; [1; 2]; [1; 3]; [2; 3]; [3; 5]; [3; 8]; [5; 8]])].
Example C28_example : maximalCliquesKoch (fun _ l => l) bowtie = Ok [[1; 2; 3]; [3; 5; 8]; [9]] /\
  maximalCliquesBronKerbosch (fun _ l => rev l) bowtie = Ok [[9]; [3; 5; 8]; [1; 2; 3]].
Proof. split; vm_compute; reflexivity. Qed.

Print Assumptions C28_bron_kerbosch.
Print Assumptions C28_koch.
Print Assumptions C28_not_closed_refuted.
