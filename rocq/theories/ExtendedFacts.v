(** * Specification of the extended persistence hierarchy, and facts about its parts. *)
From Coq Require Import List Arith Bool ZArith Lia Sorted Permutation Relations.
From Verif Require Import Base BaseFacts Matrix Simplex SimplexFacts SpecComplex Complex ComplexFacts History SubcomplexFacts RepFacts
  RipsFacts PropertiesRips UnionFind UnionFindFacts Components ComponentFacts FloydFacts ExtendedHierarchy SearchFacts.
Import ListNotations.

(** ** Specification *)
Section Spec.
  (** the vertices and edges of a filtration *)
  Variable L : list simplex.
  Definition born (w i : nat) : Prop := exists s, nth_error L i = Some s /\ verts s = [w].
  Definition older (o y : nat) : Prop := exists i k, born o i /\ born y k /\ i < k.
  Definition edge (j u v : nat) (d : Z) : Prop := exists s, nth_error L j = Some s /\ set_eq (verts s) [u; v] /\ u <> v /\ data s = d.
  Definition value (w : nat) (d : Z) : Prop := exists s, In s L /\ verts s = [w] /\ data s = d.

  (** components before the [j]-th simplex, and their eldest vertices *)
  Definition joined_before (j : nat) : nat -> nat -> Prop := clos_refl_sym_trans nat (fun u v => exists k d, k < j /\ edge k u v d).
  Definition eldest (j u r : nat) : Prop := joined_before j u r /\ (exists i, born r i) /\ forall w, joined_before j u w -> w = r \/ older r w.
  (** the [j]-th simplex, with data [d], merges the component of [y] into the older one of [o] *)
  Definition merges (j y o : nat) (d : Z) : Prop := exists u v, edge j u v d /\ eldest j u y /\ eldest j v o /\ older o y.
  Definition lasting (j y o : nat) : Prop := exists d e, merges j y o d /\ value y e /\ e <> d.
  (** the critical point of a component: the last one that was merged into it *)
  Definition critical (j r c : nat) : Prop :=
    (exists k, k < j /\ lasting k c r /\ forall k' y, k < k' -> k' < j -> ~ lasting k' y r) \/
    (c = r /\ forall k y, k < j -> ~ lasting k y r).

  (** tags of edges: the critical point to which the older vertex leads *)
  Definition steep (k w o : nat) : Prop := exists d, edge k w o d /\ older o w /\ value w d.
  Inductive leads : nat -> nat -> nat -> Prop :=
  | leads_self j w : (forall k o, k < j -> ~ steep k w o) -> leads j w w
  | leads_edge j w k o t : k < j -> steep k w o -> (forall k' o', k < k' -> k' < j -> ~ steep k' w o') -> leads k o t -> leads j w t.
  Definition tagged (j t : nat) : Prop := exists u o d, edge j u o d /\ older o u /\ leads j o t.

  (** paths in interlevel sets *)
  Definition within (lo hi d : Z) : Prop := (Z.min lo hi <= d <= Z.max lo hi)%Z.
  Definition vertex_within (lo hi : Z) (w : nat) : Prop := exists e, value w e /\ within lo hi e.
  Definition level_edge (lo hi : Z) (j x y : nat) : Prop :=
    (exists d, edge j x y d /\ within lo hi d) /\ vertex_within lo hi x /\ vertex_within lo hi y.
  Inductive level_path (lo hi : Z) : nat -> nat -> list nat -> list nat -> Prop :=
  | path_nil x : level_path lo hi x x [x] []
  | path_cons x y z vs ts j t : level_edge lo hi j x y -> tagged j t -> level_path lo hi y z vs ts -> level_path lo hi x z (x :: vs) (t :: ts).
  Definition shortest_path (lo hi : Z) (x z : nat) (vs ts : list nat) : Prop :=
    level_path lo hi x z vs ts /\ forall vs' ts', level_path lo hi x z vs' ts' -> length vs <= length vs'.
  Definition two_points (ts : list nat) : Prop := exists s t, s <> t /\ forall r, In r ts <-> r = s \/ r = t.

  (** The parent of a component that lasted: the critical point of the older component if
      a shortest path between both critical points passes exactly two critical points,
      otherwise the eldest vertex of the older component. *)
  Definition hierarchy_parent (j y o p : nat) : Prop :=
    exists cy co a b la d, merges j y o d /\ critical j y cy /\ critical j o co /\
      ((a = co /\ b = cy) \/ (a = cy /\ b = co)) /\ older a b /\ value a la /\
      ((p = co /\ exists vs ts, shortest_path la d b a vs ts /\ two_points ts) \/
       (p = o /\ ((forall vs ts, ~ level_path la d b a vs ts) \/ exists vs ts, shortest_path la d b a vs ts /\ ~ two_points ts))).

  (** the elder rule *)
  Definition elder_pairs (m : nat) (pairs : list (nat * option nat)) : Prop :=
    exists js, StronglySorted lt js /\ (forall k, In k js <-> k < m /\ exists y o d, merges k y o d) /\
      Forall2 (fun k q => exists y o d i, merges k y o d /\ born y i /\ q = (i, Some k)) js pairs.
  Definition elder_edges (m : nat) (edges : list (nat * nat)) : Prop :=
    exists js, StronglySorted lt js /\ (forall k, In k js <-> k < m /\ exists y o, lasting k y o) /\
      Forall2 (fun k q => exists o, lasting k (snd q) o /\ hierarchy_parent k (snd q) o (fst q)) js edges.
End Spec.

Section Graph.
  Variable S : complex.
  Hypothesis HR : reachable S.
  Hypothesis HC : closed (by_index S).
  Let L := by_index S.
  Let HK : kwf S := reachable_kwf S HR.
  Let V := k_vertices S.

  Lemma born_idx w : In w V -> born L w (idx S w).
  Proof. intro Hw. destruct (idx_spec S HR w Hw) as (s & H1 & H2 & _). exists s. auto. Qed.
  Lemma born_inv w i : born L w i -> In w V /\ idx S w = i.
  Proof. intros (s & H1 & H2). apply (idx_of S HR i s w H1 H2). Qed.
  Lemma older_idx o y : older L o y <-> In o V /\ In y V /\ idx S o < idx S y.
  Proof.
    split.
    - intros (i & k & H1 & H2 & H3). apply born_inv in H1, H2. destruct H1 as [H1 <-], H2 as [H2 <-]. auto.
    - intros (H1 & H2 & H3). exists (idx S o), (idx S y). refine (conj (born_idx o H1) (conj (born_idx y H2) H3)).
  Qed.
  Lemma edge_sym j u v d : edge L j u v d -> edge L j v u d.
  Proof. intros (s & H1 & H2 & H3 & H4). exists s. refine (conj H1 (conj _ (conj (not_eq_sym H3) H4))). intro w. rewrite (H2 w). simpl. tauto. Qed.
  Lemma edge_of j s u v : nth_error L j = Some s -> verts s = [u; v] -> edge L j u v (data s) /\ In u V /\ In v V /\ u <> v.
  Proof.
    intros Hj Es. destruct (edge_ends S HR HC j s u v Hj Es) as (Hu & Hv & Hne). split; [|auto]. exists s. rewrite Es. refine (conj Hj (conj _ (conj Hne eq_refl))). intro w; reflexivity.
  Qed.
  Lemma edge_inv j u v d : edge L j u v d -> exists s, nth_error L j = Some s /\ data s = d /\ (verts s = [u; v] \/ verts s = [v; u]) /\ sdim s = 1 /\ In u V /\ In v V /\ u <> v.
  Proof.
    intros (s & H1 & H2 & H3 & H4). exists s. assert (Hs : In s L) by (eapply nth_error_In; eauto). destruct (good_verts S HR s Hs) as [_ Hn].
    assert (I1 : incl (verts s) [u; v]) by (intros x Hx; apply H2; exact Hx). assert (I2 : incl [u; v] (verts s)) by (intros x Hx; apply H2; exact Hx).
    assert (N2 : NoDup [u; v]) by (constructor; [intros [E|[]]; congruence|constructor; [intros []|constructor]]).
    pose proof (NoDup_incl_length Hn I1) as L1. pose proof (NoDup_incl_length N2 I2) as L2. destruct (verts s) as [|a [|b [|c l]]] eqn:Es; simpl in L1, L2; try lia.
    assert (Ed : sdim s = 1) by (unfold sdim; rewrite Es; reflexivity).
    assert (Hab : a <> b) by (inversion Hn as [|? ? X]; subst; intros ->; apply X; simpl; auto).
    assert (E : [a; b] = [u; v] \/ [a; b] = [v; u]).
    { pose proof (I1 a (or_introl eq_refl)) as Ia. pose proof (I1 b (or_intror (or_introl eq_refl))) as Ib. simpl in Ia, Ib. destruct Ia as [<-|[<-|[]]], Ib as [<-|[<-|[]]]; auto; contradiction. }
    destruct (edge_of j s a b H1 Es) as (_ & Ha & Hb & _).
    destruct E as [E|E]; injection E as -> ->; refine (conj H1 (conj H4 (conj _ (conj Ed _)))); auto.
  Qed.
  Lemma edge_form s : sdim s = 1 -> In s L -> exists u v, verts s = [u; v].
  Proof. intros Hd Hs. unfold sdim in Hd. destruct (verts s) as [|a [|b [|c l]]]; simpl in Hd; try lia. eauto. Qed.
  Lemma edge_unique j u v d u' v' d' : edge L j u v d -> edge L j u' v' d' -> d = d' /\ ((u = u' /\ v = v') \/ (u = v' /\ v = u')).
  Proof.
    intros H H'. apply edge_inv in H, H'. destruct H as (s & H1 & H2 & H3 & _). destruct H' as (s' & H1' & H2' & H3' & _).
    assert (s' = s) by congruence. subst s'. split; [congruence|]. destruct H3 as [E|E], H3' as [E'|E']; rewrite E in E'; injection E' as -> ->; auto.
  Qed.
  Lemma joined_V j u v : joined_before L j u v -> (In u V <-> In v V).
  Proof.
    induction 1 as [u v (k & d & _ & H)| | |]; [|tauto|tauto|tauto]. apply edge_inv in H. destruct H as (_ & _ & _ & _ & _ & H1 & H2 & _). tauto.
  Qed.
  Lemma joined_mono j u v : joined_before L j u v -> joined_before L (Datatypes.S j) u v.
  Proof.
    induction 1 as [u v (k & d & Hk & H)| | |]; [apply rst_step; exists k, d; auto|apply rst_refl|apply rst_sym; assumption|eapply rst_trans; eassumption].
  Qed.

  (** *** functions of the model *)
  Lemma by_age_spec a b : In a V -> In b V -> a <> b -> exists y o, by_age S a b = Ok (y, o) /\ ((y = a /\ o = b) \/ (y = b /\ o = a)) /\ idx S o < idx S y.
  Proof.
    intros Ha Hb Hne. unfold by_age. destruct (idx_spec S HR a Ha) as (_ & _ & _ & ->). destruct (idx_spec S HR b Hb) as (_ & _ & _ & ->). cbn [bind].
    destruct (Nat.ltb_spec (idx S a) (idx S b)) as [H|H]; [exists b, a; auto|]. exists a, b. refine (conj eq_refl (conj (or_introl (conj eq_refl eq_refl)) _)).
    assert (idx S a <> idx S b) by (intro E; apply Hne; apply (idx_inj S HR); assumption). lia.
  Qed.
  Lemma deref_vertex a : In a V -> exists c, find_deref S (simplex_vertex a 0) = Ok c /\ nth_error L (idx S a) = Some c /\ verts c = [a] /\ k_index S c = Ok (idx S a) /\ value L a (data c).
  Proof.
    intro Ha. destruct (idx_spec S HR a Ha) as (c & H1 & H2 & H3). exists c. assert (Hc : In c (by_index S)) by (eapply nth_error_In; eauto). unfold find_deref.
    rewrite (proj2 (lookup_some S (simplex_vertex a 0) c HK) (conj Hc H2)). refine (conj eq_refl (conj H1 (conj H2 (conj _ _)))).
    - unfold k_index. rewrite (proj2 (find_pos_spec S c (idx S a) HK)); [reflexivity|]. exists c; auto.
    - exists c. auto.
  Qed.
  Lemma index_edge j s : nth_error L j = Some s -> k_index S s = Ok j.
  Proof. intro H. unfold k_index. rewrite (proj2 (find_pos_spec S s j HK)); [reflexivity|]. exists s; auto. Qed.
  Lemma value_unique w d e : value L w d -> value L w e -> d = e.
  Proof.
    intros (s & H1 & H2 & <-) (t & H3 & H4 & <-). apply In_nth_error in H1, H3. destruct H1 as [i H1], H3 as [k H3].
    destruct (idx_of S HR i s w H1 H2) as [_ E1]. destruct (idx_of S HR k t w H3 H4) as [_ E2]. congruence.
  Qed.
  Lemma vm_same m k v : vm_set m k v k = v.
  Proof. unfold vm_set. rewrite Nat.eqb_refl. reflexivity. Qed.
  Lemma vm_other m k v w : w <> k -> vm_set m k v w = m w.
  Proof. intro H. unfold vm_set. destruct (Nat.eqb_spec w k); [contradiction|reflexivity]. Qed.
  Lemma vm_init_V w : In w V -> vm_init V w = w.
  Proof. intro H. unfold vm_init. rewrite (proj2 (mem_In w V) H). reflexivity. Qed.

  (** *** tags *)
  Lemma steep_fun k w o o' : steep L k w o -> steep L k w o' -> o = o'.
  Proof.
    intros (d & H1 & H2 & _) (d' & H1' & H2' & _). destruct (edge_unique _ _ _ _ _ _ _ H1 H1') as [_ [[_ E]|[E1 E2]]]; [exact E|]. subst o' o. apply older_idx in H2. apply older_idx in H2'. lia.
  Qed.
  Record tinv (j : nat) (crit : nat -> nat) (tags : tag_map) : Prop := {
    t_leads : forall w, In w V -> leads L j w (crit w);
    t_tags : forall k s u v, k < j -> nth_error L k = Some s -> verts s = [u; v] -> exists t, tag_at tags s = Ok t /\ tagged L k t;
    t_keys : forall q, In q tags -> exists k, k < j /\ nth_error L k = Some (fst q) }.
  Lemma leads_next j w t : leads L j w t -> (forall o, ~ steep L j w o) -> leads L (Datatypes.S j) w t.
  Proof.
    intros H Hn. inversion H as [j' w' H1|j' w' k o t' H1 H2 H3 H4]; subst.
    - apply leads_self. intros k o Hk. destruct (Nat.eq_dec k j) as [->|]; [apply Hn|apply H1; lia].
    - apply (leads_edge L (Datatypes.S j) w k o t); [lia|exact H2| |exact H4]. intros k' o' Hk1 Hk2. destruct (Nat.eq_dec k' j) as [->|]; [apply Hn|apply H3; lia].
  Qed.
  Lemma tag_step_ok j s crit tags : nth_error L j = Some s -> tinv j crit tags -> exists crit' tags', tag_step S (crit, tags) s = Ok (crit', tags') /\ tinv (Datatypes.S j) crit' tags'.
  Proof.
    intros Hj [T1 T2 T3]. unfold tag_step. assert (Hs : In s L) by (eapply nth_error_In; eauto).
    destruct (Nat.eqb_spec (sdim s) 1) as [Hd|Hd]; cbn [negb].
    2:{ exists crit, tags. split; [reflexivity|]. assert (Ne : forall u v d, ~ edge L j u v d) by (intros u v d H; apply edge_inv in H; destruct H as (s' & H1 & _ & _ & H2 & _); congruence). constructor.
      - intros w Hw. apply leads_next; [apply T1; exact Hw|]. intros o (d & H & _). apply (Ne w o d H).
      - intros k t u v Hk Ht Et. destruct (Nat.eq_dec k j) as [->|]; [|apply (T2 k t u v); auto; lia]. exfalso. assert (t = s) by congruence. subst t. unfold sdim in Hd. rewrite Et in Hd. apply Hd. reflexivity.
      - intros q Hq. destruct (T3 q Hq) as (k & H1 & H2). exists k. auto. }
    destruct (edge_form s Hd Hs) as (u & v & Es). destruct (edge_of j s u v Hj Es) as (He & Hu & Hv & Hne). rewrite Es. unfold get_ at 1 2. cbn [nth_error bind].
    destruct (Nat.eqb_spec u v) as [|_]; [contradiction|]. destruct (by_age_spec u v Hu Hv Hne) as (y & o & -> & Hyo & Hlt). cbn [bind].
    assert (HyV : In y V /\ In o V /\ y <> o) by (destruct Hyo as [[-> ->]|[-> ->]]; auto). destruct HyV as (HyV & HoV & Hyo').
    assert (Heyo : edge L j y o (data s)) by (destruct Hyo as [[-> ->]|[-> ->]]; [exact He|apply edge_sym; exact He]).
    assert (Hold : older L o y) by (apply older_idx; auto).
    destruct (deref_vertex y HyV) as (c & -> & _ & _ & _ & Hval). cbn [bind].
    set (crit' := if (data c =? data s)%Z then vm_set crit y (crit o) else crit). assert (Eo : crit' o = crit o) by (unfold crit'; destruct (data c =? data s)%Z; [apply vm_other; congruence|reflexivity]).
    exists crit', ((s, crit' o) :: tags). split; [reflexivity|].
    assert (Tag : tagged L j (crit' o)) by (exists y, o, (data s); refine (conj Heyo (conj Hold _)); rewrite Eo; apply T1; exact HoV).
    assert (St : forall w o', steep L j w o' -> w = y /\ o' = o /\ data c = data s).
    { intros w o' (d & H1 & H2 & H3). destruct (edge_unique _ _ _ _ _ _ _ H1 Heyo) as [-> [[-> ->]|[-> ->]]].
      - refine (conj eq_refl (conj eq_refl _)). apply (value_unique y); assumption.
      - apply older_idx in H2. lia. }
    constructor.
    - intros w Hw. unfold crit'. destruct (Z.eqb_spec (data c) (data s)) as [Ed|Ed].
      + assert (Sy : steep L j y o) by (exists (data s); rewrite <- Ed at 2; auto). destruct (Nat.eq_dec w y) as [->|N].
        * rewrite vm_same. apply (leads_edge L (Datatypes.S j) y j o); [lia|exact Sy|intros; lia|apply T1; exact HoV].
        * rewrite vm_other by exact N. apply leads_next; [apply T1; exact Hw|]. intros o' H. apply N. apply (St w o' H).
      + apply leads_next; [apply T1; exact Hw|]. intros o' H. apply Ed. apply (St w o' H).
    - intros k t a b Hk Ht Et. unfold tag_at. cbn [find fst]. destruct (s_eqb s t) eqn:E.
      + apply s_eqb_eq in E. exists (crit' o). split; [reflexivity|]. assert (k = j); [|subst; exact Tag]. apply (nth_error_verts_inj S k j t s HK); auto.
      + destruct (Nat.eq_dec k j) as [->|]; [exfalso; assert (t = s) by congruence; subst t; rewrite (proj2 (s_eqb_eq s s) eq_refl) in E; discriminate|]. apply (T2 k t a b); auto; lia.
    - intros q [<-|Hq]; [exists j; auto|]. destruct (T3 q Hq) as (k & H1 & H2). exists k. auto.
  Qed.
End Graph.
