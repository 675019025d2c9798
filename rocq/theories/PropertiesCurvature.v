(** * C78: combinatorial curvature *)

From Coq Require Import List Arith Bool ZArith QArith Qabs Lia Lqa Permutation Sorted.
From Verif Require Import Base BaseFacts Simplex SimplexFacts SpecComplex Complex ComplexFacts ClosureFacts FiltrationFacts WeightFacts History Subcomplex SubcomplexFacts
  FloydFacts SpineFacts PropertiesComplex PropertiesCliqueGraph SpecCurvature Curvature.
Import ListNotations.
Local Open Scope nat_scope.

(** ** lists *)
Lemma map_NoDup {A B} (f : A -> B) l : NoDup (map f l) -> NoDup l.
Proof. apply NoDup_map_inv. Qed.

Lemma lists_perm {A} (P : A -> Prop) l m : lists P l -> lists P m -> Permutation l m.
Proof. intros [N1 H1] [N2 H2]. apply NoDup_Permutation; auto. intro x. rewrite H1, H2. tauto. Qed.

Lemma range_nodup K d : kwf K -> NoDup (k_range K d).
Proof.
  intro HK. rewrite range_filter by auto. apply NoDup_filter. apply (map_NoDup verts). eapply Permutation_NoDup; [|apply (kwf_nodup K HK)].
  apply Permutation_map, (kwf_perm K HK).
Qed.

Lemma range_lists K d : kwf K -> lists (fun s => In s (by_index K) /\ length (verts s) = S d) (k_range K d).
Proof. intro HK. split; [apply range_nodup; auto|]. intro s. apply range_In. auto. Qed.

Lemma size_dim K s : kwf K -> In s (by_index K) -> length (verts s) = S (sdim s).
Proof. intros HK Hs. destruct (kwf_good K HK s Hs) as [_ N]. unfold sdim. destruct (verts s); [easy|cbn; lia]. Qed.

(** ** faces *)
Lemma hasFace_spec K s f : kwf K -> In s (by_index K) -> In f (by_index K) -> (hasFace s f = true <-> codim_one f s).
Proof.
  intros HK Hs Hf. destruct (kwf_good K HK s Hs) as [Ws _]. destruct (kwf_good K HK f Hf) as [Wf Nf]. unfold hasFace. rewrite existsb_seqb. apply facet_boundary; auto.
Qed.

Lemma set_intersection_In l : forall m x, In x (set_intersection l m) -> In x l.
Proof.
  induction l as [|y l IH]; intros m x; [intros []|]. cbn [set_intersection]. induction m as [|z m IHm]; [intros []|].
  destruct (s_ltb y z); [intro H; right; eapply IH; eauto|]. destruct (s_ltb z y); [exact IHm|]. intros [<-|H]; [left; reflexivity|right; eapply IH; eauto].
Qed.

Definition ascending := StronglySorted (fun f g => s_ltb f g = true).

Lemma ascending_not f l : ascending (f :: l) -> ~ In (verts f) (map verts l).
Proof.
  intros H Hin. inversion H as [|a b Hs HF]; subst. apply in_map_iff in Hin. destruct Hin as (g & E & Hg). rewrite Forall_forall in HF.
  apply HF in Hg. unfold s_ltb in Hg. rewrite E, lex_irrefl in Hg. discriminate.
Qed.

Lemma ascending_below f g l : ascending (g :: l) -> s_ltb f g = true -> ~ In (verts f) (map verts (g :: l)).
Proof.
  intros H Hf Hin. apply (ascending_not f (g :: l)); auto. constructor; auto. inversion H as [|a b Hs HF]; subst. rewrite Forall_forall in *.
  intros x [<-|Hx]; auto. apply HF in Hx. unfold s_ltb in *. eapply lex_trans; eauto.
Qed.

Lemma set_intersection_spec l : forall m vs, ascending l -> ascending m -> (In vs (map verts (set_intersection l m)) <-> In vs (map verts l) /\ In vs (map verts m)).
Proof.
  induction l as [|y l IH]; intros m vs Hl Hm; [cbn; tauto|]. cbn [set_intersection]. assert (Hl' : ascending l) by (inversion Hl; auto). induction m as [|z m IHm]; [cbn; tauto|].
  assert (Hm' : ascending m) by (inversion Hm; auto).
  destruct (s_ltb y z) eqn:E1; [|destruct (s_ltb z y) eqn:E2].
  - rewrite IH by auto. pose proof (ascending_below y z m Hm E1) as N. cbn [map In] in *. intuition (subst; solve [tauto|congruence]).
  - rewrite IHm by auto. pose proof (ascending_below z y l Hl E2) as N. cbn [map In] in *. intuition (subst; solve [tauto|congruence]).
  - assert (E : verts y = verts z). { unfold s_ltb in *. destruct (lex_total (verts y) (verts z)) as [H|[H|H]]; congruence. }
    cbn [map In]. rewrite IH by auto. pose proof (ascending_not _ _ Hl) as N1. pose proof (ascending_not _ _ Hm) as N2. rewrite <- E in *. intuition (subst; solve [tauto|congruence]).
Qed.

Lemma set_intersection_nodup l : forall m, NoDup (map verts l) -> NoDup (map verts (set_intersection l m)).
Proof.
  induction l as [|y l IH]; intros m Hl; [constructor|]. cbn [set_intersection]. inversion Hl as [|a b Hn Hl']; subst. induction m as [|z m IHm]; [constructor|].
  destruct (s_ltb y z); [apply IH; auto|]. destruct (s_ltb z y); [exact IHm|]. cbn [map]. constructor; [|apply IH; auto].
  intro H. apply Hn. apply in_map_iff in H. destruct H as (x & E & H). rewrite <- E. apply in_map. eapply set_intersection_In; eauto.
Qed.

Lemma common_spec s t vs : wf s -> wf t -> (In vs (map verts (commonBoundary s t)) <-> In vs (map verts (boundary s)) /\ In vs (map verts (boundary t))).
Proof. intros Hs Ht. apply set_intersection_spec; apply boundary_sorted; auto. Qed.

(** the stored simplices with the vertices of the elements of [l] *)
Definition looked (K : complex) (l : list simplex) : list simplex := flat_map (fun f => match k_lookup K f with Some g => [g] | None => [] end) l.

Lemma looked_In K l g : kwf K -> (In g (looked K l) <-> In g (by_index K) /\ In (verts g) (map verts l)).
Proof.
  intro HK. unfold looked. rewrite in_flat_map, in_map_iff. split.
  - intros (f & Hf & Hg). destruct (k_lookup K f) as [g'|] eqn:E; [|destruct Hg]. destruct Hg as [<-|[]]. apply lookup_some in E; auto. destruct E. eauto.
  - intros (Hg & f & E & Hf). exists f. split; auto. assert (EL : k_lookup K f = Some g) by (apply lookup_some; auto). rewrite EL. left. reflexivity.
Qed.

Lemma looked_nodup K l : kwf K -> NoDup (map verts l) -> NoDup (looked K l).
Proof.
  intro HK. induction l as [|f l IH]; intro H; [constructor|]. inversion H as [|a b Hn H']; subst. unfold looked in *. cbn [flat_map].
  destruct (k_lookup K f) as [g|] eqn:E; [|apply IH; auto]. cbn [app]. constructor; [|apply IH; auto]. intro Hg.
  change (In g (looked K l)) in Hg. apply looked_In in Hg; auto. apply lookup_some in E; auto. destruct E as [_ E]. rewrite E in Hg. tauto.
Qed.

Lemma looked_length K l : kwf K -> (forall f, In f l -> In (verts f) (map verts (by_index K))) -> length (looked K l) = length l.
Proof.
  intro HK. induction l as [|f l IH]; intro H; [reflexivity|]. unfold looked in *. cbn [flat_map]. destruct (k_lookup K f) as [g|] eqn:E.
  - cbn [app length]. rewrite IH; auto. intros x Hx. apply H. right. exact Hx.
  - exfalso. apply lookup_none in E. specialize (H f (or_introl eq_refl)). apply contains_false in E; auto.
Qed.

Lemma face_stored K s f : kwf K -> closed (by_index K) -> In s (by_index K) -> In f (boundary s) -> In (verts f) (map verts (by_index K)).
Proof.
  intros HK HC Hs Hf. destruct (kwf_good K HK s Hs) as [Ws _]. destruct (boundary_stored s f Ws Hf) as (Wf & Nf & Hff).
  apply (closed_stored K s f HK HC); auto; [apply in_map; auto|apply Hff].
Qed.

Lemma faces_lists K s : kwf K -> In s (by_index K) -> lists (face_in (by_index K) s) (looked K (boundary s)).
Proof.
  intros HK Hs. destruct (kwf_good K HK s Hs) as [Ws _]. split; [apply looked_nodup; auto; apply boundary_NoDup; auto|]. intro f. rewrite looked_In by auto. unfold face_in. split.
  - intros [Hf H]. split; auto. destruct (kwf_good K HK f Hf) as [Wf Nf]. apply facet_boundary in H; auto.
  - intros [Hf H]. split; auto. destruct (kwf_good K HK f Hf) as [Wf Nf]. apply facet_boundary; auto.
Qed.

Lemma common_lists K s t : kwf K -> In s (by_index K) -> In t (by_index K) ->
  lists (fun f => face_in (by_index K) s f /\ codim_one f t) (looked K (commonBoundary t s)).
Proof.
  intros HK Hs Ht. destruct (kwf_good K HK s Hs) as [Ws _]. destruct (kwf_good K HK t Ht) as [Wt _]. split.
  - apply looked_nodup; auto. apply set_intersection_nodup. apply boundary_NoDup; auto.
  - intro f. rewrite looked_In by auto. rewrite common_spec by auto. unfold face_in. split.
    + intros (Hf & H1 & H2). destruct (kwf_good K HK f Hf) as [Wf Nf]. apply facet_boundary in H1; auto. apply facet_boundary in H2; auto.
    + intros ((Hf & H1) & H2). destruct (kwf_good K HK f Hf) as [Wf Nf]. split; auto. split; apply facet_boundary; auto.
Qed.

Lemma cofaces_lists K s : kwf K -> In s (by_index K) -> lists (coface_in (by_index K) s) (filter (fun t => hasFace t s) (k_range K (sdim s + 1))).
Proof.
  intros HK Hs. split; [apply NoDup_filter, range_nodup; auto|]. intro t. rewrite filter_In, range_In by auto. unfold coface_in. split.
  - intros [[Ht _] H]. split; auto. apply (hasFace_spec K) in H; auto.
  - intros [Ht H]. refine (conj (conj Ht _) _); [|apply (hasFace_spec K); auto]. destruct H as [_ H]. rewrite H, (size_dim K s) by auto. lia.
Qed.

Lemma common_cofaces_lists K s t : kwf K -> In s (by_index K) -> In t (by_index K) -> length (verts t) = length (verts s) ->
  lists (fun u => coface_in (by_index K) s u /\ codim_one t u) (filter (fun u => hasFace u t && hasFace u s) (k_range K (sdim t + 1))).
Proof.
  intros HK Hs Ht El. split; [apply NoDup_filter, range_nodup; auto|]. intro u. rewrite filter_In, range_In, andb_true_iff by auto. unfold coface_in. split.
  - intros ((Hu & _) & H1 & H2). apply (hasFace_spec K) in H1, H2; auto.
  - intros ((Hu & H2) & H1). refine (conj (conj Hu _) (conj _ _)); [|apply (hasFace_spec K); auto|apply (hasFace_spec K); auto].
    destruct H1 as [_ H]. rewrite H, (size_dim K t) by auto. lia.
Qed.

Lemma codim_dec f s : {codim_one f s} + {~ codim_one f s}.
Proof.
  unfold codim_one. destruct (subset_dec (verts f) (verts s)) as [H|H]; [|right; intros [X _]; destruct H as (v & H1 & H2); auto].
  destruct (Nat.eq_dec (length (verts s)) (S (length (verts f)))) as [H'|H']; [left; auto|right; intros [_ X]; auto].
Qed.

(** ** parallel neighbours *)
Lemma share_face_common K s t : kwf K -> closed (by_index K) -> In s (by_index K) -> In t (by_index K) ->
  (length (commonBoundary s t) =? 0 = false <-> share_face (by_index K) s t).
Proof.
  intros HK HC Hs Ht. destruct (kwf_good K HK s Hs) as [Ws _]. destruct (kwf_good K HK t Ht) as [Wt _].
  rewrite <- (looked_length K (commonBoundary s t)) by (auto; intros f Hf; apply set_intersection_In in Hf; apply (face_stored K s); auto).
  destruct (common_lists K t s HK Ht Hs) as [_ H]. destruct (looked K (commonBoundary s t)) as [|g l]; cbn [length Nat.eqb].
  - split; [discriminate|]. intros (f & Hf & H1 & H2). destruct (H f). destruct H3. split; auto. split; auto.
  - split; [|reflexivity]. intros _. destruct (proj1 (H g) (or_introl eq_refl)) as [[Hg H1] H2]. exists g. auto.
Qed.

Lemma share_coface_common K s t : kwf K -> In s (by_index K) -> In t (by_index K) ->
  (existsb (fun u => hasFace u s && hasFace u t) (k_range K (sdim s + 1)) = true <-> share_coface (by_index K) s t).
Proof.
  intros HK Hs Ht. rewrite existsb_exists. split.
  - intros (u & Hu & H). apply range_In in Hu; auto. destruct Hu as [Hu _]. apply andb_true_iff in H. destruct H as [H1 H2]. apply (hasFace_spec K) in H1, H2; auto. exists u. auto.
  - intros (u & Hu & H1 & H2). exists u. rewrite range_In, andb_true_iff by auto. refine (conj (conj Hu _) (conj _ _)); [|apply (hasFace_spec K); auto|apply (hasFace_spec K); auto].
    destruct H1 as [_ H]. rewrite H, (size_dim K s) by auto. lia.
Qed.

Lemma parallel_spec K s t : kwf K -> closed (by_index K) -> In s (by_index K) -> In t (by_index K) -> length (verts t) = length (verts s) ->
  (parallelNeighbours K s t = true <->
   (share_face (by_index K) s t /\ ~ share_coface (by_index K) s t) \/ (~ share_face (by_index K) s t /\ share_coface (by_index K) s t)).
Proof.
  intros HK HC Hs Ht El. unfold parallelNeighbours. assert (Ed : sdim s = sdim t) by (unfold sdim; rewrite El; reflexivity). rewrite Ed, Nat.eqb_refl. cbn [negb]. rewrite <- Ed.
  pose proof (share_face_common K s t HK HC Hs Ht) as H1. pose proof (share_coface_common K s t HK Hs Ht) as H2.
  destruct (length (commonBoundary s t) =? 0); destruct (existsb _ _); cbn [negb Bool.eqb]; intuition congruence.
Qed.

Lemma count_self (f : simplex -> bool) s l : NoDup (map verts l) -> In s l ->
  length (filter f l) = length (filter (fun t => negb (s_eqb t s) && f t) l) + (if f s then 1 else 0).
Proof.
  induction l as [|a l IH]; intros Hn Hi; [destruct Hi|]; destruct Hi as [->|Hs]; inversion Hn as [|x y Ha Hl]; subst; cbn [filter].
  - rewrite s_eqb_refl. cbn [negb andb]. assert (E : filter (fun t => negb (s_eqb t s) && f t) l = filter f l).
    { apply filter_ext_in. intros t Ht. assert (N : s_eqb t s = false) by (apply s_eqb_neq; intro E; apply Ha; rewrite <- E; apply in_map; auto). rewrite N. reflexivity. }
    rewrite E. destruct (f s); cbn [length]; lia.
  - assert (N : s_eqb a s = false) by (apply s_eqb_neq; intro E; apply Ha; rewrite E; apply in_map; auto). rewrite N. cbn [negb andb].
    destruct (f a); cbn [length]; rewrite (IH Hl Hs); lia.
Qed.

Lemma range_verts_nodup K d : kwf K -> NoDup (map verts (k_range K d)).
Proof.
  intro HK. rewrite range_filter by auto. assert (H : NoDup (map verts (by_dim K))) by (eapply Permutation_NoDup; [apply Permutation_map, (kwf_perm K HK)|apply (kwf_nodup K HK)]).
  induction (by_dim K) as [|a l IH]; [constructor|]. inversion H as [|x y Ha Hl]; subst. cbn [filter]. destruct (sdim a =? d); [|auto]. cbn [map]. constructor; auto.
  intro Hi. apply Ha. apply in_map_iff in Hi. destruct Hi as (x & E & Hx). apply filter_In in Hx. rewrite <- E. apply in_map. tauto.
Qed.

Lemma set_eq_verts K s t : kwf K -> In s (by_index K) -> In t (by_index K) -> (set_eq (verts t) (verts s) <-> verts t = verts s).
Proof.
  intros HK Hs Ht. split; [|intros -> v; tauto]. intro H. apply wf_ext; auto; [apply (kwf_good K HK t Ht)|apply (kwf_good K HK s Hs)].
Qed.

Lemma siblings_lists K s : kwf K -> In s (by_index K) -> lists (sibling_in (by_index K) s) (filter (fun t => negb (s_eqb t s)) (k_range K (sdim s))).
Proof.
  intros HK Hs. split; [apply NoDup_filter, range_nodup; auto|]. intro t. rewrite filter_In, range_In, negb_true_iff, s_eqb_neq by auto. unfold sibling_in.
  rewrite (size_dim K s) by auto. split.
  - intros [[Ht El] N]. refine (conj Ht (conj El _)). rewrite (set_eq_verts K) by auto. exact N.
  - intros (Ht & El & N). rewrite (set_eq_verts K) in N by auto. auto.
Qed.

Lemma parallel_lists K s : kwf K -> closed (by_index K) -> In s (by_index K) ->
  lists (parallel_in (by_index K) s) (filter (fun t => negb (s_eqb t s) && parallelNeighbours K s t) (k_range K (sdim s))).
Proof.
  intros HK HC Hs. rewrite <- filter_filter. destruct (siblings_lists K s HK Hs) as [N H]. split; [apply NoDup_filter; auto|]. intro t. rewrite filter_In, H. unfold parallel_in. split.
  - intros [H1 H2]. split; auto. apply parallel_spec in H2; auto; apply H1.
  - intros [H1 H2]. split; auto. apply parallel_spec; auto; apply H1.
Qed.

(** a face of itself: every simplex with vertices to spare *)
Lemma share_self K s : kwf K -> closed (by_index K) -> In s (by_index K) -> (share_face (by_index K) s s <-> 2 <= length (verts s)).
Proof.
  intros HK HC Hs. destruct (kwf_good K HK s Hs) as [Ws Ns]. split.
  - intros (f & Hf & [_ H] & _). destruct (kwf_good K HK f Hf) as [_ Nf]. destruct (verts f); [easy|]. cbn [length] in H. lia.
  - intro H. destruct (boundary s) as [|f l] eqn:E; [pose proof (boundary_length s H) as B; rewrite E in B; cbn in B; unfold s_size in B; lia|].
    assert (Hf : In f (boundary s)) by (rewrite E; left; reflexivity). pose proof (face_stored K s f HK HC Hs Hf) as Hi. apply in_map_iff in Hi. destruct Hi as (g & Eg & Hg).
    destruct (boundary_stored s f Ws Hf) as (_ & _ & Hff). unfold facet in Hff. rewrite <- Eg in Hff. exists g. split; auto.
Qed.

(** The curvature of a simplex that has a coface is Forman's, as a number of the
    unsigned vertex type.  A simplex without a coface is counted as its own
    parallel neighbour unless it is a vertex, for which one face too many is counted. *)
Theorem C78_curvature : forall M K p, (0 < M)%Z -> reachable K -> closed (by_index K) ->
  exists ss, lists (fun s => In s (by_index K) /\ length (verts s) = S p) ss /\
    Forall2 (fun s v => exists c, forman (by_index K) s c /\
      ((exists t, coface_in (by_index K) s t) -> v = (c mod M)%Z) /\
      (~ (exists t, coface_in (by_index K) s t) -> v = ((if (p =? 0)%nat then c + 1 else c - 1) mod M)%Z)) ss (curvature M K p).
Proof.
  intros M K p HM RK HC. pose proof (reachable_kwf K RK) as HK. exists (k_range K p). split; [apply range_lists; auto|]. unfold curvature.
  assert (G : forall s, In s (k_range K p) -> In s (by_index K) /\ length (verts s) = S p) by (intro s; apply range_In; auto).
  induction (k_range K p) as [|s l IH]; cbn [map]; constructor; [|apply IH; intros t Ht; apply G; right; exact Ht].
  destruct (G s (or_introl eq_refl)) as [Hs Ep]. clear IH G.
  pose proof (cofaces_lists K s HK Hs) as L1. pose proof (faces_lists K s HK Hs) as L2. pose proof (parallel_lists K s HK HC Hs) as L3.
  eexists. split; [do 3 eexists; refine (conj L1 (conj L2 (conj L3 eq_refl)))|].
  assert (EF : length (looked K (boundary s)) = if p =? 0 then 0 else s_size s).
  { rewrite looked_length by (auto; intros f Hf; apply (face_stored K s); auto). destruct (Nat.eqb_spec p 0); [rewrite boundary_small; [reflexivity|]|apply boundary_length]; unfold s_size; lia. }
  rewrite EF, (count_self (fun t => parallelNeighbours K s t) s) by (try apply range_verts_nodup; auto; apply range_In; auto; split; auto; apply (size_dim K); auto).
  set (cof := filter (fun t => hasFace t s) (k_range K (sdim s + 1))) in *.
  set (par := length (filter (fun t => negb (s_eqb t s) && parallelNeighbours K s t) (k_range K (sdim s)))).
  pose proof (parallel_spec K s s HK HC Hs Hs eq_refl) as SP. rewrite (share_self K s HK HC Hs), Ep in SP.
  assert (SC : share_coface (by_index K) s s <-> exists t, coface_in (by_index K) s t).
  { split; [intros (u & Hu & H & _); exists u; split; auto|intros (u & Hu & H); exists u; auto]. }
  rewrite SC in SP. unfold s_size. rewrite Ep.
  split; intro C; f_equal; destruct (parallelNeighbours K s s) eqn:EP; destruct (Nat.eqb_spec p 0) as [->|Np]; try lia.
  - exfalso. destruct (proj1 SP eq_refl) as [[_ Q]|[Q _]]; [tauto|lia].
  - exfalso. assert (false = true) by (apply SP; right; split; [lia|auto]). discriminate.
  - exfalso. destruct (proj1 SP eq_refl) as [[Q _]|[_ Q]]; [lia|tauto].
  - exfalso. assert (false = true) by (apply SP; left; split; [lia|auto]). discriminate.
Qed.

(** ** sums *)
Lemma sumQ_cons {A} (f : A -> Q) x l : sumQ f (x :: l) = (f x + sumQ f l)%Q.
Proof. reflexivity. Qed.

Lemma sumQ_nil {A} (f : A -> Q) : sumQ f [] = 0%Q.
Proof. reflexivity. Qed.

Lemma sumQ_app {A} (f : A -> Q) l m : (sumQ f (l ++ m) == sumQ f l + sumQ f m)%Q.
Proof. induction l as [|x l IH]; cbn [app]; [rewrite sumQ_nil; ring|]. rewrite !sumQ_cons, IH. ring. Qed.

Lemma sumQ_perm {A} (f : A -> Q) l m : Permutation l m -> (sumQ f l == sumQ f m)%Q.
Proof.
  induction 1 as [|x l m P IH|x y l|l m k P1 IH1 P2 IH2]; rewrite ?sumQ_cons; [reflexivity| | |].
  - rewrite IH. reflexivity.
  - ring.
  - rewrite IH1. exact IH2.
Qed.

Lemma sumQ_map {A B} (f : B -> Q) (g : A -> B) l : sumQ f (map g l) = sumQ (fun x => f (g x)) l.
Proof. induction l as [|x l IH]; [reflexivity|]. cbn [map]. rewrite !sumQ_cons, IH. reflexivity. Qed.

Lemma sumQ_flat {A B} (f : B -> Q) (g : A -> list B) l : (sumQ f (flat_map g l) == sumQ (fun x => sumQ f (g x)) l)%Q.
Proof. induction l as [|x l IH]; [reflexivity|]. cbn [flat_map]. rewrite sumQ_app, IH. reflexivity. Qed.

Lemma sumQ_ext {A} (f g : A -> Q) l : (forall x, In x l -> f x == g x)%Q -> (sumQ f l == sumQ g l)%Q.
Proof.
  induction l as [|x l IH]; intro H; [reflexivity|]. rewrite !sumQ_cons, (H x (or_introl eq_refl)), IH; [reflexivity|].
  intros y Hy. apply H. right. exact Hy.
Qed.

Lemma kahanQ_exact l : forall x c, (c == 0)%Q -> (fst (fold_left kahanQ_add l (x, c)) == x + sumQ (fun y => y) l)%Q.
Proof.
  induction l as [|y l IH]; intros x c Hc; cbn [fold_left]; [rewrite sumQ_nil; cbn [fst]; ring|].
  unfold kahanQ_add at 2. cbn [fst snd]. rewrite IH by (rewrite Hc; ring). rewrite sumQ_cons, Hc. ring.
Qed.

Lemma kahanQ_sum l : (kahanQ_sorted l == sumQ (fun y => y) l)%Q.
Proof. unfold kahanQ_sorted. rewrite kahanQ_exact by reflexivity. rewrite (sumQ_perm _ _ _ (cpp_sort_perm Qltb l)). ring. Qed.

(** ** weighted curvature *)
Lemma commonFaces_ok K s t : kwf K -> closed (by_index K) -> In s (by_index K) -> sdim s = sdim t -> commonFaces K s t = Ok (looked K (commonBoundary s t)).
Proof.
  intros HK HC Hs Ed. unfold commonFaces. rewrite Ed, Nat.eqb_refl. cbn [negb].
  assert (G : forall l acc, (forall f, In f l -> In (verts f) (map verts (by_index K))) ->
    foldM (fun faces f => match k_lookup K f with Some g => Ok (faces ++ [g]) | None => UB end) l acc = Ok (acc ++ looked K l)).
  { induction l as [|f l IH]; intros acc H; cbn [foldM]; [unfold looked; cbn [flat_map]; rewrite app_nil_r; reflexivity|].
    unfold looked. cbn [flat_map]. destruct (k_lookup K f) as [g|] eqn:E.
    - cbn [bind]. rewrite IH by (intros x Hx; apply H; right; exact Hx). rewrite <- app_assoc. reflexivity.
    - exfalso. apply lookup_none in E. specialize (H f (or_introl eq_refl)). apply contains_false in E; auto. }
  rewrite G; [reflexivity|]. intros f Hf. apply set_intersection_In in Hf. apply (face_stored K s); auto.
Qed.

Lemma faces_fold K s l acc :
  fold_left (fun l f => match k_lookup K f with Some g => l ++ [(weight_of g / weight_of s)%Q] | None => l end) l acc
  = acc ++ map (fun g => (weight_of g / weight_of s)%Q) (looked K l).
Proof.
  revert acc. induction l as [|f l IH]; intro acc; cbn [fold_left]; [unfold looked; cbn; rewrite app_nil_r; reflexivity|].
  rewrite IH. unfold looked. cbn [flat_map]. destruct (k_lookup K f); [|reflexivity]. rewrite map_app, <- app_assoc. reflexivity.
Qed.

Lemma common_fold sqrt K s : kwf K -> closed (by_index K) -> In s (by_index K) ->
  forall l acc, (forall t, In t l -> In t (by_index K) /\ length (verts t) = length (verts s)) ->
  foldM (fun (acc : list Q * list Q) t =>
      if s_eqb t s then Ok acc
      else
        let cofaces := commonCofaces K t s in
        let* faces := commonFaces K t s in
        let weight := sqrt (weight_of s * weight_of t)%Q in
        Ok (fst acc ++ map (fun c => (weight / weight_of c)%Q) cofaces, snd acc ++ map (fun f => (weight_of f / weight)%Q) faces)) l acc
  = Ok (fst acc ++ flat_map (fun t => map (fun c => (sqrt (weight_of s * weight_of t) / weight_of c)%Q) (commonCofaces K t s)) (filter (fun t => negb (s_eqb t s)) l),
        snd acc ++ flat_map (fun t => map (fun f => (weight_of f / sqrt (weight_of s * weight_of t))%Q) (looked K (commonBoundary t s))) (filter (fun t => negb (s_eqb t s)) l)).
Proof.
  intros HK HC Hs. induction l as [|t l IH]; intros acc H; cbn [foldM filter flat_map]; [rewrite !app_nil_r; destruct acc; reflexivity|].
  assert (H' : forall t, In t l -> In t (by_index K) /\ length (verts t) = length (verts s)) by (intros x Hx; apply H; right; exact Hx).
  destruct (s_eqb t s) eqn:E; cbn [negb]; [cbn [bind]; apply IH; exact H'|].
  destruct (H t (or_introl eq_refl)) as [Ht El]. rewrite (commonFaces_ok K t s) by (auto; unfold sdim; rewrite El; reflexivity). cbn [bind flat_map].
  rewrite IH by exact H'. cbn [fst snd]. rewrite <- !app_assoc. reflexivity.
Qed.

Lemma weighted_ok sqrt K s : kwf K -> closed (by_index K) -> In s (by_index K) ->
  exists v, weighted_value sqrt K s = Ok v /\
    (v == weight_of s * ((sumQ (fun c => weight_of s / weight_of c) (filter (fun t => hasFace t s) (k_range K (sdim s + 1)))
                          + sumQ (fun f => weight_of f / weight_of s) (looked K (boundary s)))
                         - Qabs (sumQ (fun t => sumQ (fun c => sqrt (weight_of s * weight_of t) / weight_of c) (commonCofaces K t s)) (filter (fun t => negb (s_eqb t s)) (k_range K (sdim s)))
                                 - sumQ (fun t => sumQ (fun f => weight_of f / sqrt (weight_of s * weight_of t)) (looked K (commonBoundary t s)))
                                        (filter (fun t => negb (s_eqb t s)) (k_range K (sdim s))))))%Q.
Proof.
  intros HK HC Hs. unfold weighted_value. rewrite (common_fold sqrt K s HK HC Hs).
  2:{ intros t Ht. apply range_In in Ht; auto. rewrite (size_dim K s) by auto. exact Ht. }
  cbn [bind]. eexists. split; [reflexivity|]. cbn [fst snd app]. rewrite faces_fold. cbn [app]. rewrite !kahanQ_sum. rewrite !sumQ_flat, !sumQ_map.
  apply Qmult_comp; [reflexivity|]. apply Qplus_comp; [reflexivity|]. apply Qopp_comp. apply Qabs_wd.
  apply Qplus_comp; [|apply Qopp_comp]; apply sumQ_ext; intros t Ht; rewrite sumQ_map; reflexivity.
Qed.

(** The weighted curvature of a simplex, for positive weights [data]. *)
Theorem C78_weighted : forall sqrt K p, reachable K -> closed (by_index K) -> (forall s, In s (by_index K) -> (0 < data s)%Z) ->
  exists ss vs, weightedCurvature sqrt K p = Ok vs /\ lists (fun s => In s (by_index K) /\ length (verts s) = S p) ss /\
    Forall2 (fun s v => exists cofaces faces siblings (common_cofaces common_faces : simplex -> list simplex),
      lists (coface_in (by_index K) s) cofaces /\ lists (face_in (by_index K) s) faces /\ lists (sibling_in (by_index K) s) siblings /\
      (forall t, In t siblings -> lists (fun c => coface_in (by_index K) s c /\ codim_one t c) (common_cofaces t) /\
                                  lists (fun f => face_in (by_index K) s f /\ codim_one f t) (common_faces t)) /\
      let w := fun s => inject_Z (data s) in
      (v == w s * (sumQ (fun c => w s / w c) cofaces + sumQ (fun f => w f / w s) faces
                   - Qabs (sumQ (fun t => sumQ (fun c => sqrt (w s * w t) / w c) (common_cofaces t)) siblings
                           - sumQ (fun t => sumQ (fun f => w f / sqrt (w s * w t)) (common_faces t)) siblings)))%Q) ss vs.
Proof.
  intros sqrt K p RK HC _. pose proof (reachable_kwf K RK) as HK. exists (k_range K p).
  assert (G : forall l acc, (forall s, In s l -> In s (by_index K)) -> exists vs,
     foldM (fun result s => let* c := weighted_value sqrt K s in Ok (result ++ [c])) l acc = Ok (acc ++ vs) /\ Forall2 (fun s v => weighted_value sqrt K s = Ok v) l vs).
  { induction l as [|s l IH]; intros acc H; [exists []; cbn [foldM]; rewrite app_nil_r; split; [reflexivity|constructor]|].
    destruct (weighted_ok sqrt K s HK HC (H s (or_introl eq_refl))) as (v & E & _).
    destruct (IH (acc ++ [v])) as (vs & E' & F); [intros x Hx; apply H; right; exact Hx|].
    exists (v :: vs). cbn [foldM]. rewrite E. cbn [bind]. rewrite E', <- app_assoc. split; [reflexivity|constructor; auto]. }
  destruct (G (k_range K p) []) as (vs & E & F); [intros s Hs; apply range_In in Hs; tauto|]. exists vs. split; [exact E|]. split; [apply range_lists; auto|].
  assert (Hin : forall s, In s (k_range K p) -> In s (by_index K)) by (intros s Hs; apply range_In in Hs; tauto). clear E G. revert Hin.
  induction F as [|s v l vs Ev F IH]; intro Hin; constructor; [|apply IH; intros x Hx; apply Hin; right; exact Hx].
  assert (Hs := Hin s (or_introl eq_refl)). destruct (weighted_ok sqrt K s HK HC Hs) as (v' & Ev' & EQ). rewrite Ev in Ev'. injection Ev' as <-.
  exists (filter (fun t => hasFace t s) (k_range K (sdim s + 1))), (looked K (boundary s)), (filter (fun t => negb (s_eqb t s)) (k_range K (sdim s))),
    (fun t => commonCofaces K t s), (fun t => looked K (commonBoundary t s)).
  split; [apply cofaces_lists; auto|]. split; [apply faces_lists; auto|]. split; [apply siblings_lists; auto|]. split; [|exact EQ].
  intros t Ht. apply (siblings_lists K s HK Hs) in Ht. destruct Ht as (Ht & El & _). split; [|apply common_lists; auto].
  unfold commonCofaces. assert (Ed : sdim t = sdim s) by (unfold sdim; rewrite El; reflexivity). rewrite Ed, Nat.eqb_refl. cbn [negb]. rewrite <- Ed. apply common_cofaces_lists; auto.
Qed.

(** ** unit weights *)
Lemma outside K s t : kwf K -> In s (by_index K) -> In t (by_index K) -> length (verts t) = length (verts s) -> verts t <> verts s -> exists v, In v (verts t) /\ ~ In v (verts s).
Proof.
  intros HK Hs Ht El N. destruct (subset_dec (verts t) (verts s)) as [H|H]; [|exact H]. exfalso. apply N.
  destruct (kwf_good K HK s Hs) as [Ws _]. destruct (kwf_good K HK t Ht) as [Wt _]. apply wf_ext; auto. intro v. split; [apply H|].
  apply (NoDup_length_incl (SSgt_NoDup _ Wt)); [lia|exact H].
Qed.

Lemma coface_set K s t u v : kwf K -> In s (by_index K) -> In u (by_index K) -> codim_one s u -> codim_one t u -> In v (verts t) -> ~ In v (verts s) ->
  forall x, In x (verts u) <-> x = v \/ In x (verts s).
Proof.
  intros HK Hs Hu [S1 L1] [S2 _] Hv Nv. destruct (kwf_good K HK s Hs) as [Ws _]. destruct (kwf_good K HK u Hu) as [Wu _].
  assert (I : incl (v :: verts s) (verts u)) by (intros x [<-|Hx]; auto). assert (N : NoDup (v :: verts s)) by (constructor; [auto|apply SSgt_NoDup; auto]).
  intro x. split; [|intros [->|Hx]; auto]. intro Hx. apply (NoDup_length_incl N) in Hx; [|cbn [length]; lia|exact I]. destruct Hx as [<-|Hx]; auto.
Qed.

Lemma share_down K s t : kwf K -> closed (by_index K) -> In s (by_index K) -> In t (by_index K) -> length (verts t) = length (verts s) -> verts t <> verts s ->
  2 <= length (verts s) -> share_coface (by_index K) s t -> share_face (by_index K) s t.
Proof.
  intros HK HC Hs Ht El N H2 (u & Hu & C1 & C2). destruct (outside K t s HK Ht Hs (eq_sym El)) as (a & Ha & Na); [auto|].
  pose proof (coface_set K t s u a HK Ht Hu C2 C1 Ha Na) as HU.
  destruct (kwf_good K HK s Hs) as [Ws _]. set (r := filter (fun x => negb (x =? a)) (verts s)).
  assert (Hr : forall x, In x r <-> In x (verts s) /\ x <> a) by (intro x; unfold r; rewrite filter_In, negb_true_iff, Nat.eqb_neq; tauto).
  assert (Nr : NoDup r) by (apply NoDup_filter, SSgt_NoDup; auto).
  assert (Lr : length (verts s) = S (length r)).
  { assert (E : length (verts s) = length (a :: r)); [|exact E]. apply NoDup_same_length; [apply SSgt_NoDup; auto|constructor; auto; rewrite Hr; tauto|].
    intro x. cbn [In]. rewrite Hr. destruct (Nat.eq_dec a x) as [<-|]; intuition. }
  destruct (HC s r Hs) as (f & Hf & Ef); [intro E; rewrite E in Lr; cbn in Lr; lia|intros x Hx; apply Hr in Hx; tauto|].
  assert (Lf : length (verts f) = length r) by (apply NoDup_same_length; auto; apply SSgt_NoDup, (kwf_good K HK f Hf)).
  exists f. split; auto. split; split; try lia.
  - intros x Hx. apply Ef, Hr in Hx. tauto.
  - intros x Hx. apply Ef, Hr in Hx. destruct Hx as [Hx Nx]. assert (Hxu : In x (verts u)) by (apply C1; auto). apply HU in Hxu. tauto.
Qed.

Lemma lists_one {A} (P : A -> Prop) l : lists P l -> (forall x y, P x -> P y -> x = y) -> length l <= 1.
Proof.
  intros [N H] U. destruct l as [|x [|y l]]; cbn [length]; try lia. exfalso. inversion N as [|a b Hn _]; subst. apply Hn. left. apply U; apply H; cbn; auto.
Qed.

Lemma sumQ_one {A} (f : A -> Q) l : (forall x, In x l -> f x == 1)%Q -> (sumQ f l == inject_Z (Z.of_nat (length l)))%Q.
Proof.
  induction l as [|x l IH]; intro H; [reflexivity|]. rewrite sumQ_cons, (H x (or_introl eq_refl)), IH by (intros y Hy; apply H; right; exact Hy).
  cbn [length]. rewrite Nat2Z.inj_succ, <- Z.add_1_l, inject_Z_plus. reflexivity.
Qed.

Lemma sum_terms {A} (f g : A -> Q) (b : A -> bool) (sign : Q) l : (forall t, In t l -> f t - g t == sign * (if b t then 1 else 0))%Q ->
  (sumQ f l - sumQ g l == sign * inject_Z (Z.of_nat (length (filter b l))))%Q.
Proof.
  induction l as [|t l IH]; intro H; [rewrite !sumQ_nil; cbn [filter length Z.of_nat]; change (inject_Z 0) with 0%Q; ring|].
  assert (Ht := H t (or_introl eq_refl)). assert (IH' := IH (fun x Hx => H x (or_intror Hx))). rewrite !sumQ_cons. cbn [filter].
  assert (E : (f t + sumQ f l - (g t + sumQ g l) == (f t - g t) + (sumQ f l - sumQ g l))%Q) by ring. rewrite E, Ht, IH'.
  destruct (b t); [|ring]. cbn [length]. rewrite Nat2Z.inj_succ, <- Z.add_1_l, inject_Z_plus. change (inject_Z 1) with 1%Q. ring.
Qed.

(** With unit weights the weighted curvature is Forman's combinatorial curvature. *)
Theorem C78_unit : forall sqrt K p, reachable K -> closed (by_index K) -> (forall s, In s (by_index K) -> data s = 1%Z) -> (forall x, x == 1 -> sqrt x == 1)%Q ->
  exists ss vs, weightedCurvature sqrt K p = Ok vs /\ lists (fun s => In s (by_index K) /\ length (verts s) = S p) ss /\
    Forall2 (fun s v => exists c, forman (by_index K) s c /\ (v == inject_Z c)%Q) ss vs.
Proof.
  intros sqrt K p RK HC HD HR. pose proof (reachable_kwf K RK) as HK.
  destruct (C78_weighted sqrt K p RK HC) as (ss & vs & E & L & F); [intros s Hs; rewrite HD; auto; lia|].
  exists ss, vs. split; [exact E|]. split; [exact L|]. assert (Hin : forall s, In s ss -> In s (by_index K)) by (intros s Hs; apply L; exact Hs). clear E L. revert Hin.
  induction F as [|s v l vs Hv F IH]; intro Hin; constructor; [|apply IH; intros x Hx; apply Hin; right; exact Hx]. clear IH F.
  assert (Hs := Hin s (or_introl eq_refl)). destruct Hv as (co & fa & si & cc & cf & L1 & L2 & L3 & L4 & EV). cbv zeta in EV.
  set (par := filter (parallelNeighbours K s) si).
  assert (LP : lists (parallel_in (by_index K) s) par).
  { split; [apply NoDup_filter, L3|]. intro t. unfold par. rewrite filter_In. destruct L3 as [_ L3]. rewrite L3. unfold parallel_in. split; intros [H1 H2]; split; auto; destruct H1 as (Ht & El & _).
    - apply parallel_spec in H2; auto.
    - apply parallel_spec; auto. }
  eexists. split; [exists co, fa, par; refine (conj L1 (conj L2 (conj LP eq_refl)))|].
  assert (W : forall t, In t (by_index K) -> (inject_Z (data t) == 1)%Q) by (intros t Ht; rewrite (HD t Ht); reflexivity).
  assert (R : forall t, In t (by_index K) -> (sqrt (inject_Z (data s) * inject_Z (data t)) == 1)%Q) by (intros t Ht; apply HR; rewrite (W s Hs), (W t Ht); ring).
  rewrite EV. clear EV.
  rewrite (sumQ_one (fun c => inject_Z (data s) / inject_Z (data c))%Q co) by (intros c Hc; apply L1 in Hc; destruct Hc as [Hc _]; rewrite (W s Hs), (W c Hc); reflexivity).
  rewrite (sumQ_one (fun f => inject_Z (data f) / inject_Z (data s))%Q fa) by (intros c Hc; apply L2 in Hc; destruct Hc as [Hc _]; rewrite (W s Hs), (W c Hc); reflexivity).
  rewrite (W s Hs).
  set (sign := if 2 <=? length (verts s) then (-1 # 1)%Q else 1%Q).
  rewrite (sum_terms _ _ (parallelNeighbours K s) sign).
  - fold par. unfold Z.sub. rewrite !inject_Z_plus, inject_Z_opp. rewrite Qabs_Qmult. assert (EA : (Qabs sign == 1)%Q) by (unfold sign; destruct (2 <=? _); reflexivity).
    rewrite EA. rewrite (Qabs_pos (inject_Z (Z.of_nat (length par)))); [ring|]. change 0%Q with (inject_Z 0). rewrite <- Zle_Qle. lia.
  - intros t Ht. destruct (L4 t Ht) as [LC LF]. apply L3 in Ht. destruct Ht as (Ht & El & Nt). rewrite (set_eq_verts K) in Nt by auto.
    rewrite (sumQ_one _ (cc t)) by (intros c Hc; apply LC in Hc; destruct Hc as [[Hc _] _]; rewrite (R t Ht), (W c Hc); reflexivity).
    rewrite (sumQ_one _ (cf t)) by (intros c Hc; apply LF in Hc; destruct Hc as [[Hc _] _]; rewrite (R t Ht), (W c Hc); reflexivity).
    assert (C1 : length (cc t) <= 1).
    { apply (lists_one _ _ LC). intros u u' [[Hu A1] A2] [[Hu' B1] B2]. destruct (outside K s t HK Hs Ht El Nt) as (v0 & Hv0 & Nv0).
      apply (nodup_verts_eq K); auto. apply wf_ext; [apply (kwf_good K HK u Hu)|apply (kwf_good K HK u' Hu')|]. intro x.
      rewrite (coface_set K s t u v0 HK Hs Hu A1 A2 Hv0 Nv0), (coface_set K s t u' v0 HK Hs Hu' B1 B2 Hv0 Nv0). tauto. }
    assert (C2 : length (cf t) <= 1).
    { apply (lists_one _ _ LF). intros f f' [[Hf A1] A2] [[Hf' B1] B2]. apply (nodup_verts_eq K); auto.
      destruct (kwf_good K HK s Hs) as [Ws _]. destruct (kwf_good K HK t Ht) as [Wt _]. destruct (kwf_good K HK f Hf) as [Wf _]. destruct (kwf_good K HK f' Hf') as [Wf' _].
      destruct A1 as [A1 La]. destruct A2 as [A2 La']. destruct B1 as [B1 Lb]. destruct B2 as [B2 Lb'].
      apply wf_ext; auto. apply (facet_unique s t (verts f) (verts f') (length (verts f))); auto; try (apply SSgt_NoDup; auto); lia. }
    assert (D1 : length (cc t) = 1 <-> share_coface (by_index K) s t).
    { destruct LC as [_ LC]. split.
      - intro H. destruct (cc t) as [|u r]; [discriminate|]. destruct (proj1 (LC u) (or_introl eq_refl)) as [[Hu A1] A2]. exists u. auto.
      - intros (u & Hu & A1 & A2). assert (Hi : In u (cc t)) by (apply LC; split; auto; split; auto). destruct (cc t); [destruct Hi|cbn [length] in *; lia]. }
    assert (D2 : length (cf t) = 1 <-> share_face (by_index K) s t).
    { destruct LF as [_ LF]. split.
      - intro H. destruct (cf t) as [|u r]; [discriminate|]. destruct (proj1 (LF u) (or_introl eq_refl)) as [[Hu A1] A2]. exists u. auto.
      - intros (u & Hu & A1 & A2). assert (Hi : In u (cf t)) by (apply LF; split; auto; split; auto). destruct (cf t); [destruct Hi|cbn [length] in *; lia]. }
    pose proof (parallel_spec K s t HK HC Hs Ht El) as SP. rewrite <- D1, <- D2 in SP. unfold sign.
    assert (X : if 2 <=? length (verts s) then length (cc t) <= length (cf t) else length (cf t) = 0).
    { destruct (Nat.leb_spec 2 (length (verts s))) as [H2|H2].
      - destruct (Nat.eq_dec (length (cc t)) 1) as [H|H]; [|lia]. assert (length (cf t) = 1); [|lia]. apply D2. apply (share_down K); auto. apply D1. exact H.
      - destruct (Nat.eq_dec (length (cf t)) 1) as [H|H]; [|lia]. exfalso. apply D2 in H. destruct H as (f & Hf & [_ Q] & _). destruct (kwf_good K HK f Hf) as [_ Nf].
        destruct (verts f); [easy|cbn [length] in Q; lia]. }
    destruct (length (cc t)) as [|[|]]; destruct (length (cf t)) as [|[|]]; try lia; destruct (parallelNeighbours K s t); destruct (2 <=? length (verts s)); try lia; try reflexivity;
      exfalso; solve [ assert (false = true) by (apply SP; lia); discriminate | destruct (proj1 SP eq_refl); lia ].
Qed.

(** ** angle defects *)
Theorem C78_angle : forall twoPi acosInv K, reachable K ->
  (by_index K = [] -> angleDefectCurvature twoPi acosInv K = Throw RuntimeError) /\
  (by_index K <> [] -> exists n vs,
     (exists s, In s (by_index K) /\ length (verts s) = S n) /\ (forall s, In s (by_index K) -> length (verts s) <= S n) /\
     angleDefectCurvature twoPi acosInv K = Ok vs /\ (n < 2 -> vs = []) /\
     (2 <= n -> exists ss, lists (fun s => In s (by_index K) /\ length (verts s) = n - 1) ss /\
        Forall2 (fun s v => exists tops, lists (fun t => In t (by_index K) /\ length (verts t) = S n /\ subset (verts s) (verts t)) tops /\
                            (v == twoPi - acosInv n * inject_Z (Z.of_nat (length tops)))%Q) ss vs)).
Proof.
  intros twoPi acosInv K RK. pose proof (reachable_kwf K RK) as HK. destruct (dimension_spec K HK) as [D0 D1]. unfold angleDefectCurvature. split.
  - intro E. rewrite (D0 E). reflexivity.
  - intro N. destruct (D1 N) as (n & En & X1 & X2). rewrite En. cbn [bind].
    assert (G : forall l acc, (forall s, In s l -> In s (by_index K)) -> exists vs,
       foldM (fun result s => let* degree := n_degree K s in Ok (result ++ [(twoPi - acosInv n * inject_Z (Z.of_nat degree))%Q])) l acc = Ok (acc ++ vs) /\
       Forall2 (fun s v => exists tops, lists (fun t => In t (by_index K) /\ length (verts t) = S n /\ subset (verts s) (verts t)) tops /\
                            (v == twoPi - acosInv n * inject_Z (Z.of_nat (length tops)))%Q) l vs).
    { induction l as [|s l IH]; intros acc H; [exists []; cbn [foldM]; rewrite app_nil_r; split; [reflexivity|constructor]|].
      destruct (kwf_good K HK s (H s (or_introl eq_refl))) as [Ws _]. destruct (n_degree_correct K s HK Ws N) as (d & Ed & E). rewrite En in Ed. injection Ed as <-.
      set (tops := filter (fun t => (length (verts t) =? S n) && supersetb t (verts s)) (by_index K)) in *.
      destruct (IH (acc ++ [(twoPi - acosInv n * inject_Z (Z.of_nat (length tops)))%Q])) as (vs & E' & F); [intros x Hx; apply H; right; exact Hx|].
      exists ((twoPi - acosInv n * inject_Z (Z.of_nat (length tops)))%Q :: vs). cbn [foldM]. rewrite E. cbn [bind]. rewrite E', <- app_assoc. split; [reflexivity|]. constructor; [|exact F].
      exists tops. split; [|reflexivity]. split; [apply NoDup_filter, (map_NoDup verts), (kwf_nodup K HK)|]. intro t. unfold tops. rewrite filter_In, andb_true_iff, Nat.eqb_eq, supersetb_spec. reflexivity. }
    destruct (G (if n <? 2 then [] else k_range K (n - 2)) []) as (vs & E & F).
    { intros s Hs. destruct (n <? 2); [destruct Hs|]. apply range_In in Hs; tauto. }
    exists n, vs. refine (conj X1 (conj X2 (conj E (conj _ _)))).
    + intro L. apply Nat.ltb_lt in L. rewrite L in F. inversion F. reflexivity.
    + intro L. assert (Q : n <? 2 = false) by (apply Nat.ltb_ge; lia). rewrite Q in F. exists (k_range K (n - 2)). split; [|exact F].
      replace (n - 1) with (S (n - 2)) by lia. apply range_lists. auto.
Qed.

(** ** concrete cases and findings *)
Definition single_edge : complex := mk [PushBack [0;1] 1; PushBack [0] 1; PushBack [1] 1].

Lemma single_edge_closed : closed (by_index single_edge).
Proof. apply closed_check; [apply mk_reachable|]. vm_compute. reflexivity. Qed.

(** FINDING: the curvature of an edge without triangles is one less than Forman's,
    because the edge is counted among its own parallel neighbours *)
Theorem C78_self_refuted :
  reachable single_edge /\ closed (by_index single_edge) /\ curvature 65536 single_edge 1 = [1%Z] /\
  (exists s, In s (by_index single_edge) /\ verts s = [1; 0] /\ forman (by_index single_edge) s 2) /\
  weightedCurvature (fun x => x) single_edge 1 = Ok [(inject_Z 1 * (inject_Z 2))%Q].
Proof.
  split; [apply mk_reachable|]. split; [apply single_edge_closed|]. split; [vm_compute; reflexivity|]. split; [|vm_compute; reflexivity].
  exists (Simplex [1; 0] 1). split; [vm_compute; auto|]. split; [reflexivity|]. exists [], [Simplex [0] 1; Simplex [1] 1], [].
  assert (EL : by_index single_edge = [Simplex [1; 0] 1; Simplex [0] 1; Simplex [1] 1]) by (vm_compute; reflexivity). rewrite EL.
  assert (NC : forall t, ~ coface_in [Simplex [1; 0] 1; Simplex [0] 1; Simplex [1] 1] (Simplex [1; 0] 1) t).
  { intros t [Ht [_ H]]. destruct Ht as [<-|[<-|[<-|[]]]]; cbn in H; discriminate. }
  refine (conj (conj (NoDup_nil _) _) (conj (conj _ _) (conj (conj (NoDup_nil _) _) eq_refl))).
  - intro t. split; [intros []|]. apply NC.
  - repeat constructor; cbn; intuition discriminate.
  - intro f. split.
    + intros [<-|[<-|[]]]; (split; [cbn; auto|split; [intros x [<-|[]]; cbn; auto|reflexivity]]).
    + intros [Hf [_ H]]. destruct Hf as [<-|[<-|[<-|[]]]]; cbn in H; try discriminate; cbn; auto.
  - intro t. split; [intros []|]. intros [(Ht & El & N) _]. exfalso. destruct Ht as [<-|[<-|[<-|[]]]]; cbn in El; try discriminate. apply N. intro x. tauto.
Qed.

(** FINDING: the result has the unsigned type of the vertices, so that negative
    values wrap around: the edge between two vertices of degree three *)
Definition spider : complex := mk [PushBack [0;1] 1; PushBack [0;2] 1; PushBack [0;3] 1; PushBack [1;4] 1; PushBack [1;5] 1; CreateMissingFaces].
Theorem C78_wrap_refuted :
  reachable spider /\ closed (by_index spider) /\ map verts (k_range spider 1) = [[1;0]; [2;0]; [3;0]; [4;1]; [5;1]] /\
  curvature 65536 spider 1 = [65533; 65535; 65535; 65535; 65535]%Z.
Proof.
  split; [apply mk_reachable|]. split; [apply closed_check; [apply mk_reachable|vm_compute; reflexivity]|]. split; vm_compute; reflexivity.
Qed.

(** FINDING: on a complex that is not closed the result of a failed search is dereferenced *)
Theorem C78_not_closed_refuted : reachable (mk [PushBack [0;1] 1; PushBack [1;2] 1]) /\ weightedCurvature (fun x => x) (mk [PushBack [0;1] 1; PushBack [1;2] 1]) 1 = UB.
Proof. split; [apply mk_reachable|]. vm_compute. reflexivity. Qed.

(** FINDING: Forman's weighted curvature adds up absolute values, one for every
    neighbour; the code takes the absolute value of the sum.  The edges have weight 4,
    the vertices and the triangle {0,1,2} weight 1; there is one more edge {0,3}. *)
Definition kite : complex :=
  mk [PushBack [0] 1; PushBack [1] 1; PushBack [2] 1; PushBack [3] 1; PushBack [0;1] 4; PushBack [0;2] 4; PushBack [1;2] 4; PushBack [0;3] 4; PushBack [0;1;2] 1].
Definition sqrt16 (x : Q) : Q := if Qeq_bool x 16 then 4%Q else x.
Theorem C78_absolute_refuted :
  reachable kite /\ closed (by_index kite) /\ (sqrt16 (inject_Z 4 * inject_Z 4) == 4)%Q /\
  exists v vs, weightedCurvature sqrt16 kite 1 = Ok (v :: vs) /\
    (* the neighbours {0,2} and {1,2} contribute 4/1 - 1/4, the neighbour {0,3} contributes - 1/4 *)
    (v == 4 * ((4/1 + (1/4 + 1/4)) - Qabs ((4/1 - 1/4) + (4/1 - 1/4) - 1/4)))%Q /\
    ~ (v == 4 * ((4/1 + (1/4 + 1/4)) - (Qabs (4/1 - 1/4) + Qabs (4/1 - 1/4) + Qabs (- (1/4)))))%Q.
Proof.
  split; [apply mk_reachable|]. split; [apply closed_check; [apply mk_reachable|vm_compute; reflexivity]|]. split; [reflexivity|].
  do 2 eexists. split; [vm_compute; reflexivity|]. split; [vm_compute; reflexivity|]. vm_compute. discriminate.
Qed.

(** the boundary of a tetrahedron: every edge has two triangles and two vertices;
    the four adjacent edges share a triangle with it, too *)
Definition sphere2 : complex := mk [PushBack [0;1;2] 1; PushBack [0;1;3] 1; PushBack [0;2;3] 1; PushBack [1;2;3] 1; CreateMissingFaces].
Example C78_example :
  curvature 65536 sphere2 1 = [4; 4; 4; 4; 4; 4]%Z /\
  (* angle defects of the vertices of a tetrahedron, 2 pi = 6, acos (1/2) = 1 *)
  (exists vs, angleDefectCurvature 6 (fun _ => 1%Q) sphere2 = Ok vs /\
    Forall (fun v => v == 3)%Q vs /\ length vs = 4).
Proof.
  split; [vm_compute; reflexivity|]. eexists. split; [vm_compute; reflexivity|]. split; [repeat constructor|reflexivity].
Qed.

Print Assumptions C78_curvature.
Print Assumptions C78_weighted.
Print Assumptions C78_unit.
Print Assumptions C78_angle.
Print Assumptions C78_self_refuted.
Print Assumptions C78_wrap_refuted.
Print Assumptions C78_not_closed_refuted.
Print Assumptions C78_absolute_refuted.
