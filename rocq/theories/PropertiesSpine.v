(** * C31: the spine of a simplicial complex. *)
From Coq Require Import List Arith Bool ZArith Lia Permutation Sorted Relations.
From Verif Require Import Base BaseFacts Simplex SimplexFacts SpecComplex Matrix RepFacts Complex ComplexFacts ClosureFacts WeightFacts
  History Subcomplex SubcomplexFacts FloydFacts PropertiesComplex PropertiesSmall PropertiesQuotient SpecCollapse Spine SpineFacts.
Import ListNotations.

Lemma collapse_chi K L : kwf K -> closed (by_index K) -> elementary_collapse (by_index K) L -> chi L = chi (by_index K).
Proof.
  intros HK Hc (s & t & A & B & C & Hf & -> & E). pose proof (free_adm_ok K s t HK Hc Hf) as (_ & St & [_ Lf] & _).
  destruct (stored_good K t HK St) as [_ Nt].
  assert (Hsg : (sign (length (verts s) - 1) + sign (length (verts t) - 1) = 0)%Z).
  { rewrite Lf. replace (S (length (verts t)) - 1) with (length (verts t)) by lia. rewrite sign_next by auto. lia. }
  destruct E as [-> | ->]; rewrite !chi_app, chi_cons, chi_app, chi_cons; lia.
Qed.

(** The result is obtained by elementary collapses, nothing is left to collapse,
    and the alternating sum of the simplex numbers does not change. *)
Definition is_spine (K L : complex) : Prop :=
  collapses (by_index K) (by_index L) /\ closed (by_index L) /\
  (forall s t, ~ free_face (by_index L) s t) /\ chi (by_index L) = chi (by_index K).

Lemma step_kwf K L : kwf K -> closed (by_index K) -> elementary_collapse (by_index K) L ->
  exists K', by_index K' = L /\ kwf K' /\ closed L.
Proof.
  intros HK Hc H. pose proof H as (s & t & A & B & C & Hf & EL & E). pose proof (free_adm_ok K s t HK Hc Hf) as Ha.
  destruct (collapse_step K s t HK Hc Ha) as (W & Cl & _). exists (without K s t).
  assert (EE : by_index (without K s t) = L); [|rewrite <- EE; auto].
  pose proof (kwf_nodup K HK) as Hn. assert (Hne : verts s <> verts t) by (intro E'; symmetry in E'; apply facet_neq in E'; auto; apply Ha).
  unfold without, k_remove_without_validation. cbn [by_index]. rewrite EL. destruct E as [E|E]; rewrite E in *.
  - rewrite (filter_split _ _ _ Hn). rewrite app_assoc. rewrite filter_split; [rewrite <- app_assoc; auto|].
    rewrite map_app in Hn. cbn [map] in Hn. apply NoDup_remove in Hn. rewrite <- app_assoc, map_app. apply Hn.
  - rewrite app_comm_cons, app_assoc in Hn |- *. rewrite (filter_split _ _ _ Hn). rewrite <- app_assoc. cbn [app]. rewrite filter_split; auto.
    rewrite map_app in Hn. cbn [map] in Hn. apply NoDup_remove in Hn. rewrite <- map_app, <- app_assoc in Hn. apply Hn.
Qed.

Lemma collapses_chi L1 L2 : collapses L1 L2 -> forall K, by_index K = L1 -> kwf K -> closed (by_index K) -> chi L2 = chi L1.
Proof.
  induction 1 as [|L1 L L2 Hs _ IH]; auto. intros K E HK Hc. subst L1. destruct (step_kwf K L HK Hc Hs) as (K' & E' & W & Cl).
  rewrite (IH K') by (auto; rewrite E'; auto). apply collapse_chi; auto.
Qed.

Lemma is_spine_intro K L : kwf K -> closed (by_index K) -> kwf L -> closed (by_index L) -> collapses (by_index K) (by_index L) ->
  (forall s t, ~ adm_ok (by_index L) s t) -> is_spine K L.
Proof.
  intros HK Hc HL HcL Hco Hn. refine (conj Hco (conj HcL (conj _ _))).
  - intros s t H. apply (Hn s t). apply free_adm_ok; auto.
  - eapply collapses_chi; eauto.
Qed.

Theorem C31_spine : forall pick K, reachable K -> closed (by_index K) ->
  exists L, spine pick K = Ok L /\ reachable L /\ is_spine K L.
Proof.
  intros pick K HR Hc. pose proof (reachable_kwf K HR) as HK. unfold spine. pose proof (build_inv K HK Hc) as Hm.
  destruct (principal_ok _ K HK Hc Hm) as (a & -> & Ha & Hn). cbn [bind].
  destruct (spine_loop_ok pick (k_size K) 0 K _ a HK Hc Hm Ha Hn) as (L & E & W & C & Co & N & R); [auto|].
  exists L. refine (conj E (conj (R HR) _)). apply is_spine_intro; auto.
Qed.

Theorem C31_dumb_spine : forall pick K, reachable K -> closed (by_index K) ->
  exists L, dumb_spine pick K = Ok L /\ reachable L /\ is_spine K L.
Proof.
  intros pick K HR Hc. pose proof (reachable_kwf K HR) as HK. unfold dumb_spine.
  destruct (dumb_loop_ok pick (k_size K) 0 K HK Hc) as (L & E & W & C & Co & N & R); [auto|].
  exists L. refine (conj E (conj (R HR) _)). apply is_spine_intro; auto.
Qed.

(** the tests for single simplices *)
Theorem C31_isPrincipal : forall K s, reachable K -> closed (by_index K) -> In s (by_index K) ->
  exists b, dumb_isPrincipal s K = Ok b /\
    (b = true <-> 2 <= length (verts s) /\ forall u, In u (by_index K) -> ~ proper_face s u).
Proof.
  intros K s HR Hc Hs. pose proof (reachable_kwf K HR) as HK. destruct (kwf_good K HK s Hs) as [Ws Ns].
  unfold dumb_isPrincipal. rewrite dimension_size by (unfold s_size; destruct (verts s); easy). cbn [bind]. unfold s_size.
  destruct (Nat.eqb_spec (length (verts s) - 1) 0) as [E|E]; eexists; (split; [reflexivity|]).
  - split; [easy|]. intros [H _]. lia.
  - rewrite forallb_forall. split.
    + intro H. split; [lia|]. intros u Iu [P1 P2].
      assert (exists v, In v (verts u) /\ ~ In v (verts s)) as (v & Hv & Hnv).
      { destruct (existsb (fun v => negb (mem v (verts s))) (verts u)) eqn:Ex.
        - apply existsb_exists in Ex. destruct Ex as (v & Hv & Ev). apply negb_true_iff, mem_false in Ev. eauto.
        - exfalso. apply P2. intros x Hx. destruct (mem x (verts s)) eqn:Em; [apply mem_In; auto|]. exfalso.
          rewrite <- not_true_iff_false in Ex. apply Ex. apply existsb_exists. exists x. rewrite Em. auto. }
      destruct (Hc u (v :: verts s) Iu ltac:(easy)) as (w & Iw & Ew); [intros x [<-|Hx]; auto|].
      assert (Lw : length (verts w) = S (length (verts s))).
      { change (S (length (verts s))) with (length (v :: verts s)). apply NoDup_same_length; [apply SSgt_NoDup, (kwf_good K HK w Iw)|constructor; auto; apply SSgt_NoDup; auto|exact Ew]. }
      specialize (H w). rewrite negb_true_iff, Nat.eqb_neq in H. apply H; [apply range_In; auto; split; auto; lia|]. apply size_intersection; auto.
      intros x Hx. apply Ew. simpl. auto.
    + intros [_ H] t Ht. apply range_In in Ht; auto. destruct Ht as [It Lt]. apply negb_true_iff, Nat.eqb_neq. intro Es. apply size_intersection in Es; auto.
      apply (H t It). apply facet_proper; auto; [apply (kwf_good K HK t It)|]. split; auto. lia.
Qed.

Theorem C31_isAdmissible : forall K s, reachable K -> closed (by_index K) -> In s (by_index K) ->
  exists f, dumb_isAdmissible s K = Ok f /\
    ((verts f = [] /\ forall t, ~ free_face (by_index K) s t) \/
     exists t, verts t = verts f /\ free_face (by_index K) s t).
Proof.
  intros K s HR Hc Hs. pose proof (reachable_kwf K HR) as HK. destruct (kwf_good K HK s Hs) as [Ws Ns].
  unfold dumb_isAdmissible. destruct (C31_isPrincipal K s HR Hc Hs) as (b & -> & Hb). cbn [bind]. destruct b; cbn [negb].
  - destruct Hb as [Hb _]. specialize (Hb eq_refl). destruct Hb as [L2 Hp]. rewrite dimension_size by (unfold s_size; lia). cbn [bind].
    assert (G : forall f, In f (boundary s) -> (forallb (fun t => s_eqb t s || negb (sizeOfIntersection f t =? s_size f)) (k_range K (s_size s - 1)) = true <-> adm_ok (by_index K) s f)).
    { intros f Hf. destruct (boundary_stored s f Ws Hf) as (Wf & Nf & Ff). rewrite forallb_forall. unfold s_size. split.
      - intro H. refine (conj (in_map verts _ _ Hs) (conj _ (conj Ff _))); [apply (closed_stored K s); auto; [apply in_map; auto|apply Ff]|].
        intros u Iu [F1 F2]. specialize (H u). rewrite orb_true_iff, negb_true_iff, Nat.eqb_neq in H. destruct H as [H|H].
        + apply range_In; auto. split; auto. destruct Ff as [_ Lf]. lia.
        + apply s_eqb_eq; auto.
        + exfalso. apply H. apply size_intersection; auto.
      - intros (_ & _ & _ & Hu) t Ht. apply range_In in Ht; auto. destruct Ht as [It Lt]. destruct (s_eqb t s) eqn:E; auto. cbn [orb]. apply negb_true_iff, Nat.eqb_neq.
        intro Es. apply size_intersection in Es; auto. apply s_eqb_neq in E. apply E, Hu; auto. split; auto. destruct Ff as [_ Lf]. lia. }
    destruct (find _ (boundary s)) as [f|] eqn:E.
    + exists f. split; auto. right. apply find_some in E. destruct E as [Hf E]. apply (G f Hf) in E. destruct (adm_ok_free K s f HK Hc E) as (s' & t & Es & Et & Hft).
      exists t. split; auto. replace s with s'; auto. apply (nodup_verts_eq K); auto. apply Hft.
    + exists simplex_empty. split; auto. left. split; auto. intros t Ht. apply (free_adm_ok K s t HK Hc) in Ht. pose proof Ht as (_ & St & Ft & _).
      destruct (stored_good K t HK St) as [Wt Nt]. apply facet_boundary in Ft; auto. apply in_map_iff in Ft. destruct Ft as (f & Ef & Hf).
      pose proof (find_none _ _ E f Hf) as N. cbn beta in N. rewrite (proj2 (G f Hf)) in N; [discriminate|].
      destruct Ht as (T1 & T2 & T3 & T4). unfold adm_ok, stored in *. rewrite Ef. refine (conj T1 (conj T2 (conj _ _))); [eapply facet_verts; [| |exact T3]; auto|].
      intros u Iu Fu. apply T4; auto. eapply facet_verts; [| |exact Fu]; auto.
  - exists simplex_empty. split; auto. left. split; auto. intros t Ht. assert (false = true); [|discriminate]. apply Hb.
    pose proof (free_adm_ok K s t HK Hc Ht) as (_ & St & [_ Lf] & _). destruct (stored_good K t HK St) as [_ Nt]. split; [destruct (verts t); [easy|simpl in Lf; lia]|].
    intros u Iu Pu. destruct Ht as (_ & _ & [P1 P2] & Hu). assert (u = s).
    { apply Hu; auto. destruct Pu as [Q1 Q2]. split; [intros x Hx; auto|]. intro H. apply Q2. intros x Hx. apply P1, H. auto. }
    subst u. destruct Pu as [_ Q2]. apply Q2. intros x Hx. auto.
Qed.

Example C31_example : exists L, spine (fun _ => 1) full_triangle = Ok L /\ length (by_index full_triangle) = 7 /\ map verts (by_index L) = [[2]].
Proof. eexists. split; [vm_compute; reflexivity|]. split; vm_compute; reflexivity. Qed.

(** a square with a filled triangle attached collapses to a circle *)
Definition house : complex := mk [InsertRange (map (fun l => (l, 1%Z))
  [[0]; [1]; [2]; [3]; [4]; [0; 1]; [1; 2]; [2; 3]; [0; 3]; [2; 4]; [3; 4]; [2; 3; 4]])].
Example C31_house : exists L L', spine (fun n => n) house = Ok L /\ dumb_spine (fun n => 7 - n) house = Ok L' /\
  map verts (by_index L) = [[0]; [1]; [2]; [3]; [4]; [1; 0]; [2; 1]; [3; 0]; [4; 2]; [4; 3]] /\ length (by_index L') = 10 /\ chi (by_index house) = 0%Z.
Proof. do 2 eexists. split; [vm_compute; reflexivity|]. split; [vm_compute; reflexivity|]. repeat split; vm_compute; reflexivity. Qed.

(** Without the faces of a simplex the coface map is incomplete. *)
Theorem C31_not_closed_refuted : exists K, reachable K /\ forall pick, spine pick K = Throw OutOfRange.
Proof.
  exists (mk [InsertRange [([0; 1; 2], 1%Z)]]). split; [apply mk_reachable|]. intro pick. unfold spine. 
  remember (buildCofaceMap _) as m eqn:Em. vm_compute in Em. subst m. vm_compute. destruct (pick 0); reflexivity.
Qed.

Print Assumptions C31_spine.
Print Assumptions C31_dumb_spine.
Print Assumptions C31_isPrincipal.
Print Assumptions C31_isAdmissible.
Print Assumptions C31_not_closed_refuted.
