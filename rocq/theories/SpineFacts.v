(** * Facts on collapses and on the two implementations of the spine. *)
From Coq Require Import List Arith Bool ZArith Lia Permutation Sorted Relations.
From Verif Require Import Base BaseFacts Simplex SimplexFacts SpecComplex Matrix RepFacts Complex ComplexFacts ClosureFacts WeightFacts
  History Subcomplex SubcomplexFacts FloydFacts SpecCollapse Spine.
From Verif Require PropertiesCliqueGraph.
Import ListNotations.

Definition facet (f s : simplex) : Prop := subset (verts f) (verts s) /\ length (verts s) = S (length (verts f)).
Definition stored (L : list simplex) (s : simplex) : Prop := In (verts s) (map verts L).

Lemma facet_boundary s f : wf s -> wf f -> verts f <> [] -> (In (verts f) (map verts (boundary s)) <-> facet f s).
Proof.
  intros Hs Hf Hn. rewrite <- existsb_seqb. split.
  - intro H. apply PropertiesCliqueGraph.boundary_facet in H; auto. destruct H as (_ & H1 & H2 & _). split; auto.
  - intros [H1 H2]. assert (E := PropertiesCliqueGraph.facet_in_boundary s (verts f) (length (verts f)) Hs H2).
    rewrite existsb_seqb in *. rewrite simplex_of_id in E by auto. apply E; auto; [|apply SSgt_NoDup; auto]. destruct (verts f); [easy|simpl; lia].
Qed.

Lemma boundary_stored s f : wf s -> In f (boundary s) -> wf f /\ verts f <> [] /\ facet f s.
Proof.
  intros Hs Hf. pose proof (boundary_wf _ _ Hf) as Hw. assert (Hn : verts f <> []).
  { apply (boundary_size s f Hs) in Hf as E. apply in_boundary in Hf. destruct Hf as [H2 _]. unfold s_size in *. intro H. rewrite H in E. simpl in E. lia. }
  refine (conj Hw (conj Hn _)). apply facet_boundary; auto. apply in_map. auto.
Qed.

Lemma facet_verts f s f' s' : verts f = verts f' -> verts s = verts s' -> facet f s -> facet f' s'.
Proof. unfold facet. intros -> ->. auto. Qed.

Lemma facet_neq f s : facet f s -> verts f <> verts s.
Proof. intros [_ H] E. rewrite E in H. lia. Qed.

Lemma facet_proper f s : wf f -> wf s -> facet f s -> proper_face f s.
Proof.
  intros Hf Hs [H1 H2]. split; auto. intro H. apply NoDup_incl_length in H; [lia|]. apply SSgt_NoDup. auto.
Qed.

Lemma stored_In K s : stored (by_index K) s -> exists s', In s' (by_index K) /\ verts s' = verts s.
Proof. intro H. apply in_map_iff in H. destruct H as (s' & E & H). eauto. Qed.

Lemma stored_good K s : kwf K -> stored (by_index K) s -> wf s /\ verts s <> [].
Proof. intros HK H. apply stored_In in H. destruct H as (s' & H & E). destruct (kwf_good K HK s' H) as [H1 H2]. unfold wf in *. rewrite <- E. auto. Qed.

Lemma closed_stored K s f : kwf K -> closed (by_index K) -> stored (by_index K) s -> wf f -> verts f <> [] -> subset (verts f) (verts s) -> stored (by_index K) f.
Proof.
  intros HK Hc Hs Hf Hn Hsub. apply stored_In in Hs. destruct Hs as (s' & Hs & E). rewrite <- E in Hsub.
  destruct (Hc s' (verts f) Hs Hn Hsub) as (f' & Hf' & E'). apply in_map_iff. exists f'. split; auto.
  apply wf_ext; auto. apply (kwf_good K HK f' Hf').
Qed.

(** a pair that may be collapsed *)
Definition adm_ok (L : list simplex) (s t : simplex) : Prop :=
  stored L s /\ stored L t /\ facet t s /\ forall u, In u L -> facet t u -> verts u = verts s.

Lemma adm_ok_coface K s t u : kwf K -> closed (by_index K) -> adm_ok (by_index K) s t -> In u (by_index K) ->
  subset (verts t) (verts u) -> verts u = verts t \/ verts u = verts s.
Proof.
  intros HK Hc (Hs & Ht & Hf & Hu) Iu Hsub. destruct (stored_good K s HK Hs) as [Ws Ns]. destruct (stored_good K t HK Ht) as [Wt Nt].
  destruct (kwf_good K HK u Iu) as [Wu Nu].
  assert (G : forall v, In v (verts u) -> ~ In v (verts t) -> forall x, In x (verts s) <-> x = v \/ In x (verts t)).
  { intros v Hv Hnv. assert (Hw : stored (by_index K) (simplex_of (v :: verts t) 0)).
    { eapply (closed_stored K u); eauto.
      - apply in_map. auto.
      - apply simplex_of_wf.
      - intro E. assert (In v (verts (simplex_of (v :: verts t) 0))) by (apply simplex_of_In; simpl; auto). rewrite E in H. contradiction.
      - intros x Hx. apply simplex_of_In in Hx. destruct Hx as [<-|Hx]; auto. }
    apply stored_In in Hw. destruct Hw as (w & Iw & Ew).
    assert (Hx : forall x, In x (verts w) <-> x = v \/ In x (verts t)) by (intro x; rewrite Ew, simplex_of_In; simpl; intuition).
    assert (E : verts w = verts s).
    { apply Hu; auto. split; [intros x Hx'; apply Hx; auto|]. assert (E : length (verts w) = length (v :: verts t)); [|simpl in E; auto].
      apply NoDup_same_length; [apply SSgt_NoDup, (kwf_good K HK w Iw)|constructor; auto; apply SSgt_NoDup; auto|]. intro x. rewrite Hx. simpl. intuition. }
    intro x. rewrite <- E. apply Hx. }
  destruct (existsb (fun v => negb (mem v (verts t))) (verts u)) eqn:E.
  - apply existsb_exists in E. destruct E as (v & Hv & E). apply negb_true_iff, mem_false in E. right. apply wf_ext; auto.
    intro x. split.
    + intro Hx. destruct (in_dec Nat.eq_dec x (verts t)) as [Hxt|Hxt]; [apply Hf; auto|]. apply (G x Hx Hxt). auto.
    + intro Hx. apply (G v Hv E) in Hx. destruct Hx as [->|Hx]; [auto|apply Hsub; auto].
  - left. apply wf_ext; auto. intro x. split; [|apply Hsub]. intro Hx. destruct (mem x (verts t)) eqn:Em; [apply mem_In; auto|]. exfalso.
    rewrite <- not_true_iff_false in E. apply E. apply existsb_exists. exists x. rewrite Em. auto.
Qed.

Lemma adm_ok_free K s t : kwf K -> closed (by_index K) -> adm_ok (by_index K) s t ->
  exists s' t', verts s' = verts s /\ verts t' = verts t /\ free_face (by_index K) s' t'.
Proof.
  intros HK Hc H. pose proof H as (Hs & Ht & Hf & Hu). destruct (stored_In K s Hs) as (s' & Is & Es). destruct (stored_In K t Ht) as (t' & It & Et).
  exists s', t'. refine (conj Es (conj Et (conj Is (conj It (conj _ _))))).
  - apply facet_proper; [apply (kwf_good K HK t' It)|apply (kwf_good K HK s' Is)|]. eapply facet_verts; [| |exact Hf]; auto.
  - intros u Iu [P1 P2]. rewrite Et in P1, P2. apply (nodup_verts_eq K); auto. rewrite Es. destruct (adm_ok_coface K s t u HK Hc H Iu P1) as [E|E]; auto.
    exfalso. apply P2. rewrite E. intros x Hx. auto.
Qed.

Lemma free_adm_ok K s t : kwf K -> closed (by_index K) -> free_face (by_index K) s t -> adm_ok (by_index K) s t.
Proof.
  intros HK Hc (Is & It & [P1 P2] & Hu). destruct (kwf_good K HK s Is) as [Ws Ns]. destruct (kwf_good K HK t It) as [Wt Nt].
  assert (Hf : facet t s).
  { split; auto. assert (exists v, In v (verts s) /\ ~ In v (verts t)) as (v & Hv & Hnv).
    { destruct (existsb (fun v => negb (mem v (verts t))) (verts s)) eqn:E.
      - apply existsb_exists in E. destruct E as (v & Hv & E). apply negb_true_iff, mem_false in E. eauto.
      - exfalso. apply P2. intros x Hx. destruct (mem x (verts t)) eqn:Em; [apply mem_In; auto|]. exfalso.
        rewrite <- not_true_iff_false in E. apply E. apply existsb_exists. exists x. rewrite Em. auto. }
    destruct (Hc s (v :: verts t) Is ltac:(easy)) as (w & Iw & Ew); [intros x [<-|Hx]; auto|].
    assert (w = s).
    { apply Hu; auto. split; [intros x Hx; apply Ew; simpl; auto|]. intro H. apply Hnv, H, Ew. simpl. auto. }
    subst w. transitivity (length (v :: verts t)); [|reflexivity]. apply NoDup_same_length; [apply SSgt_NoDup; auto|constructor; auto; apply SSgt_NoDup; auto|exact Ew]. }
  refine (conj (in_map verts _ _ Is) (conj (in_map verts _ _ It) (conj Hf _))).
  intros u Iu Fu. f_equal. apply Hu; auto. apply facet_proper; auto. apply (kwf_good K HK u Iu).
Qed.

(** ** removal of a pair *)
Definition without (K : complex) (s t : simplex) : complex := k_remove_without_validation (k_remove_without_validation K s) t.

Lemma without_In K s t u : In u (by_index (without K s t)) <-> In u (by_index K) /\ verts u <> verts s /\ verts u <> verts t.
Proof.
  unfold without, k_remove_without_validation. cbn [by_index]. rewrite !filter_In, !negb_true_iff, !s_eqb_neq. tauto.
Qed.

Lemma without_stored K s t u : stored (by_index (without K s t)) u <-> stored (by_index K) u /\ verts u <> verts s /\ verts u <> verts t.
Proof.
  unfold stored. rewrite !in_map_iff. split.
  - intros (x & E & Hx). apply without_In in Hx. rewrite E in Hx. destruct Hx as (H1 & H2 & H3). split; eauto.
  - intros ((x & E & Hx) & H2 & H3). exists x. split; auto. apply without_In. rewrite E. auto.
Qed.

Lemma without_kwf K s t : kwf K -> kwf (without K s t).
Proof. intro HK. apply remove_wv_kwf, remove_wv_kwf; auto. Qed.

Lemma filter_other (s : simplex) l : ~ In (verts s) (map verts l) -> filter (fun t => negb (s_eqb t s)) l = l.
Proof.
  intro H. apply filter_all. intros t Ht. apply negb_true_iff, s_eqb_neq. intro E. apply H. rewrite <- E. apply in_map; auto.
Qed.

Lemma filter_split A B (s : simplex) : NoDup (map verts (A ++ s :: B)) -> filter (fun t => negb (s_eqb t s)) (A ++ s :: B) = A ++ B.
Proof.
  intro H. rewrite map_app in H. cbn [map] in H. apply NoDup_remove in H. destruct H as [_ H]. rewrite in_app_iff in H.
  rewrite filter_app. cbn [filter]. rewrite s_eqb_refl. cbn [negb]. rewrite !filter_other; auto.
Qed.

Lemma without_split K s t : kwf K -> In s (by_index K) -> In t (by_index K) -> verts s <> verts t ->
  exists A B C, by_index (without K s t) = A ++ B ++ C /\
    (by_index K = A ++ s :: B ++ t :: C \/ by_index K = A ++ t :: B ++ s :: C).
Proof.
  intros HK Is It Hne. pose proof (kwf_nodup K HK) as Hn. apply in_split in Is. destruct Is as (A & B & E). rewrite E in *.
  unfold without, k_remove_without_validation. cbn [by_index]. rewrite E, (filter_split _ _ _ Hn).
  assert (Hn' : NoDup (map verts (A ++ B))) by (rewrite map_app in *; cbn [map] in Hn; apply NoDup_remove in Hn; tauto).
  apply in_app_or in It. destruct It as [It|[<-|It]]; [| easy |].
  - apply in_split in It. destruct It as (A1 & A2 & ->). exists A1, A2, B. rewrite <- app_assoc in Hn' |- *. cbn [app] in Hn' |- *. rewrite (filter_split _ _ _ Hn').
    split; auto. right. rewrite <- app_assoc. reflexivity.
  - apply in_split in It. destruct It as (B1 & B2 & ->). exists A, B1, B2. rewrite app_assoc in Hn' |- *. rewrite (filter_split _ _ _ Hn'). rewrite <- app_assoc. auto.
Qed.

Lemma without_eq K s t s' t' : verts s = verts s' -> verts t = verts t' -> without K s t = without K s' t'.
Proof. intros E1 E2. unfold without, k_remove_without_validation, s_eqb. cbn [by_index by_dim]. rewrite E1, E2. auto. Qed.

Lemma collapse_step K s t : kwf K -> closed (by_index K) -> adm_ok (by_index K) s t ->
  kwf (without K s t) /\ closed (by_index (without K s t)) /\ elementary_collapse (by_index K) (by_index (without K s t)) /\
  S (S (length (by_index (without K s t)))) = length (by_index K).
Proof.
  intros HK Hc H. split; [apply without_kwf; auto|]. split.
  - intros u vs Iu Hvs Hsub. apply without_In in Iu. destruct Iu as (Iu & N1 & N2).
    destruct (Hc u vs Iu Hvs Hsub) as (x & Ix & Ex). exists x. split; auto. apply without_In. split; auto.
    assert (Hxu : subset (verts x) (verts u)) by (intros y Hy; apply Hsub, Ex; auto).
    assert (Hst : subset (verts t) (verts s)) by apply H. split; intro E; rewrite E in Hxu;
      destruct (adm_ok_coface K s t u HK Hc H Iu) as [E'|E']; auto; intros y Hy; auto.
  - destruct (adm_ok_free K s t HK Hc H) as (s' & t' & E1 & E2 & Hf). pose proof Hf as (Is & It & _).
    rewrite (without_eq K s t s' t') by auto. destruct (without_split K s' t' HK Is It) as (A & B & C & E & E').
    { rewrite E1, E2. intro E. symmetry in E. apply facet_neq in E; auto. apply H. }
    split; [exists s', t', A, B, C; auto|]. rewrite E. destruct E' as [-> | ->]; rewrite !app_length; simpl; rewrite !app_length; simpl; lia.
Qed.

Lemma without_reachable K s t : reachable K -> wf s -> wf t -> reachable (without K s t).
Proof.
  assert (G : forall K s, reachable K -> wf s -> reachable (k_remove_without_validation K s)).
  { clear. intros K s (lo & hi & h & ->) Hs. exists lo, hi, (h ++ [RemoveWithoutValidation (verts s)]). unfold k_run. rewrite fold_left_app. cbn [fold_left k_exec fst].
    unfold k_remove_without_validation, s_eqb. rewrite simplex_of_id by auto. reflexivity. }
  intros HR Hs Ht. apply G; auto.
Qed.

(** other pairs survive *)
Lemma adm_ok_other K s t s2 t2 : kwf K -> closed (by_index K) -> adm_ok (by_index K) s t -> adm_ok (by_index K) s2 t2 -> verts s2 <> verts s ->
  adm_ok (by_index (without K s t)) s2 t2.
Proof.
  intros HK Hc H H2 Hne. pose proof H as (Hs & Ht & Hf & Hu). pose proof H2 as (Hs2 & Ht2 & Hf2 & Hu2).
  destruct (stored_In K s Hs) as (s' & Is & Es). destruct (stored_In K s2 Hs2) as (s2' & Is2 & Es2).
  assert (N1 : verts s2 <> verts t).
  { intro E. destruct (adm_ok_coface K s2 t2 s' HK Hc H2 Is) as [E'|E'].
    - rewrite Es. intros x Hx. apply Hf. rewrite <- E. apply Hf2. auto.
    - destruct Hf as [Hf Lf]. destruct Hf2 as [Hf2 Lf2]. rewrite Es in E'. rewrite E' in Lf. rewrite <- E in Lf. lia.
    - congruence. }
  assert (N2 : verts t2 <> verts s).
  { intro E. destruct (adm_ok_coface K s t s2' HK Hc H Is2) as [E'|E'].
    - rewrite Es2. intros x Hx. apply Hf2. rewrite E. apply Hf. auto.
    - congruence.
    - congruence. }
  assert (N3 : verts t2 <> verts t).
  { intro E. apply Hne. rewrite <- Es2. apply Hu; auto. rewrite <- Es2 in *. eapply facet_verts; [exact E| |exact Hf2]. auto. }
  refine (conj _ (conj _ (conj Hf2 _))); [apply without_stored; auto|apply without_stored; auto|].
  intros u Iu Fu. apply Hu2; auto. apply without_In in Iu. tauto.
Qed.

(** ** maps of admissible simplices *)
Lemma adm_insert_In m s t p : In p (adm_insert m s t) -> In p m \/ p = (s, t).
Proof. unfold adm_insert. destruct existsb; auto. intro H. apply in_app_or in H. destruct H as [|[|[]]]; auto. Qed.
Lemma adm_insert_keys m s t : NoDup (map (fun p => verts (fst p)) m) -> NoDup (map (fun p => verts (fst p)) (adm_insert m s t)).
Proof.
  intro H. unfold adm_insert. destruct existsb eqn:E; auto. rewrite map_app. cbn [map fst].
  apply PairingFacts.NoDup_app_intro; auto; [repeat constructor; auto|]. intros x Hx [<-|[]]. apply in_map_iff in Hx. destruct Hx as (p & Ep & Hp).
  rewrite <- not_true_iff_false in E. apply E. apply existsb_exists. exists p. split; auto. apply s_eqb_eq. auto.
Qed.
Lemma adm_insert_nonempty m s t : adm_insert m s t <> [].
Proof. unfold adm_insert. destruct existsb eqn:E; [|destruct m; easy]. destruct m; easy. Qed.
Lemma adm_insert_mono m s t : m <> [] -> adm_insert m s t <> [].
Proof. intros _. apply adm_insert_nonempty. Qed.
Lemma adm_begin_In c m : m <> [] -> In (adm_begin c m) m.
Proof. intro H. unfold adm_begin. apply nth_In. apply Nat.mod_upper_bound. destruct m; easy. Qed.
Lemma adm_erase_In m s p : In p (adm_erase m s) <-> In p m /\ verts (fst p) <> verts s.
Proof. unfold adm_erase. rewrite filter_In, negb_true_iff, s_eqb_neq. tauto. Qed.

(** ** coface maps *)
Lemma cof_find_change f m s u : cof_find (cof_change f m s) u =
  if s_eqb s u then Some (f match cof_find m s with Some l => l | None => [] end) else cof_find m u.
Proof.
  induction m as [|[k l] m IH]; cbn [cof_change].
  - unfold cof_find. cbn [find fst]. destruct (s_eqb s u); auto.
  - destruct (s_eqb k s) eqn:E.
    + unfold cof_find. cbn [find fst]. rewrite E. assert (Eu : s_eqb k u = s_eqb s u) by (apply s_eqb_eq in E; unfold s_eqb; rewrite E; auto).
      rewrite Eu. destruct (s_eqb s u); auto.
    + unfold cof_find in *. cbn [find fst]. rewrite E. destruct (s_eqb k u) eqn:Ek; auto.
      destruct (s_eqb s u) eqn:Es; auto. exfalso. apply s_eqb_eq in Ek, Es. apply s_eqb_neq in E. congruence.
Qed.
Lemma cof_find_erase m s u : cof_find (cof_erase m s) u = if s_eqb s u then None else cof_find m u.
Proof.
  unfold cof_find, cof_erase. induction m as [|[k l] m IH]; cbn [filter find fst]; [destruct s_eqb; auto|].
  destruct (s_eqb k s) eqn:E; cbn [negb].
  - rewrite IH. assert (Eu : s_eqb k u = s_eqb s u) by (apply s_eqb_eq in E; unfold s_eqb; rewrite E; auto). rewrite Eu. destruct (s_eqb s u); auto.
  - cbn [find fst]. destruct (s_eqb k u) eqn:Ek; auto. destruct (s_eqb s u) eqn:Es; auto. exfalso. apply s_eqb_eq in Ek, Es. apply s_eqb_neq in E. congruence.
Qed.
Lemma cof_find_verts m u u' : verts u = verts u' -> cof_find m u = cof_find m u'.
Proof.
  intro E. unfold cof_find. f_equal. induction m as [|p m IH]; cbn [find]; auto. replace (s_eqb (fst p) u) with (s_eqb (fst p) u') by (unfold s_eqb; rewrite E; auto). rewrite IH. auto.
Qed.

Lemma sset_insert_verts s l vs : In vs (map verts (sset_insert s l)) <-> vs = verts s \/ In vs (map verts l).
Proof.
  unfold sset_insert. destruct existsb eqn:E.
  - apply existsb_seqb in E. split; auto. intros [->|]; auto.
  - rewrite map_app, in_app_iff. simpl. intuition.
Qed.
Lemma sset_insert_nodup s l : NoDup (map verts l) -> NoDup (map verts (sset_insert s l)).
Proof.
  intro H. unfold sset_insert. destruct existsb eqn:E; auto. rewrite map_app. apply PairingFacts.NoDup_app_intro; auto; [repeat constructor; auto|].
  intros x Hx [<-|[]]. apply existsb_seqb in Hx. congruence.
Qed.
Lemma sset_erase_verts s l vs : In vs (map verts (sset_erase s l)) <-> In vs (map verts l) /\ vs <> verts s.
Proof.
  unfold sset_erase. rewrite !in_map_iff. split.
  - intros (x & <- & Hx). apply filter_In in Hx. rewrite negb_true_iff, s_eqb_neq in Hx. destruct Hx as [Hx N]. split; eauto.
  - intros [(x & <- & Hx) N]. exists x. split; auto. apply filter_In. rewrite negb_true_iff, s_eqb_neq. auto.
Qed.
Lemma sset_erase_nodup s l : NoDup (map verts l) -> NoDup (map verts (sset_erase s l)).
Proof. apply NoDup_map_filter. Qed.

(** the map describes [L] *)
Definition cof_inv (m : coface_map) (L : list simplex) : Prop :=
  (forall u, cof_find m u <> None <-> stored L u) /\
  (forall u l, cof_find m u = Some l -> NoDup (map verts l) /\
     forall vs, In vs (map verts l) <-> exists w, In w L /\ verts w = vs /\ In (verts u) (map verts (boundary w))).

Lemma build_inv K : kwf K -> closed (by_index K) -> cof_inv (buildCofaceMap K) (by_index K).
Proof.
  intros HK Hc.
  assert (G : forall l2 l1 m, (forall u, cof_find m u <> None <-> stored l1 u \/ exists w, In w l1 /\ In (verts u) (map verts (boundary w))) ->
     (forall u l, cof_find m u = Some l -> NoDup (map verts l) /\ forall vs, In vs (map verts l) <-> exists w, In w l1 /\ verts w = vs /\ In (verts u) (map verts (boundary w))) ->
     let m' := fold_left (fun m s =>
       let m := match cof_find m s with None => cof_change (fun _ => []) m s | Some _ => m end in
       fold_left (fun m face => cof_change (sset_insert s) m face) (boundary s) m) l2 m in
     (forall u, cof_find m' u <> None <-> stored (l1 ++ l2) u \/ exists w, In w (l1 ++ l2) /\ In (verts u) (map verts (boundary w))) /\
     (forall u l, cof_find m' u = Some l -> NoDup (map verts l) /\ forall vs, In vs (map verts l) <-> exists w, In w (l1 ++ l2) /\ verts w = vs /\ In (verts u) (map verts (boundary w)))).
  { induction l2 as [|s l2 IH]; intros l1 m H1 H2; cbn [fold_left]; [rewrite app_nil_r; auto|].
    replace (l1 ++ s :: l2) with ((l1 ++ [s]) ++ l2) by (rewrite <- app_assoc; auto).
    set (m0 := match cof_find m s with None => cof_change (fun _ => []) m s | Some _ => m end).
    assert (F0 : forall u, cof_find m0 u = match cof_find m u with Some l => Some l | None => if s_eqb s u then Some [] else None end).
    { intro u. unfold m0. destruct (cof_find m s) as [l|] eqn:E.
      - destruct (cof_find m u) as [lu|] eqn:Eu; auto. destruct (s_eqb s u) eqn:Es; auto. apply s_eqb_eq in Es. rewrite (cof_find_verts m s u Es) in E. congruence.
      - rewrite cof_find_change. destruct (s_eqb s u) eqn:Es; auto; [|destruct (cof_find m u); auto]. apply s_eqb_eq in Es. rewrite <- (cof_find_verts m s u Es), E. auto. }
    assert (F1 : forall fs m1, (forall u l, cof_find m1 u = Some l -> NoDup (map verts l)) ->
       let m2 := fold_left (fun m face => cof_change (sset_insert s) m face) fs m1 in
       (forall u, cof_find m2 u <> None <-> cof_find m1 u <> None \/ In (verts u) (map verts fs)) /\
       (forall u l, cof_find m2 u = Some l -> NoDup (map verts l) /\
          forall vs, In vs (map verts l) <-> (exists l1, cof_find m1 u = Some l1 /\ In vs (map verts l1)) \/ (In (verts u) (map verts fs) /\ vs = verts s))).
    { clear. induction fs as [|f fs IH]; intros m1 N1; cbn [fold_left map].
      - split; [intro u; simpl; tauto|]. intros u l E. split; [eauto|]. intro vs. split; [intro H; left; eauto|]. intros [(l1 & E1 & H)|[[] _]]. congruence.
      - destruct (IH (cof_change (sset_insert s) m1 f)) as [A B].
        + intros u l E. rewrite cof_find_change in E. destruct (s_eqb f u); [|eauto]. injection E as <-. apply sset_insert_nodup.
          destruct (cof_find m1 f) eqn:Ef; [eauto|constructor].
        + split.
          * intro u. rewrite A, cof_find_change. destruct (s_eqb f u) eqn:E.
            -- apply s_eqb_eq in E. split; [intros _; right; left; auto|intros _; left; easy].
            -- apply s_eqb_neq in E. simpl. intuition.
          * intros u l E. destruct (B u l E) as [N V]. split; auto. intro vs. rewrite V, cof_find_change. destruct (s_eqb f u) eqn:Ef.
            -- apply s_eqb_eq in Ef. rewrite (cof_find_verts m1 f u Ef). split.
               ++ intros [(l1 & E1 & H)|[H ->]]; [|right; split; simpl; auto]. injection E1 as <-. apply sset_insert_verts in H. destruct H as [->|H].
                  ** right. split; simpl; auto.
                  ** destruct (cof_find m1 u) as [l1|]; [left; eauto|contradiction].
               ++ intros [(l1 & E1 & H)|[H ->]]; left; eexists; (split; [reflexivity|]); apply sset_insert_verts; auto. rewrite E1. auto.
            -- apply s_eqb_neq in Ef. simpl. split; intros [H|[H ->]]; auto. destruct H as [H|H]; [contradiction|auto]. }
    destruct (F1 (boundary s) m0) as [A B].
    { intros u l E. rewrite F0 in E. destruct (cof_find m u) as [lu|] eqn:Eu; [injection E as <-; apply (H2 u lu Eu)|]. destruct (s_eqb s u); [|discriminate]. injection E as <-. constructor. }
    apply IH.
    - intro u. rewrite A, F0. unfold stored. rewrite map_app, in_app_iff. split.
      + intros [H|H].
        * destruct (cof_find m u) as [l|] eqn:E.
          -- assert (Hm : cof_find m u <> None) by congruence. apply H1 in Hm. destruct Hm as [Hm|(w & Hw & Hm)]; [left; auto|]. right. exists w. split; auto. apply in_or_app; auto.
          -- destruct (s_eqb s u) eqn:Es; [|easy]. apply s_eqb_eq in Es. left. right. simpl. auto.
        * right. exists s. split; auto. apply in_or_app; simpl; auto.
      + assert (Hm : forall P : Prop, cof_find m u <> None -> (match cof_find m u with Some l => Some l | None => if s_eqb s u then Some [] else None end <> None \/ P)).
        { intros P Hm. left. destruct (cof_find m u); easy. }
        intros [[H|[H|[]]]|(w & Hw & H)].
        * apply Hm, H1. left. auto.
        * left. destruct (cof_find m u); [easy|]. apply s_eqb_eq in H. rewrite H. easy.
        * apply in_app_or in Hw. destruct Hw as [Hw|[<-|[]]]; [apply Hm, H1; right; eauto|right; auto].
    - intros u l E. destruct (B u l E) as [N V]. split; auto. intro vs. rewrite V, F0. split.
      + intros [(lu & E1 & H)|[H ->]].
        * destruct (cof_find m u) as [l'|] eqn:Eu.
          -- injection E1 as <-. apply (H2 u l' Eu) in H. destruct H as (w & Hw & H). exists w. split; auto. apply in_or_app; auto.
          -- destruct (s_eqb s u); [|discriminate]. injection E1 as <-. contradiction.
        * exists s. split; auto. apply in_or_app; simpl; auto.
      + intros (w & Hw & Ew & Hb). apply in_app_or in Hw. destruct Hw as [Hw|[<-|[]]]; [|right; auto]. left.
        destruct (cof_find m u) as [l'|] eqn:Eu.
        * exists l'. split; auto. apply (H2 u l' Eu). eauto.
        * exfalso. assert (cof_find m u <> None) by (apply H1; right; eauto). congruence. }
  destruct (G (by_index K) [] []) as [A B].
  - intro u. unfold cof_find, stored. simpl. split; [easy|]. intros [[]|(w & [] & _)].
  - intros u l E. discriminate.
  - cbn [app] in A, B. split; [|exact B]. intro u. unfold buildCofaceMap. rewrite A. split; auto. intros [H|(w & Hw & H)]; auto.
    apply in_map_iff in H. destruct H as (f & Ef & Hf). destruct (kwf_good K HK w Hw) as [Ww _]. destruct (boundary_stored w f Ww Hf) as (Wf & Nf & Ff & _).
    unfold stored. rewrite <- Ef. apply (closed_stored K w f HK Hc); auto. apply in_map; auto.
Qed.

Lemma cof_at_ok m L u : cof_inv m L -> stored L u -> exists l, cof_at m u = Ok l /\ cof_find m u = Some l.
Proof. intros [H _] Hs. apply H in Hs. unfold cof_at. destruct (cof_find m u); [eauto|easy]. Qed.

Lemma single_coface m K s f l : kwf K -> cof_inv m (by_index K) -> cof_find m f = Some l -> wf f -> verts f <> [] -> stored (by_index K) s -> facet f s ->
  ((length l =? 1) && sset_mem s l = true <-> forall u, In u (by_index K) -> facet f u -> verts u = verts s).
Proof.
  intros HK [_ Hm] El Wf Nf Hs Hf. destruct (Hm f l El) as [N V]. unfold sset_mem. rewrite andb_true_iff, Nat.eqb_eq, existsb_seqb.
  assert (V' : forall vs, In vs (map verts l) <-> exists u, In u (by_index K) /\ verts u = vs /\ facet f u).
  { intro vs. rewrite V. split; intros (w & Hw & Ew & H); exists w; (split; [auto|split; [auto|]]); [apply facet_boundary in H|apply facet_boundary]; auto; apply (kwf_good K HK w Hw). }
  split.
  - intros [Hl Hin] u Iu Fu. assert (Hu : In (verts u) (map verts l)) by (apply V'; eauto).
    destruct l as [|a [|]]; simpl in Hl; try lia. simpl in *. destruct Hu as [Hu|[]], Hin as [Hin|[]]; congruence.
  - intro H. assert (Hin : In (verts s) (map verts l)).
    { apply V'. apply stored_In in Hs. destruct Hs as (s' & Is & Es). exists s'. split; auto. split; auto. eapply facet_verts; [reflexivity| |exact Hf]. auto. }
    split; auto. destruct l as [|a [|b l]]; [contradiction|reflexivity|]. exfalso.
    assert (forall x, In x (map verts (a :: b :: l)) -> x = verts s) as Hall by (intros x Hx; apply V' in Hx; destruct Hx as (u & Iu & <- & Fu); auto).
    simpl in N. inversion N as [|? ? N1 N2]; subst. apply N1. left. rewrite (Hall (verts a)), (Hall (verts b)); simpl; auto.
Qed.

Lemma freeface_ok m K s : kwf K -> closed (by_index K) -> cof_inv m (by_index K) -> stored (by_index K) s ->
  exists f, getFreeFace m s = Ok f /\
    ((s_empty f = true /\ forall t, ~ adm_ok (by_index K) s t) \/ (s_empty f = false /\ adm_ok (by_index K) s f)).
Proof.
  intros HK Hc Hm Hs. destruct (stored_good K s HK Hs) as [Ws Ns]. unfold getFreeFace, isPrincipal.
  destruct (cof_at_ok m _ s Hm Hs) as (l & -> & El). cbn [bind]. destruct l as [|c l]; cbn [negb].
  - assert (G : forall fs, (forall f, In f fs -> In f (boundary s)) ->
      exists f, firstFreeFace m s fs = Ok f /\ ((s_empty f = true /\ forall t, In (verts t) (map verts fs) -> ~ adm_ok (by_index K) s t) \/ (s_empty f = false /\ adm_ok (by_index K) s f))).
    { induction fs as [|f fs IH]; intro Hfs; cbn [firstFreeFace].
      - exists simplex_empty. split; [reflexivity|]. left. split; [reflexivity|]. intros t [].
      - destruct (boundary_stored s f Ws (Hfs f (or_introl eq_refl))) as (Wf & Nf & Ff).
        assert (Hf : stored (by_index K) f) by (apply (closed_stored K s); auto; apply Ff).
        destruct (cof_at_ok m _ f Hm Hf) as (lf & -> & Ef). cbn [bind].
        pose proof (single_coface m K s f lf HK Hm Ef Wf Nf Hs Ff) as SC. destruct ((length lf =? 1) && sset_mem s lf) eqn:E.
        + exists f. split; auto. right. split; [unfold s_empty; destruct (verts f); easy|]. refine (conj Hs (conj Hf (conj Ff _))). apply SC; auto.
        + destruct IH as (g & Eg & Hg); [intros; apply Hfs; simpl; auto|]. exists g. split; auto. destruct Hg as [[Hg1 Hg2]|Hg]; auto. left. split; auto.
          intros t [Et|Ht]; auto. intros (_ & _ & _ & Hu). assert (false = true); [|discriminate]. apply SC. intros u Iu Fu. apply Hu; auto. eapply facet_verts; [exact Et|reflexivity|auto]. }
    destruct (G (boundary s) ltac:(auto)) as (f & Ef & Hf). exists f. split; auto. destruct Hf as [[H1 H2]|Hf]; auto. left. split; auto.
    intros t Ht. pose proof Ht as (_ & St & Ft & _). destruct (stored_good K t HK St) as [Wt Nt]. apply (H2 t); auto. apply facet_boundary; auto.
  - exists simplex_empty. split; auto. left. split; auto. intros t Ht. destruct Hm as [_ Hm]. destruct (Hm s _ El) as [_ V].
    destruct (proj1 (V (verts c)) (or_introl eq_refl)) as (w & Iw & Ew & Hb). destruct (kwf_good K HK w Iw) as [Ww _]. apply facet_boundary in Hb; auto.
    pose proof Ht as (_ & _ & [F1 L1] & _). destruct Hb as [F2 L2]. destruct (adm_ok_coface K s t w HK Hc Ht Iw) as [E|E].
    + intros x Hx. auto.
    + rewrite E in L2. lia.
    + rewrite E in L2. lia.
Qed.

Definition adm_inv (a : admissible_map) (L : list simplex) : Prop :=
  NoDup (map (fun p => verts (fst p)) a) /\ forall s t, In (s, t) a -> adm_ok L s t.

Lemma adm_insert_inv a L s t : adm_inv a L -> adm_ok L s t -> adm_inv (adm_insert a s t) L.
Proof.
  intros [H1 H2] H. split; [apply adm_insert_keys; auto|]. intros s' t' Hin. apply adm_insert_In in Hin. destruct Hin as [Hin|E]; auto. injection E as -> ->. auto.
Qed.

Lemma addAdmissible_ok m K a s : kwf K -> closed (by_index K) -> cof_inv m (by_index K) -> stored (by_index K) s -> adm_inv a (by_index K) ->
  exists a', addAdmissible m a s = Ok a' /\ adm_inv a' (by_index K) /\ (a' = [] -> a = [] /\ forall t, ~ adm_ok (by_index K) s t).
Proof.
  intros HK Hc Hm Hs Ha. unfold addAdmissible. destruct (freeface_ok m K s HK Hc Hm Hs) as (f & -> & Hf). cbn [bind].
  destruct Hf as [[E H]|[E H]]; rewrite E; eexists; (split; [reflexivity|]).
  - split; auto.
  - split; [apply adm_insert_inv; auto|]. intro E'. apply adm_insert_nonempty in E'. contradiction.
Qed.

Lemma addAll_ok m K l : kwf K -> closed (by_index K) -> cof_inv m (by_index K) -> (forall s, In s l -> stored (by_index K) s) ->
  forall a, adm_inv a (by_index K) ->
  exists a', foldM (addAdmissible m) l a = Ok a' /\ adm_inv a' (by_index K) /\ (a' = [] -> a = [] /\ forall s t, In s l -> ~ adm_ok (by_index K) s t).
Proof.
  intros HK Hc Hm. induction l as [|s l IH]; intros Hl a Ha; cbn [foldM].
  - exists a. refine (conj eq_refl (conj Ha (fun E => conj E _))). intros s t [].
  - destruct (addAdmissible_ok m K a s HK Hc Hm (Hl s (or_introl eq_refl)) Ha) as (a1 & -> & H1 & N1). cbn [bind].
    destruct (IH (fun s H => Hl s (or_intror H)) a1 H1) as (a2 & E & H2 & N2). exists a2. split; auto. split; auto. intro E2.
    destruct (N2 E2) as [E1 N3]. destruct (N1 E1) as [E0 N4]. split; auto. intros s' t [<-|Hin]; auto.
Qed.

Lemma principal_ok m K : kwf K -> closed (by_index K) -> cof_inv m (by_index K) ->
  exists a, getPrincipalFaces m K = Ok a /\ adm_inv a (by_index K) /\ (a = [] -> forall s t, ~ adm_ok (by_index K) s t).
Proof.
  intros HK Hc Hm. destruct (addAll_ok m K (by_index K) HK Hc Hm) with (a := @nil (simplex * simplex)) as (a & E & H & N).
  - intros s Hs. apply in_map; auto.
  - split; [constructor|]. intros s t [].
  - exists a. split; auto. split; auto. intros Ea s t Hst. destruct (N Ea) as [_ N']. pose proof Hst as (Hs & Ht & Hf & Hu).
    apply stored_In in Hs. destruct Hs as (s' & Is & Es). apply (N' s' t Is). unfold adm_ok, stored. rewrite Es. unfold stored in *.
    refine (conj (proj1 Hst) (conj Ht (conj _ Hu))). eapply facet_verts; [reflexivity| |exact Hf]. auto.
Qed.

Lemma removeSimplices_ok s t fs : forall m, (forall f, In f fs -> cof_find m f <> None) ->
  exists m', foldM (removeSimplices s t) fs m = Ok m' /\
    (forall u, cof_find m' u <> None <-> cof_find m u <> None) /\
    (forall u l', cof_find m' u = Some l' -> exists l, cof_find m u = Some l /\ (NoDup (map verts l) -> NoDup (map verts l')) /\
       forall vs, In vs (map verts l') <-> In vs (map verts l) /\ ~ (In (verts u) (map verts fs) /\ (vs = verts s \/ vs = verts t))).
Proof.
  induction fs as [|f fs IH]; intros m Hk; cbn [foldM].
  - exists m. split; auto. split; [tauto|]. intros u l E. exists l. split; auto. split; auto. intro vs. simpl. tauto.
  - unfold removeSimplices at 1, cof_at. destruct (cof_find m f) as [lf|] eqn:Ef; [|exfalso; apply (Hk f); simpl; auto]. cbn [bind].
    set (m1 := cof_change (sset_erase t) (cof_change (sset_erase s) m f) f).
    assert (F : forall u, cof_find m1 u = if s_eqb f u then Some (sset_erase t (sset_erase s lf)) else cof_find m u).
    { intro u. unfold m1. rewrite !cof_find_change, s_eqb_refl, Ef. destruct (s_eqb f u); auto. }
    destruct (IH m1) as (m' & E & A & B).
    { intros g Hg. rewrite F. destruct (s_eqb f g); [easy|apply Hk; simpl; auto]. }
    exists m'. split; auto. split.
    + intro u. rewrite A, F. destruct (s_eqb f u) eqn:Eu; [|tauto]. apply s_eqb_eq in Eu. rewrite <- (cof_find_verts m f u Eu), Ef. split; easy.
    + intros u l' E'. destruct (B u l' E') as (l & El & Nl & Vl). rewrite F in El. destruct (s_eqb f u) eqn:Eu.
      * injection El as <-. apply s_eqb_eq in Eu. exists lf. split; [rewrite <- (cof_find_verts m f u Eu); auto|]. split; [intro N; apply Nl; do 2 apply sset_erase_nodup; auto|].
        intro vs. rewrite Vl, !sset_erase_verts. rewrite <- Eu. simpl. tauto.
      * apply s_eqb_neq in Eu. exists l. split; auto. split; auto. intro vs. rewrite Vl. simpl. tauto.
Qed.

Lemma removal_inv m K s t m1 m2 : kwf K -> closed (by_index K) -> cof_inv m (by_index K) -> adm_ok (by_index K) s t ->
  foldM (removeSimplices s t) (boundary s) m = Ok m1 -> foldM (removeSimplices s t) (boundary t) m1 = Ok m2 ->
  cof_inv (cof_erase (cof_erase m2 s) t) (by_index (without K s t)).
Proof.
  intros HK Hc Hm H E1 E2. pose proof H as (Hs & Ht & Hf & Hu). destruct (stored_good K s HK Hs) as [Ws Ns]. destruct (stored_good K t HK Ht) as [Wt Nt].
  assert (Hb : forall x f, stored (by_index K) x -> In f (boundary x) -> cof_find m f <> None).
  { intros x f Hx Hf'. destruct (stored_good K x HK Hx) as [Wx _]. apply Hm. destruct (boundary_stored x f Wx Hf') as (Wf & Nf & Ff & _). apply (closed_stored K x); auto. }
  destruct (removeSimplices_ok s t (boundary s) m) as (m1' & E1' & A1 & B1); [intros f Hf'; apply (Hb s f Hs Hf')|]. rewrite E1 in E1'. injection E1' as <-.
  destruct (removeSimplices_ok s t (boundary t) m1) as (m2' & E2' & A2 & B2); [intros f Hf'; apply A1, (Hb t f Ht Hf')|]. rewrite E2 in E2'. injection E2' as <-.
  assert (F : forall u, cof_find (cof_erase (cof_erase m2 s) t) u = if s_eqb t u || s_eqb s u then None else cof_find m2 u).
  { intro u. rewrite !cof_find_erase. destruct (s_eqb t u), (s_eqb s u); auto. }
  split.
  - intro u. rewrite F, without_stored. destruct (s_eqb t u) eqn:Et; [|destruct (s_eqb s u) eqn:Es]; cbn [orb].
    + apply s_eqb_eq in Et. split; [easy|]. intros (_ & _ & N). congruence.
    + apply s_eqb_eq in Es. split; [easy|]. intros (_ & N & _). congruence.
    + apply s_eqb_neq in Et, Es. rewrite A2, A1. destruct Hm as [Hm _]. rewrite Hm. intuition.
  - intros u l E. rewrite F in E. destruct (s_eqb t u || s_eqb s u); [discriminate|].
    destruct (B2 u l E) as (l1 & El1 & N1 & V1). destruct (B1 u l1 El1) as (l0 & El0 & N0 & V0). destruct Hm as [_ Hm]. destruct (Hm u l0 El0) as [N V].
    split; auto. intro vs. rewrite V1, V0, V. split.
    + intros (((w & Iw & <- & Bw) & X1) & X2). exists w. split; auto. apply without_In. split; auto.
      split; intro Evs; [apply X1|apply X2]; (split; [|auto]); unfold boundary, boundary_face, s_size in *; rewrite <- Evs; auto.
    + intros (w & Iw & Ew & Bw). apply without_In in Iw. destruct Iw as (Iw & M1 & M2). rewrite Ew in *. split; [split|]; [eauto| |]; intros [_ [|]]; auto.
Qed.

Lemma addFaces_ok m K t fs : kwf K -> closed (by_index K) -> cof_inv m (by_index K) ->
  (forall f, In f fs -> verts t <> verts f -> stored (by_index K) f) -> forall a, adm_inv a (by_index K) ->
  exists a', foldM (fun a face => if negb (s_eqb t face) then addAdmissible m a face else Ok a) fs a = Ok a' /\ adm_inv a' (by_index K).
Proof.
  intros HK Hc Hm. induction fs as [|f fs IH]; intros Hfs a Ha; cbn [foldM]; [eauto|].
  destruct (s_eqb t f) eqn:E; cbn [negb bind].
  - apply IH; auto. intros; apply Hfs; simpl; auto.
  - apply s_eqb_neq in E. destruct (addAdmissible_ok m K a f HK Hc Hm (Hfs f (or_introl eq_refl) E) Ha) as (a1 & -> & H1 & _). cbn [bind].
    apply IH; auto. intros; apply Hfs; simpl; auto.
Qed.

Lemma spine_step_ok K m a s t : kwf K -> closed (by_index K) -> cof_inv m (by_index K) -> adm_inv a (by_index K) -> In (s, t) a ->
  exists m' a', spine_step K m a s t = Ok (without K s t, m', a') /\ cof_inv m' (by_index (without K s t)) /\ adm_inv a' (by_index (without K s t)) /\
    (a' = [] -> forall s0 t0, ~ adm_ok (by_index (without K s t)) s0 t0).
Proof.
  intros HK Hc Hm Ha Hin. pose proof Ha as [Nk Hok]. pose proof (Hok s t Hin) as H. pose proof H as (Hs & Ht & Hf & Hu).
  destruct (stored_good K s HK Hs) as [Ws Ns]. destruct (stored_good K t HK Ht) as [Wt Nt].
  destruct (collapse_step K s t HK Hc H) as (HK' & Hc' & _ & _). unfold spine_step. fold (without K s t).
  assert (Hb : forall x f, stored (by_index K) x -> In f (boundary x) -> stored (by_index K) f /\ facet f x).
  { intros x f Hx Hf'. destruct (stored_good K x HK Hx) as [Wx _]. destruct (boundary_stored x f Wx Hf') as (Wf & Nf & Ff). split; auto. apply (closed_stored K x); auto. apply Ff. }
  destruct (removeSimplices_ok s t (boundary s) m) as (m1 & E1 & A1 & _); [intros f Hf'; apply Hm, (Hb s f Hs Hf')|]. rewrite E1. cbn [bind].
  destruct (removeSimplices_ok s t (boundary t) m1) as (m2 & E2 & A2 & _); [intros f Hf'; apply A1, Hm, (Hb t f Ht Hf')|]. rewrite E2. cbn [bind].
  pose proof (removal_inv m K s t m1 m2 HK Hc Hm H E1 E2) as Hm'. set (m' := cof_erase (cof_erase m2 s) t) in *.
  assert (Ha0 : adm_inv (adm_erase a s) (by_index (without K s t))).
  { split; [apply NoDup_map_filter; auto|]. intros s2 t2 H2. apply adm_erase_In in H2. destruct H2 as [H2 N2]. apply adm_ok_other; auto. }
  destruct (addFaces_ok m' _ t (boundary s) HK' Hc' Hm') with (a := adm_erase a s) as (a1 & -> & Ha1); auto.
  { intros f Hf' N. destruct (Hb s f Hs Hf') as [Sf Ff]. apply without_stored. split; auto. split; auto. apply facet_neq. auto. }
  cbn [bind]. destruct (addAll_ok m' _ (boundary t) HK' Hc' Hm') with (a := a1) as (a2 & -> & Ha2 & _); auto.
  { intros f Hf'. destruct (Hb t f Ht Hf') as [Sf Ff]. apply without_stored. split; auto. split.
    - intro E. destruct Hf as [_ L1]. destruct Ff as [_ L2]. rewrite E in L2. lia.
    - apply facet_neq; auto. }
  cbn [bind]. destruct a2 as [|p a2].
  - destruct (principal_ok m' _ HK' Hc' Hm') as (a3 & -> & Ha3 & N3). cbn [bind]. exists m', a3. auto.
  - cbn [bind]. exists m', (p :: a2). refine (conj eq_refl (conj Hm' (conj Ha2 _))). discriminate.
Qed.

Lemma spine_loop_ok pick : forall fuel step K m a, kwf K -> closed (by_index K) -> cof_inv m (by_index K) -> adm_inv a (by_index K) ->
  (a = [] -> forall s t, ~ adm_ok (by_index K) s t) -> length (by_index K) <= fuel ->
  exists L, spine_loop pick fuel step K m a = Ok L /\ kwf L /\ closed (by_index L) /\ collapses (by_index K) (by_index L) /\ (forall s t, ~ adm_ok (by_index L) s t) /\ (reachable K -> reachable L).
Proof.
  induction fuel as [|fuel IH]; intros step K m a HK Hc Hm Ha Hn Hl; destruct a as [|p a]; cbn [spine_loop];
    try (exists K; refine (conj eq_refl (conj HK (conj Hc (conj (rt1n_refl _ _ _) (conj (Hn eq_refl) (fun H => H)))))); fail).
  - exfalso. destruct p as [s t]. destruct Ha as [_ Ha]. destruct (Ha s t (or_introl eq_refl)) as (Hs & _). unfold stored in Hs. destruct (by_index K); [contradiction|simpl in Hl; lia].
  - destruct (adm_begin (pick step) (p :: a)) as [s t] eqn:Eb. assert (Hin : In (s, t) (p :: a)) by (rewrite <- Eb; apply adm_begin_In; easy).
    destruct (spine_step_ok K m (p :: a) s t HK Hc Hm Ha Hin) as (m' & a' & -> & Hm' & Ha' & Hn'). cbn [bind].
    destruct (collapse_step K s t HK Hc (proj2 Ha s t Hin)) as (HK' & Hc' & Hstep & Hlen).
    destruct (IH (S step) (without K s t) m' a' HK' Hc' Hm' Ha' Hn') as (L & E & W & C & Co & N & R); [lia|]. exists L. refine (conj E (conj W (conj C (conj _ (conj N _))))); [eapply Relation_Operators.rt1n_trans; eauto|].
    intro HR. apply R, without_reachable; auto; apply (stored_good K); auto; apply (proj2 Ha s t Hin).
Qed.

(** ** the simple implementation *)
Lemma common_In s t v : In v (common_vertices s t) <-> In v (verts s) /\ In v (verts t).
Proof.
  unfold common_vertices. rewrite filter_In, mem_In, !set_range_In. simpl. tauto.
Qed.
Lemma intersect_face f t : wf f -> (s_eqb (s_intersect f t) f = true <-> subset (verts f) (verts t)).
Proof.
  intro Wf. rewrite s_eqb_eq. unfold s_intersect. split.
  - intros E v Hv. rewrite <- E, simplex_of_In, common_In in Hv. tauto.
  - intro H. apply wf_ext; auto; [apply simplex_of_wf|]. intro v. rewrite simplex_of_In, common_In. split; [tauto|auto].
Qed.
Lemma size_intersection f t : wf f -> (sizeOfIntersection f t = s_size f <-> subset (verts f) (verts t)).
Proof.
  intro Wf. unfold sizeOfIntersection, s_size.
  assert (Nc : NoDup (common_vertices f t)) by (apply NoDup_filter, SSlt_NoDup, set_range_sorted; constructor).
  split.
  - intros E v Hv. assert (Hi : incl (common_vertices f t) (verts f)) by (intros x Hx; apply common_In in Hx; tauto).
    apply (NoDup_length_incl Nc) in Hi; [|lia]. apply Hi, common_In in Hv. tauto.
  - intro H. apply NoDup_same_length; auto; [apply SSgt_NoDup; auto|]. intro v. rewrite common_In. split; [tauto|auto].
Qed.

Lemma dumb_free_ok K s : kwf K -> closed (by_index K) -> In s (by_index K) ->
  match dumb_freeFace K s with Some f => adm_ok (by_index K) s f | None => forall t, ~ adm_ok (by_index K) s t end.
Proof.
  intros HK Hc Hs. destruct (kwf_good K HK s Hs) as [Ws Ns]. unfold dumb_freeFace.
  assert (G : forall f, In f (boundary s) -> (negb (existsb (fun t => (sdim f + 1 =? sdim t) && negb (s_eqb t s) && s_eqb (s_intersect f t) f) (by_index K)) = true <-> adm_ok (by_index K) s f)).
  { intros f Hf. destruct (boundary_stored s f Ws Hf) as (Wf & Nf & Ff). rewrite negb_true_iff, <- not_true_iff_false, existsb_exists. split.
    - intro H. refine (conj (in_map verts _ _ Hs) (conj _ (conj Ff _))); [apply (closed_stored K s); auto; [apply in_map; auto|apply Ff]|].
      intros u Iu [F1 F2]. destruct (s_eqb u s) eqn:E; [apply s_eqb_eq; auto|]. exfalso. apply H. exists u. split; auto. rewrite E. cbn [negb].
      rewrite (proj2 (intersect_face f u Wf) F1), andb_true_r, andb_true_r. apply Nat.eqb_eq. unfold sdim. destruct (verts f); [easy|simpl in *; lia].
    - intros (_ & _ & _ & Hu) (u & Iu & E). apply andb_true_iff in E. destruct E as [E E3]. apply andb_true_iff in E. destruct E as [E1 E2].
      apply negb_true_iff, s_eqb_neq in E2. apply E2, Hu; auto. split; [apply intersect_face; auto|].
      apply Nat.eqb_eq in E1. unfold sdim in E1. destruct (kwf_good K HK u Iu) as [_ Nu]. destruct (verts f); [easy|]. destruct (verts u); [easy|]. simpl in *. lia. }
  destruct (find _ (boundary s)) as [f|] eqn:E.
  - apply find_some in E. destruct E as [Hf E]. apply G; auto.
  - intros t Ht. pose proof Ht as (_ & St & Ft & _). destruct (stored_good K t HK St) as [Wt Nt]. apply facet_boundary in Ft; auto. apply in_map_iff in Ft. destruct Ft as (f & Ef & Hf).
    pose proof (find_none _ _ E f Hf) as N. cbn beta in N. rewrite (proj2 (G f Hf)) in N; [discriminate|]. unfold adm_ok, stored in *. rewrite Ef.
    destruct Ht as (T1 & T2 & T3 & T4). refine (conj T1 (conj T2 (conj _ _))); [eapply facet_verts; [| |exact T3]; auto|]. intros u Iu Fu. apply T4; auto. eapply facet_verts; [| |exact Fu]; auto.
Qed.

Lemma dumb_principal_ok K : kwf K -> closed (by_index K) ->
  (forall s t, In (s, t) (dumb_principalFaces K) -> adm_ok (by_index K) s t) /\ (dumb_principalFaces K = [] -> forall s t, ~ adm_ok (by_index K) s t).
Proof.
  intros HK Hc. unfold dumb_principalFaces.
  set (step := fun m s => if sdim s =? 0 then m else match dumb_freeFace K s with Some face => adm_insert m s face | None => m end).
  assert (Hkey : forall m s t k, In k (map (fun p => verts (fst p)) m) -> In k (map (fun p => verts (fst p)) (adm_insert m s t))).
  { intros m s t k H. unfold adm_insert. destruct existsb; auto. rewrite map_app. apply in_or_app. auto. }
  assert (G : forall l m, (forall s, In s l -> In s (by_index K)) -> (forall s t, In (s, t) m -> adm_ok (by_index K) s t) ->
    (forall s t, In (s, t) (fold_left step l m) -> adm_ok (by_index K) s t) /\
    (forall k, In k (map (fun p => verts (fst p)) m) -> In k (map (fun p => verts (fst p)) (fold_left step l m))) /\
    (forall s t, In s l -> adm_ok (by_index K) s t -> In (verts s) (map (fun p => verts (fst p)) (fold_left step l m)))).
  { induction l as [|s l IH]; intros m Hl Hm; cbn [fold_left]; [split; [auto|split; [auto|intros s t []]]|].
    pose proof (dumb_free_ok K s HK Hc (Hl s (or_introl eq_refl))) as Hfree.
    assert (Hstep : (forall s' t, In (s', t) (step m s) -> adm_ok (by_index K) s' t) /\ (forall k, In k (map (fun p => verts (fst p)) m) -> In k (map (fun p => verts (fst p)) (step m s))) /\
       forall t, adm_ok (by_index K) s t -> In (verts s) (map (fun p => verts (fst p)) (step m s))).
    { unfold step. destruct (Nat.eqb_spec (sdim s) 0) as [E|E].
      - split; [auto|split; auto]. intros t (_ & St & [_ Lt] & _). destruct (stored_good K t HK St) as [_ Nt]. unfold sdim in E. destruct (verts t); [easy|]. simpl in Lt. lia.
      - destruct (dumb_freeFace K s) as [f|].
        + split; [|split].
          * intros s' t Hin. apply adm_insert_In in Hin. destruct Hin as [Hin|Ein]; auto. injection Ein as -> ->. auto.
          * auto.
          * intros t _. unfold adm_insert. destruct existsb eqn:Ex; [|rewrite map_app; apply in_or_app; right; left; reflexivity].
            apply existsb_exists in Ex. destruct Ex as (p & Hp & Ep). apply s_eqb_eq in Ep. apply in_map_iff. eauto.
        + split; [auto|split; auto]. intros t Ht. exfalso. apply (Hfree t Ht). }
    destruct Hstep as (S1 & S2 & S3). destruct (IH (step m s) (fun s H => Hl s (or_intror H)) S1) as (A & B & C). split; auto. split; [intros k Hk; apply B, S2; auto|].
    intros s' t [<-|Hs'] Ht; eauto. }
  destruct (G (by_index K) []) as (A & _ & C); [auto|intros s t []|]. fold step. set (m := fold_left step (by_index K) []) in *.
  assert (G2 : forall l m, (forall p, In p (fold_left (fun m s => fold_left adm_erase (boundary s) m) l m) <-> In p m /\ forall w, In w l -> ~ In (verts (fst p)) (map verts (boundary w)))).
  { clear. assert (G : forall fs m p, In p (fold_left adm_erase fs m) <-> In p m /\ ~ In (verts (fst p)) (map verts fs)).
    { induction fs as [|f fs IH]; intros m p; cbn [fold_left map]; [simpl; tauto|]. rewrite IH, adm_erase_In. simpl. intuition. }
    induction l as [|s l IH]; intros m p; cbn [fold_left]; [split; [intro; split; auto; intros w []|tauto]|]. rewrite IH, G. split.
    - intros [[H1 H2] H3]. split; auto. intros w [<-|Hw]; auto.
    - intros [H1 H2]. split; [split; auto|]; [apply (H2 s); simpl; auto|intros w Hw; apply H2; simpl; auto]. }
  split.
  - intros s t H. apply G2 in H. apply A. apply H.
  - intros E s t Hst. pose proof Hst as (Hs & St & [F1 L1] & Hu). destruct (stored_In K s Hs) as (s' & Is & Es).
    assert (Hst' : adm_ok (by_index K) s' t).
    { unfold adm_ok, stored in *. rewrite Es. refine (conj Hs (conj St (conj _ Hu))). split; rewrite Es; auto. }
    specialize (C s' t Is Hst'). apply in_map_iff in C. destruct C as (p & Ep & Hp).
    assert (Hin : In p (fold_left (fun m s => fold_left adm_erase (boundary s) m) (by_index K) m)); [|rewrite E in Hin; contradiction].
    apply G2. split; auto. intros w Iw Hw. rewrite Ep, Es in Hw. destruct (kwf_good K HK w Iw) as [Ww _]. destruct (stored_good K s HK Hs) as [Ws Ns]. apply facet_boundary in Hw; auto.
    destruct Hw as [F2 L2]. destruct (adm_ok_coface K s t w HK Hc Hst Iw) as [E'|E']; [intros x Hx; auto| |]; rewrite E' in L2; lia.
Qed.

Lemma dumb_loop_ok pick : forall fuel step K, kwf K -> closed (by_index K) -> length (by_index K) <= fuel ->
  exists L, dumb_loop pick fuel step K (dumb_principalFaces K) = Ok L /\ kwf L /\ closed (by_index L) /\ collapses (by_index K) (by_index L) /\ (forall s t, ~ adm_ok (by_index L) s t) /\ (reachable K -> reachable L).
Proof.
  induction fuel as [|fuel IH]; intros step K HK Hc Hl; destruct (dumb_principal_ok K HK Hc) as [A B]; destruct (dumb_principalFaces K) as [|p a]; cbn [dumb_loop];
    try (exists K; refine (conj eq_refl (conj HK (conj Hc (conj (rt1n_refl _ _ _) (conj (B eq_refl) (fun H => H)))))); fail).
  - exfalso. destruct p as [s t]. destruct (A s t (or_introl eq_refl)) as (Hs & _). unfold stored in Hs. destruct (by_index K); [contradiction|simpl in Hl; lia].
  - destruct (adm_begin (pick step) (p :: a)) as [s t] eqn:Eb. assert (Hin : In (s, t) (p :: a)) by (rewrite <- Eb; apply adm_begin_In; easy).
    fold (without K s t). destruct (collapse_step K s t HK Hc (A s t Hin)) as (HK' & Hc' & Hstep & Hlen).
    destruct (IH (S step) (without K s t) HK' Hc') as (L & E & W & C & Co & N & R); [lia|]. exists L. refine (conj E (conj W (conj C (conj _ (conj N _))))); [eapply Relation_Operators.rt1n_trans; eauto|].
    intro HR. apply R, without_reachable; auto; apply (stored_good K); auto; apply (A s t Hin).
Qed.
