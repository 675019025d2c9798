(** * C30: cones and suspensions. *)
From Coq Require Import List Arith Bool ZArith Lia Permutation Sorted.
From Verif Require Import Base BaseFacts Simplex SimplexFacts SpecComplex Complex ComplexFacts ClosureFacts
  History Subcomplex SubcomplexFacts PropertiesComplex PropertiesSmall Quotient.
Import ListNotations.

Lemma insert_new l K : kwf K -> (forall s, In s l -> good s) -> NoDup (map verts (by_index K ++ l)) ->
  exists K', k_insert K l = (K', Ok tt) /\ kwf K' /\ by_index K' = by_index K ++ l.
Proof.
  revert K. induction l as [|s l IH]; intros K HK Hg Hn.
  - exists K. rewrite app_nil_r. auto.
  - destruct (push_back_new K s HK) as [E HK'].
    + apply Hg; simpl; auto.
    + apply contains_false. rewrite map_app in Hn. simpl in Hn. apply NoDup_remove_2 in Hn. intro H. apply Hn. apply in_or_app; auto.
    + cbn [k_insert]. rewrite E. destruct (IH _ HK') as (K' & E' & H1 & H2).
      * intros; apply Hg; simpl; auto.
      * cbn [by_index]. rewrite <- app_assoc. auto.
      * exists K'. refine (conj E' (conj H1 _)). rewrite H2. cbn [by_index]. rewrite <- app_assoc. auto.
Qed.

Lemma insert_reachable K l : reachable K -> (forall s, In s l -> wf s) -> reachable (fst (k_insert K l)).
Proof.
  intros (a & b & h & ->) Hw. exists a, b, (h ++ [InsertRange (map (fun s => (verts s, data s)) l)]).
  unfold k_run. rewrite fold_left_app. cbn [fold_left k_exec]. rewrite map_map. cbn [fst snd].
  assert (El : map (fun s => simplex_of (verts s) (data s)) l = l).
  { rewrite <- (map_id l) at 2. apply map_ext_in. intros s Hs. pose proof (simplex_of_id s (data s) (Hw s Hs)) as Hv.
    destruct s as [vs d]. unfold simplex_of in *. cbn [verts data] in *. rewrite Hv. auto. }
  rewrite El. reflexivity.
Qed.

Lemma last_opt_largest l v : StronglySorted lt l -> last_opt l = Some v -> In v l /\ forall u, In u l -> u <= v.
Proof.
  induction l as [|a l IH]; intros H E; [discriminate|]. inversion H as [|? ? H1 F]; subst. destruct l as [|b l].
  - injection E as ->. simpl. split; auto. intros u [->|[]]; auto.
  - destruct (IH H1 E) as [A B]. split; [simpl; auto|]. intros u [<-|Hu]; auto. rewrite Forall_forall in F.
    specialize (F b ltac:(simpl; auto)). specialize (B b ltac:(simpl; auto)). lia.
Qed.

Lemma last_opt_none {A} (l : list A) : last_opt l = None -> l = [].
Proof. induction l as [|a l IH]; auto. intro E. destruct l; [discriminate|]. specialize (IH E). discriminate. Qed.

(** the largest vertex of a closed complex *)
Lemma closed_top K : reachable K -> closed (by_index K) -> by_index K <> [] ->
  exists v, last_opt (k_vertices K) = Some v /\ has (by_index K) [v] /\ forall s u, In s (by_index K) -> In u (verts s) -> u <= v.
Proof.
  intros HR HC Hne. pose proof (reachable_kwf K HR) as HK. destruct (vertices_spec K HK) as [HS HV].
  assert (Hin : forall s u, In s (by_index K) -> In u (verts s) -> In u (k_vertices K)).
  { intros s u Hs Hu. destruct (HC s [u]) as (t & Ht & Et); auto; [discriminate|intros z [<-|[]]; auto|].
    apply HV. exists t. split; auto. destruct (kwf_good K HK t Ht) as [Hw _].
    change [u] with (verts (Simplex [u] 0)). apply wf_ext; auto. repeat constructor. }
  destruct (last_opt (k_vertices K)) as [v|] eqn:E.
  - exists v. destruct (last_opt_largest _ v HS E) as [A B]. refine (conj eq_refl (conj _ _)).
    + apply HV in A. destruct A as (s & Hs & Es). exists s. split; auto. rewrite Es. intro; tauto.
    + intros s u Hs Hu. apply B. eauto.
  - exfalso. destruct (by_index K) as [|s l] eqn:El; [easy|]. destruct (kwf_good K HK s) as [_ Hn]; [rewrite El; simpl; auto|].
    destruct (verts s) as [|u r] eqn:Es; [easy|]. apply last_opt_none in E.
    specialize (Hin s u ltac:(simpl; auto) ltac:(rewrite Es; simpl; auto)). rewrite E in Hin. contradiction.
Qed.

Lemma join_verts f c s : wf s -> (forall u, In u (verts s) -> u < c) -> verts (join_vertex f c s) = c :: verts s.
Proof.
  intros Hw Hc. assert (Hw' : wf (Simplex (c :: verts s) 0)).
  { unfold wf. cbn [verts]. constructor; auto. apply Forall_forall. intros u Hu. specialize (Hc u Hu). lia. }
  change (c :: verts s) with (verts (Simplex (c :: verts s) 0)). apply wf_ext; auto; [apply simplex_of_wf|].
  intro v. unfold join_vertex. rewrite simplex_of_In, in_app_iff. simpl. tauto.
Qed.

Lemma chi_cons s l : chi (s :: l) = (sign (length (verts s) - 1) + chi l)%Z.
Proof. reflexivity. Qed.

Lemma chi_app l m : chi (l ++ m) = (chi l + chi m)%Z.
Proof. induction l as [|s l IH]; simpl; auto. fold (chi (l ++ m)). fold (chi l). rewrite IH. lia. Qed.

Lemma sign_next (vs : list nat) : vs <> [] -> sign (length vs) = (- sign (length vs - 1))%Z.
Proof. destruct vs as [|v vs]; [easy|]. intros _. simpl length. replace (S (length vs) - 1) with (length vs) by lia. rewrite sign_S. lia. Qed.

Lemma chi_join f c l : (forall s, In s l -> verts s <> [] /\ verts (join_vertex f c s) = c :: verts s) ->
  chi (map (join_vertex f c) l) = (- chi l)%Z.
Proof.
  induction l as [|s l IH]; intro H; [reflexivity|]. cbn [map chi fold_right]. fold (chi (map (join_vertex f c) l)). fold (chi l).
  rewrite IH by (intros; apply H; simpl; auto). destruct (H s ltac:(simpl; auto)) as [H1 H2]. rewrite H2. cbn [length].
  replace (S (length (verts s)) - 1) with (length (verts s)) by lia. rewrite sign_next by auto. lia.
Qed.

(** [L] arises from the closed complex [K] by joining its simplices with the
    new vertices [cs], which are not joined to each other. *)
Definition joined_with (K L : list simplex) (cs : list nat) : Prop :=
  (forall c, In c cs -> ~ exists s, In s K /\ In c (verts s)) /\
  forall vs, has L vs <-> has K vs \/ (exists c, In c cs /\ set_eq vs [c]) \/
                          (exists c us, In c cs /\ has K us /\ set_eq vs (c :: us)).

Lemma join_closed f K L cs : kwf K -> kwf L -> closed (by_index K) ->
  (forall c s u, In c cs -> In s (by_index K) -> In u (verts s) -> u < c) ->
  (forall t, In t (by_index L) <-> In t (by_index K) \/ (exists c, In c cs /\ t = simplex_vertex c (f simplex_empty)) \/
     (exists c s, In c cs /\ In s (by_index K) /\ t = join_vertex f c s)) ->
  closed (by_index L) /\ joined_with (by_index K) (by_index L) cs.
Proof.
  intros HK HL HC Hlt HIn.
  assert (Hj : forall c s, In c cs -> In s (by_index K) -> verts (join_vertex f c s) = c :: verts s).
  { intros c s Hc Hs. apply join_verts; [apply (kwf_good K HK s Hs)|]. intros u Hu. eapply Hlt; eauto. }
  assert (Hhas : forall vs, has (by_index L) vs <-> has (by_index K) vs \/ (exists c, In c cs /\ set_eq vs [c]) \/
                          (exists c us, In c cs /\ has (by_index K) us /\ set_eq vs (c :: us))).
  { intro vs. split.
    - intros (t & Ht & Et). apply HIn in Ht. destruct Ht as [Ht|[(c & Hc & ->)|(c & s & Hc & Hs & ->)]].
      + left. exists t. auto.
      + right. left. exists c. split; auto. intro v. rewrite <- (Et v). simpl. tauto.
      + right. right. exists c, (verts s). refine (conj Hc (conj _ _)); [exists s; split; auto; intro; tauto|].
        intro v. rewrite <- (Et v), Hj by auto. tauto.
    - intros [(t & Ht & Et)|[(c & Hc & Ec)|(c & us & Hc & (s & Hs & Es) & Ec)]].
      + exists t. split; auto. apply HIn. auto.
      + exists (simplex_vertex c (f simplex_empty)). split; [apply HIn; right; left; eauto|]. intro v. rewrite (Ec v). simpl. tauto.
      + exists (join_vertex f c s). split; [apply HIn; right; right; eauto|]. intro v. rewrite (Ec v), Hj by auto. simpl. rewrite (Es v). tauto. }
  split; [|split; auto].
  - intros t vs Ht Hne Hsub. apply Hhas. apply HIn in Ht. destruct Ht as [Ht|[(c & Hc & ->)|(c & s & Hc & Hs & ->)]].
    + left. apply (HC t); auto.
    + right. left. exists c. split; auto. intro v. split; [intro Hv; apply Hsub in Hv; exact Hv|].
      destruct vs as [|x vs]; [easy|]. intros [<-|[]]. specialize (Hsub x ltac:(simpl; auto)). simpl in Hsub. destruct Hsub as [->|[]]; simpl; auto.
    + assert (Hsub' : forall v, In v vs -> v = c \/ In v (verts s)).
      { intros v Hv. apply Hsub in Hv. rewrite Hj in Hv by auto. destruct Hv as [->|]; auto. }
      destruct (in_dec Nat.eq_dec c vs) as [Hcv|Hcv].
      * set (us := filter (fun v => negb (v =? c)) vs).
        assert (Hus : forall v, In v us <-> In v vs /\ v <> c).
        { intro v. unfold us. rewrite filter_In. split; intros [A B]; split; auto.
          - intros ->. rewrite Nat.eqb_refl in B. discriminate.
          - destruct (Nat.eqb_spec v c); auto. }
        destruct us as [|x us'] eqn:Eus.
        -- right. left. exists c. split; auto. intro v. split.
           ++ intro Hv. destruct (Nat.eq_dec v c) as [->|Hvc]; [simpl; auto|]. exfalso. apply (proj2 (Hus v)). auto.
           ++ intros [<-|[]]; auto.
        -- right. right. exists c, (x :: us'). refine (conj Hc (conj _ _)).
           ++ apply (HC s); auto; [discriminate|]. intros v Hv. apply Hus in Hv. destruct Hv as [Hv Hvc]. destruct (Hsub' v Hv); [easy|auto].
           ++ intro v. change (In v (c :: x :: us')) with (c = v \/ In v (x :: us')). rewrite (Hus v).
              destruct (Nat.eq_dec v c) as [->|]; [tauto|]. split; [tauto|]. intros [|[]]; [congruence|auto].
      * left. apply (HC s); auto. intros v Hv. destruct (Hsub' v Hv) as [->|]; [easy|auto].
  - intros c Hc (s & Hs & Hcs). specialize (Hlt c s c Hc Hs Hcs). lia.
Qed.

Theorem C30_cone : forall f K, reachable K -> closed (by_index K) -> by_index K <> [] ->
  exists L c, cone f K = Ok L /\ reachable L /\
    by_index L = by_index K ++ simplex_vertex c (f simplex_empty) :: map (fun s => Simplex (c :: verts s) (f s)) (by_index K) /\
    closed (by_index L) /\ joined_with (by_index K) (by_index L) [c] /\ chi (by_index L) = 1%Z.
Proof.
  intros f K HR HC Hne. pose proof (reachable_kwf K HR) as HK.
  destruct (closed_top K HR HC Hne) as (v & Ev & _ & Hmax). set (c := v + 1).
  assert (Hlt : forall s u, In s (by_index K) -> In u (verts s) -> u < c) by (intros s u Hs Hu; specialize (Hmax s u Hs Hu); unfold c; lia).
  assert (Hj : forall s, In s (by_index K) -> verts (join_vertex f c s) = c :: verts s).
  { intros s Hs. apply join_verts; [apply (kwf_good K HK s Hs)|]. intros u Hu. eapply Hlt; eauto. }
  set (l := simplex_vertex c (f simplex_empty) :: map (join_vertex f c) (by_index K)).
  assert (Hgl : forall s, In s l -> good s).
  { intros s [<-|Hs]; [split; [unfold wf; repeat constructor|discriminate]|]. apply in_map_iff in Hs. destruct Hs as (t & <- & Ht).
    split; [apply simplex_of_wf|]. rewrite Hj by auto. discriminate. }
  assert (Ev2 : map verts (map (join_vertex f c) (by_index K)) = map (fun s => c :: verts s) (by_index K)).
  { rewrite map_map. apply map_ext_in. auto. }
  destruct (insert_new l K HK Hgl) as (L & EL & HL & HbL).
  { rewrite map_app. unfold l. cbn [map]. rewrite Ev2. cbn [simplex_vertex verts].
    apply (NoDup_Add (a := [c]) (l := map verts (by_index K) ++ map (fun s => c :: verts s) (by_index K))); [apply Add_app|].
    assert (Hc : forall vs, In vs (map verts (by_index K)) -> ~ In c vs).
    { intros vs Hvs Hcv. apply in_map_iff in Hvs. destruct Hvs as (s & <- & Hs). specialize (Hlt s c Hs Hcv). lia. }
    split.
    - apply PairingFacts.NoDup_app_intro.
      + apply (kwf_nodup K HK).
      + rewrite <- map_map. apply FinFun.Injective_map_NoDup; [intros x y H; injection H; auto|apply (kwf_nodup K HK)].
      + intros vs H1 H2. apply in_map_iff in H2. destruct H2 as (s & <- & Hs). apply (Hc _ H1). simpl; auto.
    - intro H. apply in_app_or in H. destruct H as [H|H]; [apply (Hc _ H); simpl; auto|].
      apply in_map_iff in H. destruct H as (s & E & Hs). injection E as E. destruct (kwf_good K HK s Hs) as [_ Hn]. auto. }
  exists L, c. assert (Econe : cone f K = Ok L).
  { assert (Ee : k_isempty K = false) by (clear - Hne; unfold k_isempty; destruct (by_index K); [exfalso; apply Hne; reflexivity|reflexivity]).
    unfold cone. rewrite Ee, Ev. cbv zeta.
    unfold insert_into. fold c. fold l. rewrite EL. reflexivity. }
  assert (HRL : reachable L).
  { replace L with (fst (k_insert K l)) by (rewrite EL; reflexivity). apply insert_reachable; auto. intros s Hs. apply Hgl; auto. }
  assert (Eb : by_index L = by_index K ++ simplex_vertex c (f simplex_empty) :: map (fun s => Simplex (c :: verts s) (f s)) (by_index K)).
  { rewrite HbL. unfold l. do 2 f_equal. apply map_ext_in. intros s Hs. pose proof (Hj s Hs) as E. unfold join_vertex, simplex_of in *. cbn [verts] in E. rewrite E. reflexivity. }
  destruct (join_closed f K L [c] HK HL HC) as [C1 C2].
  { intros c' s u [<-|[]]. apply Hlt. }
  { intro t. rewrite HbL. unfold l. rewrite in_app_iff. cbn [In]. split.
    - intros [H|[<-|H]]; [auto|right; left; exists c; auto|]. apply in_map_iff in H. destruct H as (s & <- & Hs). right. right. exists c, s. auto.
    - intros [H|[(c' & [<-|[]] & ->)|(c' & s & [<-|[]] & Hs & ->)]]; auto. right. right. apply in_map. auto. }
  refine (conj Econe (conj HRL (conj Eb (conj C1 (conj C2 _))))).
  rewrite HbL, chi_app. unfold l. rewrite chi_cons.
  rewrite chi_join; [cbn [simplex_vertex verts length Nat.sub sign Nat.even]; lia|]. intros s Hs. split; auto. apply (kwf_good K HK s Hs).
Qed.

Theorem C30_suspension : forall f K, reachable K -> closed (by_index K) -> by_index K <> [] ->
  exists L c, suspension f K = Ok L /\ reachable L /\
    by_index L = by_index K ++ simplex_vertex c (f simplex_empty) :: simplex_vertex (c + 1) (f simplex_empty) ::
      flat_map (fun s => [Simplex (c :: verts s) (f s); Simplex (c + 1 :: verts s) (f s)]) (by_index K) /\
    closed (by_index L) /\ joined_with (by_index K) (by_index L) [c; c + 1] /\
    chi (by_index L) = (2 - chi (by_index K))%Z.
Proof.
  intros f K HR HC Hne. pose proof (reachable_kwf K HR) as HK.
  destruct (closed_top K HR HC Hne) as (v & Ev & _ & Hmax). set (c := v + 1).
  assert (Hlt : forall s u, In s (by_index K) -> In u (verts s) -> u < c) by (intros s u Hs Hu; specialize (Hmax s u Hs Hu); unfold c; lia).
  assert (Hj : forall s, In s (by_index K) -> verts (join_vertex f c s) = c :: verts s).
  { intros s Hs. apply join_verts; [apply (kwf_good K HK s Hs)|]. intros u Hu. eapply Hlt; eauto. }
  assert (Hj' : forall s, In s (by_index K) -> verts (join_vertex f (c + 1) s) = c + 1 :: verts s).
  { intros s Hs. apply join_verts; [apply (kwf_good K HK s Hs)|]. intros u Hu. specialize (Hlt s u Hs Hu). lia. }
  set (l := simplex_vertex c (f simplex_empty) :: simplex_vertex (c + 1) (f simplex_empty) ::
              flat_map (fun s => [join_vertex f c s; join_vertex f (c + 1) s]) (by_index K)).
  assert (Hgl : forall s, In s l -> good s).
  { intros s [<-|[<-|Hs]]; [split; [unfold wf; repeat constructor|discriminate]|split; [unfold wf; repeat constructor|discriminate]|].
    apply in_flat_map in Hs. destruct Hs as (t & Ht & [<-|[<-|[]]]); (split; [apply simplex_of_wf|]); [rewrite Hj by auto|rewrite Hj' by auto]; discriminate. }
  assert (P : Permutation l (simplex_vertex c (f simplex_empty) :: simplex_vertex (c + 1) (f simplex_empty) ::
                map (join_vertex f c) (by_index K) ++ map (join_vertex f (c + 1)) (by_index K))).
  { unfold l. do 2 apply perm_skip. clear. induction (by_index K) as [|s r IH]; simpl; auto. apply perm_skip.
    apply (Permutation_trans (perm_skip _ IH)). apply Permutation_middle. }
  destruct (insert_new l K HK Hgl) as (L & EL & HL & HbL).
  { apply (Permutation_NoDup (l := map verts (by_index K ++ simplex_vertex c (f simplex_empty) :: simplex_vertex (c + 1) (f simplex_empty) ::
                map (join_vertex f c) (by_index K) ++ map (join_vertex f (c + 1)) (by_index K)))).
    { apply Permutation_map, Permutation_app_head, Permutation_sym, P. }
    rewrite map_app. cbn [map]. rewrite map_app.
    replace (map verts (map (join_vertex f c) (by_index K))) with (map (fun s => c :: verts s) (by_index K)) by (rewrite map_map; apply map_ext_in; intros; symmetry; auto).
    replace (map verts (map (join_vertex f (c + 1)) (by_index K))) with (map (fun s => c + 1 :: verts s) (by_index K)) by (rewrite map_map; apply map_ext_in; intros; symmetry; auto).
    cbn [simplex_vertex verts].
    assert (Hc : forall vs, In vs (map verts (by_index K)) -> ~ In c vs /\ ~ In (c + 1) vs).
    { intros vs Hvs. apply in_map_iff in Hvs. destruct Hvs as (s & <- & Hs).
      split; intro Hcv; [specialize (Hlt s c Hs Hcv)|specialize (Hlt s (c + 1) Hs Hcv)]; lia. }
    assert (Hcons : forall x, NoDup (map (fun s => x :: verts s) (by_index K))).
    { intro x. rewrite <- map_map. apply FinFun.Injective_map_NoDup; [intros a b H; injection H; auto|apply (kwf_nodup K HK)]. }
    assert (Hnil : forall x y, ~ In [x] (map (fun s => y :: verts s) (by_index K))).
    { intros x y H. apply in_map_iff in H. destruct H as (s & E & Hs). injection E as _ E. destruct (kwf_good K HK s Hs) as [_ Hn]. auto. }
    assert (Hdiff : forall vs, In vs (map (fun s => c :: verts s) (by_index K)) -> ~ In vs (map (fun s => c + 1 :: verts s) (by_index K))).
    { intros vs H1 H2. apply in_map_iff in H1, H2. destruct H1 as (s & <- & _), H2 as (t & E & _). injection E as E _. lia. }
    apply PairingFacts.NoDup_app_intro; [apply (kwf_nodup K HK)| |].
    - constructor; [|constructor].
      + intros [H|H]; [injection H; lia|]. apply in_app_or in H. destruct H as [H|H]; apply Hnil in H; auto.
      + intro H. apply in_app_or in H. destruct H as [H|H]; apply Hnil in H; auto.
      + apply PairingFacts.NoDup_app_intro; auto.
    - intros vs H1 H2. destruct (Hc vs H1) as [N1 N2]. destruct H2 as [<-|[<-|H2]]; [apply N1; simpl; auto|apply N2; simpl; auto|].
      apply in_app_or in H2. destruct H2 as [H2|H2]; apply in_map_iff in H2; destruct H2 as (s & <- & _); [apply N1|apply N2]; simpl; auto. }
  exists L, c. assert (Econe : suspension f K = Ok L).
  { assert (Ee : k_isempty K = false) by (clear - Hne; unfold k_isempty; destruct (by_index K); [exfalso; apply Hne; reflexivity|reflexivity]).
    unfold suspension. rewrite Ee, Ev. cbv zeta.
    unfold insert_into. fold c. fold l. rewrite EL. reflexivity. }
  assert (HRL : reachable L).
  { replace L with (fst (k_insert K l)) by (rewrite EL; reflexivity). apply insert_reachable; auto. intros s Hs. apply Hgl; auto. }
  assert (Ej : forall x s, verts (join_vertex f x s) = x :: verts s -> join_vertex f x s = Simplex (x :: verts s) (f s)).
  { intros x s E. unfold join_vertex, simplex_of in *. cbn [verts] in E. rewrite E. reflexivity. }
  assert (Eb : by_index L = by_index K ++ simplex_vertex c (f simplex_empty) :: simplex_vertex (c + 1) (f simplex_empty) ::
      flat_map (fun s => [Simplex (c :: verts s) (f s); Simplex (c + 1 :: verts s) (f s)]) (by_index K)).
  { rewrite HbL. unfold l. do 3 f_equal. clear - Hj Hj' Ej. induction (by_index K) as [|s r IH]; auto. cbn [flat_map].
    rewrite IH by (intros; (apply Hj || apply Hj'); simpl; auto). rewrite !Ej; auto; [apply Hj'|apply Hj]; simpl; auto. }
  destruct (join_closed f K L [c; c + 1] HK HL HC) as [C1 C2].
  { intros c' s u [<-|[<-|[]]] Hs Hu; specialize (Hlt s u Hs Hu); lia. }
  { intro t. rewrite HbL. unfold l. rewrite in_app_iff. cbn [In]. rewrite in_flat_map. split.
    - intros [H|[<-|[<-|(s & Hs & [<-|[<-|[]]])]]]; [auto|right; left; exists c; auto|right; left; exists (c + 1); auto|right; right; exists c, s; auto|right; right; exists (c + 1), s; auto].
    - intros [H|[(c' & [<-|[<-|[]]] & ->)|(c' & s & [<-|[<-|[]]] & Hs & ->)]]; auto; right; right; right; exists s; simpl; auto. }
  refine (conj Econe (conj HRL (conj Eb (conj C1 (conj C2 _))))).
  assert (Hchi : forall a b, Permutation a b -> chi a = chi b).
  { clear. intros a b H. induction H; rewrite ?chi_cons; auto; lia. }
  rewrite HbL, chi_app, (Hchi _ _ P), !chi_cons, chi_app.
  rewrite !chi_join; [cbn [simplex_vertex verts length Nat.sub sign Nat.even]; lia| |]; intros s Hs; (split; [apply (kwf_good K HK s Hs)|auto]).
Qed.

(** empty complexes *)
Theorem C30_empty : forall f, cone f k_empty = Ok k_empty /\ suspension f k_empty = Ok k_empty.
Proof. split; reflexivity. Qed.

(** On complexes that are not closed the new vertex need not be new. *)
Theorem C30_not_closed_refuted : exists K L, reachable K /\ cone0 K = Ok L /\
  k_size L < 2 * k_size K + 1 /\ has (by_index K) [0; 1].
Proof.
  exists (mk [InsertRange [([0], 0%Z); ([0; 1], 0%Z)]]). eexists.
  split; [apply mk_reachable|]. split; [vm_compute; reflexivity|]. split; [vm_compute; lia|].
  exists (Simplex [1; 0] 0). split; [vm_compute; auto|]. intro v. simpl. tauto.
Qed.

Example C30_example : exists L, cone0 (mk [InsertRange [([0], 0%Z); ([2], 0%Z); ([0; 2], 5%Z)]]) = Ok L /\
  map verts (by_index L) = [[0]; [2]; [2; 0]; [3]; [3; 0]; [3; 2]; [3; 2; 0]].
Proof. eexists. split; vm_compute; reflexivity. Qed.
Example C30_suspension_example : exists L, suspension0 (mk [InsertRange [([0], 0%Z); ([2], 0%Z)]]) = Ok L /\
  map verts (by_index L) = [[0]; [2]; [3]; [4]; [3; 0]; [4; 0]; [3; 2]; [4; 2]].
Proof. eexists. split; vm_compute; reflexivity. Qed.

Print Assumptions C30_cone.
Print Assumptions C30_suspension.
Print Assumptions C30_empty.
Print Assumptions C30_not_closed_refuted.
