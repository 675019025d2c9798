(** * Final theorems for [topology/Intersections.hh] (intersections with a complex). *)

From Coq Require Import List Arith Bool Lia Sorted ZArith Permutation.
From Verif Require Import Base BaseFacts Simplex SimplexFacts SpecComplex Complex ComplexFacts History Subcomplex SubcomplexFacts PropertiesComplex Spine SpineFacts
  TopDown CombinationFacts SpecCombine Combine CombineFacts PropertiesCliqueGraph Intersections.
Import ListNotations.

(** ** sets of simplices *)
Lemma sset_insert_In s l t : In t (sset_insert s l) -> t = s \/ In t l.
Proof.
  induction l as [|u l IH]; cbn [sset_insert].
  - intros [<-|[]]; auto.
  - destruct (s_ltb u s).
    + intros [<-|H]; [right; left; reflexivity|]. destruct (IH H) as [->|]; [left; reflexivity|right; right; assumption].
    + destruct (s_ltb s u); [intros [<-|H]; auto|auto].
Qed.

Lemma sset_insert_verts s l vs : In vs (map verts (sset_insert s l)) <-> vs = verts s \/ In vs (map verts l).
Proof.
  induction l as [|u l IH]; cbn [sset_insert map]; [simpl; intuition|].
  destruct (s_ltb u s) eqn:E1; [cbn [map In]; rewrite IH; tauto|].
  destruct (s_ltb s u) eqn:E2; [cbn [map In]; intuition|].
  pose proof (eqb_of_not_lt s u E2 E1) as E. apply s_eqb_eq in E. cbn [map In]. split; [auto|]. intros [->|H]; auto.
Qed.

Lemma sset_insert_sorted s l : StronglySorted (fun a b => s_ltb a b = true) l -> StronglySorted (fun a b => s_ltb a b = true) (sset_insert s l).
Proof.
  induction 1 as [|u l HS IH HF]; cbn [sset_insert]; [repeat constructor|]. rewrite Forall_forall in HF.
  destruct (s_ltb u s) eqn:E1.
  - constructor; auto. apply Forall_forall. intros t Ht. apply sset_insert_In in Ht. destruct Ht as [->|Ht]; auto.
  - destruct (s_ltb s u) eqn:E2; [|constructor; auto; apply Forall_forall; auto].
    constructor; [constructor; auto; apply Forall_forall; auto|]. constructor; auto. apply Forall_forall. intros t Ht. apply (ltb_trans s u t); auto.
Qed.

Lemma collect_ok s range :
  StronglySorted (fun a b => s_ltb a b = true) (collect_intersections s range) /\
  (forall u, In u (collect_intersections s range) -> wf u /\ data u = 0%Z) /\
  forall vs, In vs (map verts (collect_intersections s range)) <-> exists t, In t range /\ vs = verts (s_intersect s t) /\ vs <> [].
Proof.
  unfold collect_intersections.
  assert (G : forall l acc, StronglySorted (fun a b => s_ltb a b = true) acc -> (forall u, In u acc -> wf u /\ data u = 0%Z) ->
    let R := fold_left (fun acc t => let u := s_intersect s t in if s_empty u then acc else sset_insert u acc) l acc in
    StronglySorted (fun a b => s_ltb a b = true) R /\ (forall u, In u R -> wf u /\ data u = 0%Z) /\
    forall vs, In vs (map verts R) <-> In vs (map verts acc) \/ exists t, In t l /\ vs = verts (s_intersect s t) /\ vs <> []).
  { induction l as [|t l IH]; intros acc HS HW; cbn [fold_left].
    - refine (conj HS (conj HW _)). intro vs. split; [auto|]. intros [H|(t & [] & _)]; auto.
    - assert (Hs2 : StronglySorted (fun a b => s_ltb a b = true) (let u := s_intersect s t in if s_empty u then acc else sset_insert u acc)).
      { cbv zeta. destruct (s_empty (s_intersect s t)); auto. apply sset_insert_sorted; auto. }
      assert (Hw2 : forall u, In u (let u := s_intersect s t in if s_empty u then acc else sset_insert u acc) -> wf u /\ data u = 0%Z).
      { cbv zeta. intros u Hu. destruct (s_empty (s_intersect s t)); auto. apply sset_insert_In in Hu. destruct Hu as [->|Hu]; auto. split; [apply simplex_of_wf|reflexivity]. }
      destruct (IH _ Hs2 Hw2) as (I1 & I2 & I3). refine (conj I1 (conj I2 _)). intro vs. rewrite I3. cbv zeta.
      destruct (s_empty (s_intersect s t)) eqn:E.
      + assert (En : verts (s_intersect s t) = []) by (unfold s_empty in E; destruct (verts (s_intersect s t)); [reflexivity|discriminate]).
        split; [intros [H|(t' & H1 & H2 & H3)]; [auto|right; exists t'; simpl; auto]|].
        intros [H|(t' & [<-|H1] & H2 & H3)]; [auto|congruence|right; exists t'; auto].
      + assert (En : verts (s_intersect s t) <> []) by (unfold s_empty in E; destruct (verts (s_intersect s t)); [discriminate|discriminate]).
        rewrite sset_insert_verts. split.
        * intros [[->|H]|(t' & H1 & H2 & H3)]; [right; exists t; simpl; auto|auto|right; exists t'; simpl; auto].
        * intros [H|(t' & [<-|H1] & H2 & H3)]; [auto|auto|right; exists t'; auto]. }
  destruct (G range [] (SSorted_nil _) ltac:(simpl; tauto)) as (G1 & G2 & G3). refine (conj G1 (conj G2 _)). intro vs. rewrite G3. simpl. intuition.
Qed.

Lemma take_while_le d l : StronglySorted dim_le l -> take_while (fun s => sdim s <=? d) l = filter (fun s => sdim s <=? d) l.
Proof.
  induction 1 as [|s l HS IH HF]; [reflexivity|]. cbn [take_while filter]. destruct (Nat.leb_spec (sdim s) d); [rewrite IH; reflexivity|].
  symmetry. clear IH HS. induction HF as [|t l Ht HF IH]; [reflexivity|]. cbn [filter]. unfold dim_le in Ht.
  destruct (Nat.leb_spec (sdim t) d); [lia|]. exact IH.
Qed.

Lemma drop_until_true l : drop_until (fun _ : simplex => true) l = l.
Proof. destruct l; reflexivity. Qed.

Lemma has_verts R vs : (forall u, In u R -> wf u) -> (has R vs <-> In (verts (simplex_of vs 0)) (map verts R)).
Proof.
  intro W. split.
  - intros (u & Hu & E). replace (verts (simplex_of vs 0)) with (verts u); [apply in_map; auto|].
    apply wf_ext; [auto|apply simplex_of_wf|]. intro v. rewrite simplex_of_In. apply E.
  - intro H. apply in_map_iff in H. destruct H as (u & E & Hu). exists u. split; auto. rewrite E. intro v. apply simplex_of_In.
Qed.

Lemma intersect_verts vs s t : verts (simplex_of vs 0) = verts (s_intersect s t) <-> forall v, In v vs <-> In v (verts s) /\ In v (verts t).
Proof.
  unfold s_intersect. split.
  - intros E v. rewrite <- common_In, <- (simplex_of_In vs 0), <- (simplex_of_In (common_vertices s t) 0), E. tauto.
  - intro H. apply wf_ext; try apply simplex_of_wf. intro v. rewrite !simplex_of_In, common_In. apply H.
Qed.

Lemma simplex_of_nil vs : verts (simplex_of vs 0) <> [] <-> vs <> [].
Proof.
  split; intros H E; apply H; [subst; reflexivity|]. destruct vs as [|v vs]; [reflexivity|].
  exfalso. assert (F : In v (verts (simplex_of (v :: vs) 0))) by (apply simplex_of_In; simpl; auto). rewrite E in F. destruct F.
Qed.

(** C66: a simplex of the complex is its own intersection; otherwise the result
    consists of the non-empty intersections with the simplices of at most the
    same dimension *)
Theorem C66_intersect : forall K s, reachable K -> wf s -> verts s <> [] ->
  exists R, k_intersect K s = Ok R /\ StronglySorted (fun a b => s_ltb a b = true) R /\
    (forall t, In t (by_index K) -> verts t = verts s -> R = [t]) /\
    (~ has (by_index K) (verts s) -> (forall u, In u R -> data u = 0%Z) /\
       forall vs, has R vs <-> vs <> [] /\ exists t, In t (by_index K) /\ length (verts t) <= length (verts s) /\
         forall v, In v vs <-> In v (verts s) /\ In v (verts t)).
Proof.
  intros K s HR W N. pose proof (reachable_kwf K HR) as HK. unfold k_intersect. destruct (k_lookup K s) as [t|] eqn:E.
  - apply (lookup_some K s t HK) in E. destruct E as [Ht Ev]. exists [t]. refine (conj eq_refl (conj _ (conj _ _))); [repeat constructor| |].
    + intros t' Ht' E'. f_equal. assert (F : k_lookup K s = Some t) by (apply lookup_some; auto). assert (F' : k_lookup K s = Some t') by (apply lookup_some; auto). congruence.
    + intro F. exfalso. apply F. exists t. split; auto. rewrite Ev. intro; tauto.
  - assert (Hno : forall t, In t (by_index K) -> verts t <> verts s).
    { intros t Ht Ev. assert (F : k_lookup K s = Some t) by (apply lookup_some; auto). congruence. }
    assert (D : exists R, match by_dim K, s_dimension s with [], _ => Ok [] | _, Ok d => Ok (collect_intersections s (k_range_pred K (fun _ => true) (fun x => x <=? d))) | _, _ => Throw Terminated end = Ok R /\
                R = collect_intersections s (filter (fun t => sdim t <=? length (verts s) - 1) (by_dim K))).
    { rewrite dimension_size by (unfold s_size; destruct (verts s); [easy|discriminate]). unfold s_size, k_range_pred.
      rewrite drop_until_true, take_while_le by apply (kwf_sorted K HK). destruct (by_dim K); eexists; split; reflexivity. }
    destruct D as (R & E1 & ->). rewrite E1. eexists. split; [reflexivity|].
    destruct (collect_ok s (filter (fun t => sdim t <=? length (verts s) - 1) (by_dim K))) as (C1 & C2 & C3).
    refine (conj C1 (conj _ (fun _ => conj (fun u Hu => proj2 (C2 u Hu)) _))).
    + intros t Ht Ev. exfalso. apply (Hno t); auto.
    + intro vs. rewrite has_verts by (intros u Hu; apply C2; auto). rewrite C3. split.
      * intros (t & Ht & Ei & Ne). apply filter_In in Ht. destruct Ht as [Ht Ld]. split; [apply simplex_of_nil; auto|].
        apply (Permutation_in _ (Permutation_sym (kwf_perm K HK))) in Ht. exists t. split; [auto|]. split; [|apply intersect_verts; auto].
        apply Nat.leb_le in Ld. unfold sdim, s_size in Ld. destruct (kwf_good K HK t Ht) as [_ Nt]. destruct (verts t), (verts s); simpl in *; try easy; lia.
      * intros (Ne & t & Ht & Ld & Ei). exists t. refine (conj _ (conj (proj2 (intersect_verts _ _ _) Ei) (proj2 (simplex_of_nil vs) Ne))).
        apply filter_In. split; [apply (Permutation_in _ (kwf_perm K HK)); auto|]. apply Nat.leb_le. unfold sdim, s_size. lia.
Qed.

(** for a closed complex that does not contain [s], these are the faces of [s]
    in the complex; larger simplices would not contribute anything *)
Theorem C66_closed : forall K s, reachable K -> closed (by_index K) -> wf s -> verts s <> [] -> ~ has (by_index K) (verts s) ->
  exists R, k_intersect K s = Ok R /\
    (forall vs, has R vs <-> vs <> [] /\ subset vs (verts s) /\ has (by_index K) vs) /\
    (forall vs, has R vs <-> vs <> [] /\ exists t, In t (by_index K) /\ forall v, In v vs <-> In v (verts s) /\ In v (verts t)).
Proof.
  intros K s HR HC W N Hn. destruct (C66_intersect K s HR W N) as (R & E & _ & _ & H). destruct (H Hn) as [_ I]. exists R. split; [exact E|].
  pose proof (reachable_kwf K HR) as HK.
  assert (A : forall vs, has R vs -> vs <> [] /\ exists t, In t (by_index K) /\ forall v, In v vs <-> In v (verts s) /\ In v (verts t)).
  { intros vs Hv. apply I in Hv. destruct Hv as (Ne & t & Ht & _ & Hi). split; [auto|]. exists t. auto. }
  assert (B : forall vs, vs <> [] -> (exists t, In t (by_index K) /\ forall v, In v vs <-> In v (verts s) /\ In v (verts t)) -> subset vs (verts s) /\ has (by_index K) vs).
  { intros vs Ne (t & Ht & Hi). split; [intros v Hv; apply Hi in Hv; tauto|]. apply (HC t vs Ht Ne). intros v Hv. apply Hi in Hv. tauto. }
  assert (C : forall vs, vs <> [] -> subset vs (verts s) -> has (by_index K) vs -> has R vs).
  { intros vs Ne Hs (t & Ht & Et). apply I. split; [auto|]. exists t. split; [auto|]. split.
    - apply NoDup_incl_length; [apply SSgt_NoDup; apply (kwf_good K HK t Ht)|]. intros v Hv. apply Hs, Et; auto.
    - intro v. rewrite (Et v). split; [intro Hv; split; [apply Hs|apply Et]; auto; apply Et; auto|tauto]. }
  split; intro vs; split.
  - intro Hv. destruct (A vs Hv) as [Ne Ht]. split; [auto|]. apply B; auto.
  - intros (Ne & Hs & Hh). apply C; auto.
  - apply A.
  - intros (Ne & Ht). destruct (B vs Ne Ht). apply C; auto.
Qed.

(** only simplices of the same dimension are used *)
Theorem C66_constrained : forall K s, reachable K -> wf s -> verts s <> [] ->
  exists R, intersectWithConstrainedDimension K s = Ok R /\ StronglySorted (fun a b => s_ltb a b = true) R /\
    (forall u, In u R -> data u = 0%Z) /\
    forall vs, has R vs <-> vs <> [] /\ exists t, In t (by_index K) /\ length (verts t) = length (verts s) /\
      forall v, In v vs <-> In v (verts s) /\ In v (verts t).
Proof.
  intros K s HR W N. pose proof (reachable_kwf K HR) as HK. unfold intersectWithConstrainedDimension.
  rewrite dimension_size by (unfold s_size; destruct (verts s); [easy|discriminate]). rewrite range_filter by auto. eexists. split; [reflexivity|].
  destruct (collect_ok s (filter (fun t => sdim t =? s_size s - 1) (by_dim K))) as (C1 & C2 & C3).
  refine (conj C1 (conj (fun u Hu => proj2 (C2 u Hu)) _)).
  intro vs. rewrite has_verts by (intros u Hu; apply C2; auto). rewrite C3. split.
  - intros (t & Ht & Ei & Ne). apply filter_In in Ht. destruct Ht as [Ht Ld]. split; [apply simplex_of_nil; auto|].
    apply (Permutation_in _ (Permutation_sym (kwf_perm K HK))) in Ht. exists t. split; [auto|]. split; [|apply intersect_verts; auto].
    apply Nat.eqb_eq in Ld. unfold sdim, s_size in Ld. destruct (kwf_good K HK t Ht) as [_ Nt]. destruct (verts t), (verts s); simpl in *; try easy; lia.
  - intros (Ne & t & Ht & Ld & Ei). exists t. refine (conj _ (conj (proj2 (intersect_verts _ _ _) Ei) (proj2 (simplex_of_nil vs) Ne))).
    apply filter_In. split; [apply (Permutation_in _ (kwf_perm K HK)); auto|]. apply Nat.eqb_eq. unfold sdim, s_size. lia.
Qed.

(** for a vertex this is the whole intersection *)
Theorem C66_constrained_vertex : forall K v d, reachable K -> closed (by_index K) ->
  exists R, intersectWithConstrainedDimension K (simplex_vertex v d) = Ok R /\
    forall vs, has R vs <-> vs <> [] /\ exists t, In t (by_index K) /\ forall u, In u vs <-> In u [v] /\ In u (verts t).
Proof.
  intros K v d HR HC. pose proof (reachable_kwf K HR) as HK.
  destruct (C66_constrained K (simplex_vertex v d) HR) as (R & E & _ & _ & I); [repeat constructor|discriminate|].
  exists R. split; [exact E|]. intro vs. rewrite I. cbn [simplex_vertex verts length]. split.
  - intros (Ne & t & Ht & _ & H). split; [auto|]. exists t. auto.
  - intros (Ne & t & Ht & H). split; [auto|].
    assert (Hv : In v (verts t)). { destruct vs as [|u vs]; [easy|]. destruct (proj1 (H u) (or_introl eq_refl)) as [[<-|[]] Hu]. exact Hu. }
    destruct (HC t [v] Ht ltac:(discriminate)) as (w & Hw & Ew); [intros u [<-|[]]; auto|].
    assert (Lw : verts w = [v]).
    { destruct (kwf_good K HK w Hw) as [Ww _]. rewrite <- (simplex_of_id w 0 Ww). change [v] with (verts (simplex_vertex v 0)).
      apply wf_ext; [apply simplex_of_wf|repeat constructor|]. intro u. rewrite simplex_of_In. apply Ew. }
    exists w. rewrite Lw. split; [auto|]. split; [reflexivity|]. intro u. rewrite H. split.
    + intros [A B]. auto.
    + intros [A B]. split; auto. destruct A as [<-|[]]. auto.
Qed.

(** for other simplices, intersections are lost, even for closed complexes *)
Theorem C66_constrained_refuted : exists K s t, reachable K /\ closed (by_index K) /\ wf s /\
  In t (by_index K) /\ proper_face t s /\ intersectWithConstrainedDimension K s = Ok [].
Proof.
  exists (mk [PushBack [0] 0; PushBack [1] 0]), (simplex_of [0; 1] 0), (simplex_of [0] 0).
  refine (conj (mk_reachable _) (conj _ (conj (simplex_of_wf _ _) (conj _ (conj _ _))))).
  - apply closed_check; [apply mk_reachable|]. vm_compute. reflexivity.
  - vm_compute. auto.
  - split; [intros v [<-|[]]; simpl; auto|]. intro F. specialize (F 1 ltac:(simpl; auto)). simpl in F. lia.
  - vm_compute. reflexivity.
Qed.

(** the empty simplex terminates the program *)
Theorem C66_empty : forall K d, reachable K ->
  intersectWithConstrainedDimension K (Simplex [] d) = Throw Terminated /\
  (k_intersect K (Simplex [] d) = Throw Terminated <-> by_index K <> []).
Proof.
  intros K d HR. pose proof (reachable_kwf K HR) as HK. split; [reflexivity|]. unfold k_intersect.
  destruct (k_lookup K (Simplex [] d)) as [t|] eqn:E.
  - apply (lookup_some K _ t HK) in E. destruct E as [Ht E]. destruct (kwf_good K HK t Ht) as [_ F]. easy.
  - pose proof (kwf_perm K HK) as P. destruct (by_dim K) as [|u l].
    + apply Permutation_sym, Permutation_nil in P. rewrite P. split; [discriminate|easy].
    + cbn [s_dimension verts]. split; [|reflexivity]. intros _ F. rewrite F in P. apply Permutation_nil in P. discriminate.
Qed.

Example C66_example :
  k_intersect (mk [PushBack [0; 1; 2] 3; PushBack [2; 5] 1; CreateMissingFaces]) (simplex_of [1; 2; 5] 0) =
    Ok [Simplex [1] 0; Simplex [2] 0; Simplex [2; 1] 0; Simplex [5] 0; Simplex [5; 2] 0] /\
  k_intersect (mk [PushBack [0; 1; 2] 3; PushBack [2; 5] 1; CreateMissingFaces]) (simplex_of [2; 5] 7) = Ok [Simplex [5; 2] 1] /\
  intersectWithConstrainedDimension (mk [PushBack [0; 1; 2] 3; PushBack [2; 5] 1; CreateMissingFaces]) (simplex_of [1; 2; 5] 0) = Ok [Simplex [2; 1] 0].
Proof. repeat split; vm_compute; reflexivity. Qed.

(** ** the last intersection *)
Lemma combs_In_gt l : StronglySorted gt l -> forall k vs, In vs (combs k l) <-> StronglySorted gt vs /\ length vs = k /\ subset vs l.
Proof.
  induction 1 as [|x l HS IH HF]; intros k vs.
  - destruct k as [|k]; simpl; split.
    + intros [<-|[]]. refine (conj (SSorted_nil _) (conj eq_refl (fun v F => F))).
    + intros (_ & L & _). destruct vs; [auto|simpl in L; lia].
    + easy.
    + intros (_ & L & Hs). destruct vs as [|v vs]; simpl in L; [lia|]. apply (Hs v). simpl. auto.
  - rewrite Forall_forall in HF. destruct k as [|k]; cbn [combs].
    + split.
      * intros [<-|[]]. refine (conj (SSorted_nil _) (conj eq_refl _)). intros v [].
      * intros (_ & L & _). destruct vs; [simpl; auto|simpl in L; lia].
    + rewrite in_app_iff, in_map_iff, IH. split.
      * intros [(ws & <- & Hw)|(S1 & L1 & H1)].
        -- apply IH in Hw. destruct Hw as (S1 & L1 & H1). refine (conj _ (conj _ _)).
           ++ apply SSorted_cons; auto. apply Forall_forall. intros v Hv. apply HF, H1; auto.
           ++ simpl. lia.
           ++ intros v [<-|Hv]; simpl; auto.
        -- refine (conj S1 (conj L1 _)). intros v Hv. right. apply H1; auto.
      * intros (S1 & L1 & H1). destruct vs as [|v vs]; [simpl in L1; lia|]. inversion S1 as [|? ? S2 F2]; subst. rewrite Forall_forall in F2.
        destruct (Nat.eq_dec v x) as [->|Hne].
        -- left. exists vs. split; auto. apply IH. refine (conj S2 (conj _ _)); [simpl in L1; lia|]. intros w Hw.
           destruct (H1 w ltac:(simpl; auto)) as [->|]; auto. specialize (F2 _ Hw). lia.
        -- right. refine (conj S1 (conj L1 _)). assert (Hv : In v l) by (destruct (H1 v ltac:(simpl; auto)); [congruence|auto]).
           intros w [<-|Hw]; auto. destruct (H1 w ltac:(simpl; auto)) as [->|]; auto. specialize (F2 _ Hw). specialize (HF _ Hv). lia.
Qed.

Lemma combs_ordered_gt l : StronglySorted gt l -> forall k, StronglySorted (fun p q => before q p) (combs k l).
Proof.
  induction 1 as [|x l HS IH HF]; intros [|k]; cbn [combs]; try (repeat constructor; fail).
  apply StronglySorted_app. refine (conj _ (conj _ _)).
  - pose proof (IH k) as IHk. clear IH. induction IHk as [|c r Hr IHr HFr]; cbn [map]; constructor; auto.
    apply Forall_forall. intros q Hq. apply in_map_iff in Hq. destruct Hq as (q' & <- & Hq'). rewrite Forall_forall in HFr.
    destruct (HFr q' Hq') as (c0 & a & b & p' & r' & -> & -> & Hab). exists (x :: c0), a, b, p', r'. auto.
  - apply IH.
  - intros p q Hp Hq. apply in_map_iff in Hp. destruct Hp as (p' & <- & Hp'). apply (combs_In_gt l HS) in Hq. destruct Hq as (_ & Lq & Sq).
    destruct q as [|y q]; [discriminate Lq|]. exists [], y, x, q, p'. rewrite Forall_forall in HF. specialize (HF y (Sq y (or_introl eq_refl))). auto.
Qed.

Lemma llx_visit K L : forall r,
  (visit (llx_test K) L r = Ok (false, r) /\ forall c, In c L -> k_lookup K (simplex_of c 0) = None) \/
  (exists L1 c L2 t, L = L1 ++ c :: L2 /\ (forall c', In c' L1 -> k_lookup K (simplex_of c' 0) = None) /\
     k_lookup K (simplex_of c 0) = Some t /\ visit (llx_test K) L r = Ok (true, t)).
Proof.
  induction L as [|c L IH]; intro r; [left; split; [reflexivity|easy]|]. cbn [visit]. unfold llx_test at 1 3.
  destruct (k_lookup K (simplex_of c 0)) as [t|] eqn:E; cbn [bind fst snd].
  - right. exists [], c, L, t. refine (conj eq_refl (conj _ (conj E eq_refl))). easy.
  - destruct (IH r) as [[H1 H2]|(L1 & c' & L2 & t & -> & H1 & H2 & H3)].
    + left. split; [exact H1|]. intros c' [<-|Hc]; auto.
    + right. exists (c :: L1), c', L2, t. refine (conj eq_refl (conj _ (conj H2 H3))). intros c0 [<-|Hc]; auto.
Qed.

(** C67: the stored face of [s] of the highest dimension, and among these the
    one that is last in the lexicographic order of the (descending) vertices *)
Theorem C67_last : forall K s, reachable K -> wf s ->
  exists r, lastLexicographicalIntersection K s = Ok r /\
    ((verts r = [] /\ forall t, In t (by_index K) -> ~ subset (verts t) (verts s)) \/
     (In r (by_index K) /\ subset (verts r) (verts s) /\
      forall t, In t (by_index K) -> subset (verts t) (verts s) ->
        length (verts t) < length (verts r) \/ t = r \/ (length (verts t) = length (verts r) /\ before (verts t) (verts r)))).
Proof.
  intros K s HR W. pose proof (reachable_kwf K HR) as HK. unfold lastLexicographicalIntersection.
  assert (Uniq : forall t t', In t (by_index K) -> In t' (by_index K) -> verts t = verts t' -> t = t').
  { intros t t' Ht Ht' E. assert (F : k_lookup K t = Some t) by (apply lookup_some; auto). assert (F' : k_lookup K t = Some t') by (apply lookup_some; auto). congruence. }
  assert (G : forall d, d <= length (verts s) -> (forall t, In t (by_index K) -> subset (verts t) (verts s) -> length (verts t) <= d) ->
    exists r, llx_loop K d (verts s) simplex_empty = Ok r /\
    ((verts r = [] /\ forall t, In t (by_index K) -> ~ subset (verts t) (verts s)) \/
     (In r (by_index K) /\ subset (verts r) (verts s) /\
      forall t, In t (by_index K) -> subset (verts t) (verts s) ->
        length (verts t) < length (verts r) \/ t = r \/ (length (verts t) = length (verts r) /\ before (verts t) (verts r))))).
  { induction d as [|d IH]; intros Hd HT.
    - exists simplex_empty. split; [reflexivity|]. left. split; [reflexivity|]. intros t Ht Hs. specialize (HT t Ht Hs).
      destruct (kwf_good K HK t Ht) as [_ Nt]. destruct (verts t); [easy|simpl in HT; lia].
    - cbn [llx_loop]. pose proof (for_each_ok (llx_test K) (S d) (verts s) simplex_empty Hd) as M.
      assert (SC : forall c, In c (combs (S d) (verts s)) -> StronglySorted gt c /\ length c = S d /\ subset c (verts s)) by (intros c Hc; apply (combs_In_gt _ W); auto).
      assert (SV : forall c, StronglySorted gt c -> verts (simplex_of c 0) = c) by (intros c Hc; apply (simplex_of_id (Simplex c 0) 0 Hc)).
      destruct (llx_visit K (combs (S d) (verts s)) simplex_empty) as [[V N]|(L1 & c & L2 & t & EL & N & Et & V)]; rewrite V in M; cbn [matches] in M.
      + rewrite M. cbn [bind s_empty simplex_empty verts negb]. apply IH; [lia|]. intros t Ht Hs. specialize (HT t Ht Hs).
        destruct (Nat.eq_dec (length (verts t)) (S d)) as [E|]; [|lia]. exfalso.
        destruct (kwf_good K HK t Ht) as [Wt _]. assert (Hc : In (verts t) (combs (S d) (verts s))) by (apply (combs_In_gt _ W); auto).
        apply N in Hc. assert (F : k_lookup K (simplex_of (verts t) 0) = Some t) by (apply lookup_some; auto; split; auto; rewrite SV; auto). congruence.
      + destruct M as [v' M]. rewrite M. cbn [bind]. apply (lookup_some K _ t HK) in Et. destruct Et as [Ht Ev].
        assert (Hc : In c (combs (S d) (verts s))) by (rewrite EL; apply in_or_app; right; left; reflexivity).
        destruct (SC c Hc) as (S1 & L & Sb). rewrite SV in Ev by auto.
        assert (Ne : s_empty t = false) by (unfold s_empty; rewrite Ev; destruct c; [discriminate L|reflexivity]). rewrite Ne. cbn [negb].
        exists t. split; [reflexivity|]. right. rewrite Ev. refine (conj Ht (conj Sb _)). intros t' Ht' Hs'. specialize (HT t' Ht' Hs').
        destruct (Nat.eq_dec (length (verts t')) (S d)) as [E|]; [|left; lia]. right.
        destruct (kwf_good K HK t' Ht') as [Wt' _]. assert (Hc' : In (verts t') (combs (S d) (verts s))) by (apply (combs_In_gt _ W); auto).
        pose proof (combs_ordered_gt _ W (S d)) as O. rewrite EL in Hc', O. apply in_app_or in Hc'. destruct Hc' as [Hc'|[Hc'|Hc']].
        * exfalso. apply N in Hc'. assert (F : k_lookup K (simplex_of (verts t') 0) = Some t') by (apply lookup_some; auto; split; auto; rewrite SV; auto). congruence.
        * left. apply Uniq; auto. congruence.
        * right. split; [lia|]. apply StronglySorted_app in O. destruct O as (_ & O & _). inversion O as [|? ? O1 O2]; subst. rewrite Forall_forall in O2. apply O2; auto. }
  apply G; [reflexivity|]. intros t Ht Hs. apply NoDup_incl_length; [apply SSgt_NoDup; apply (kwf_good K HK t Ht)|exact Hs].
Qed.

Example C67_example :
  lastLexicographicalIntersection (mk [PushBack [0; 1; 2] 3; PushBack [2; 5] 1; CreateMissingFaces]) (simplex_of [1; 2; 5] 0) = Ok (Simplex [5; 2] 1) /\
  lastLexicographicalIntersection (mk [PushBack [0; 1; 2] 3; PushBack [2; 5] 1; CreateMissingFaces]) (simplex_of [1; 2; 4] 0) = Ok (Simplex [2; 1] 3) /\
  lastLexicographicalIntersection (mk [PushBack [0; 1; 2] 3; PushBack [2; 5] 1; CreateMissingFaces]) (simplex_of [3; 4] 0) = Ok simplex_empty.
Proof. repeat split; vm_compute; reflexivity. Qed.

Print Assumptions C66_intersect.
Print Assumptions C66_closed.
Print Assumptions C66_constrained.
Print Assumptions C66_constrained_vertex.
Print Assumptions C66_constrained_refuted.
Print Assumptions C66_empty.
Print Assumptions C67_last.
