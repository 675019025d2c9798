(** * Properties C25, C26 and C27: Rips expansion and weights. *)
From Coq Require Import List Arith Bool ZArith Lia Permutation Sorted.
From Verif Require Import Base BaseFacts Simplex SimplexFacts SpecComplex Complex ComplexFacts ClosureFacts DualFacts PairingFacts RepFacts
  History Subcomplex SubcomplexFacts PropertiesComplex SpecRips Rips RipsFacts.
Import ListNotations.

(** ** C25 *)
Lemma of_range_reachable l K : (forall s, In s l -> wf s) -> k_of_range l = Ok K -> reachable K.
Proof.
  intros Hw E. exists 0%Z, 0%Z, [InsertRange (map (fun s => (verts s, data s)) l)].
  unfold k_run. cbn [fold_left k_exec]. rewrite map_map. cbn [fst snd].
  assert (El : map (fun s => simplex_of (verts s) (data s)) l = l).
  { rewrite <- (map_id l) at 2. apply map_ext_in. intros s Hs. pose proof (simplex_of_id s (data s) (Hw s Hs)) as Hv.
    destruct s as [vs d]. unfold simplex_of in *. cbn [verts data] in *. rewrite Hv. auto. }
  rewrite El. unfold k_of_range in E. destruct (k_insert k_empty l) as [K' [[]|e| |]]; try discriminate. simpl. congruence.
Qed.

Lemma has_sorted L vs s : (forall t, In t L -> wf t) -> wf s -> set_eq (verts s) vs ->
  (has L vs <-> In (verts s) (map verts L)).
Proof.
  intros HL Hs E. split.
  - intros (t & Ht & Et). apply in_map_iff. exists t. split; auto. apply wf_ext; auto. intro v. rewrite (Et v), (E v). tauto.
  - intro H. apply in_map_iff in H. destruct H as (t & Et & Ht). exists t. split; auto. rewrite Et. auto.
Qed.

Lemma adj_has K a b : kwf K -> b < a -> (adj (getLowerNeighbours K) a b <-> has (by_index K) [a; b]).
Proof.
  intros HK Hab. rewrite (proj2 (lower_neighbours K HK)).
  assert (Hw : wf (Simplex [a; b] 0)) by (repeat constructor; auto).
  rewrite (has_sorted _ [a; b] (Simplex [a; b] 0)); auto; [|intros t Ht; apply (kwf_good K HK); auto|intro; reflexivity].
  rewrite in_map_iff. cbn [verts]. split; intros (e & H1 & H2); exists e; auto.
Qed.

Lemma clique_sorted K ws : kwf K -> StronglySorted gt ws ->
  (StronglySorted (adj (getLowerNeighbours K)) ws <-> clique (by_index K) ws).
Proof.
  intros HK Hs. induction Hs as [|v w Hw IH Hv]; [split; [intros _ u x []|constructor]|].
  rewrite Forall_forall in Hv. split.
  - intro H. inversion H as [|? ? H1 H2]; subst. rewrite Forall_forall in H2. apply IH in H1.
    assert (Hvw : forall x, In x w -> has (by_index K) [v; x]).
    { intros x Hx. apply adj_has; auto. apply Hv; auto. }
    intros a b [<-|Ha] [<-|Hb] Hne; [congruence|auto| |apply H1; auto].
    destruct (Hvw a Ha) as (t & Ht & Et). exists t. split; auto. intro y. rewrite (Et y). simpl. tauto.
  - intro H. constructor.
    + apply IH. intros a b Ha Hb. apply H; simpl; auto.
    + apply Forall_forall. intros x Hx. apply adj_has; auto; [apply Hv; auto|]. apply H; simpl; auto.
      specialize (Hv x Hx). lia.
Qed.

Theorem C25_expansion : forall order K dimension, (forall l, Permutation (order l) l) -> reachable K ->
  exists L, ripsExpander order K dimension = Ok L /\ reachable L /\
    NoDup (map verts (by_index L)) /\
    (forall vs, NoDup vs -> vs <> [] ->
       (has (by_index L) vs <->
        clique (by_index K) vs /\ length vs <= S dimension /\ exists v, top_of vs v /\ has (by_index K) [v])) /\
    (forall s, In s (by_index L) ->
       (length (verts s) <= 2 -> forall t, In t (by_index K) -> set_eq (verts t) (verts s) -> data s = data t) /\
       (2 < length (verts s) \/ ~ has (by_index K) (verts s) -> data s = 0%Z)).
Proof.
  intros order K dimension Ho HR. pose proof (reachable_kwf K HR) as HK.
  destruct (lower_neighbours K HK) as [Hm Hadj].
  assert (Hlt : forall a b, adj (getLowerNeighbours K) a b -> b < a).
  { intros a b H. apply Hadj in H. destruct H as (e & He & Ee). destruct (kwf_good K HK e He) as [Hw _].
    unfold wf in Hw. rewrite Ee in Hw. inversion Hw as [|? ? _ F]; subst. inversion F; subst. lia. }
  destruct (vertices_spec K HK) as [HVs HV].
  destruct (rips_loop order Ho (getLowerNeighbours K) Hm Hlt dimension (k_vertices K) (SSlt_NoDup _ HVs)) as (R & E & R1 & R2 & R3).
  assert (Ev : forall s, verts (reassign K s) = verts s).
  { intro s. unfold reassign. destruct (sdim s <=? 1); auto. destruct (k_lookup K s); auto. }
  assert (Em : map verts (map (reassign K) R) = map verts R) by (rewrite map_map; apply map_ext; auto).
  assert (Hg : forall s, In s (map (reassign K) R) -> good s).
  { intros s Hs. apply in_map_iff in Hs. destruct Hs as (t & <- & Ht). destruct (R2 t Ht) as (A & B & _).
    split; [unfold wf|]; rewrite Ev; auto. }
  destruct (of_range_new (map (reassign K) R) Hg) as (L & EL & HL & Hi); [rewrite Em; auto|].
  exists L. unfold ripsExpander. rewrite E. cbn [bind]. refine (conj EL (conj _ (conj _ (conj _ _)))).
  - apply (of_range_reachable _ L) in EL; auto. intros s Hs. apply Hg; auto.
  - rewrite Hi, Em. auto.
  - intros vs Hnd Hne. set (s0 := simplex_of vs 0).
    assert (Hs0 : set_eq (verts s0) vs) by (intro v; apply simplex_of_In).
    assert (Hw0 : wf s0) by apply simplex_of_wf.
    assert (Hlen : length (verts s0) = length vs).
    { apply Permutation_length, NoDup_Permutation; auto. apply SSgt_NoDup; auto. }
    rewrite (has_sorted (by_index L) vs s0); auto; [|intros t Ht; apply (kwf_good L HL); auto].
    rewrite Hi, Em, R3. 
    assert (Hcl : clique (by_index K) vs <-> clique (by_index K) (verts s0)).
    { unfold clique. split; intros H u v Hu Hv; apply H; apply Hs0; auto. }
    split.
    + intros (v & w & Es & Hv & Hss & Hl). rewrite Es in *. simpl in Hlen. refine (conj _ (conj _ _)); [|lia|].
      * apply Hcl. apply clique_sorted; auto. unfold wf in Hw0. rewrite Es in Hw0. auto.
      * exists v. split.
        -- split; [apply Hs0; simpl; auto|]. intros u Hu. apply Hs0 in Hu. unfold wf in Hw0. rewrite Es in Hw0.
           inversion Hw0 as [|? ? _ F]; subst. destruct Hu as [<-|Hu]; auto. rewrite Forall_forall in F. specialize (F u Hu). lia.
        -- apply HV in Hv. destruct Hv as (s & Hs & Es'). exists s. split; auto. rewrite Es'. intro; reflexivity.
    + intros (Hc & Hl & v & [Hv1 Hv2] & t & Ht & Et). apply Hcl in Hc.
      destruct (verts s0) as [|v0 w] eqn:Es; [destruct vs; [easy|]; exfalso; apply (Hs0 n); simpl; auto|].
      assert (v0 = v).
      { unfold wf in Hw0. rewrite Es in Hw0. inversion Hw0 as [|? ? _ F]; subst. rewrite Forall_forall in F.
        apply Hs0 in Hv1. destruct Hv1 as [|Hv1]; auto. specialize (F v Hv1).
        assert (v0 <= v) by (apply Hv2, Hs0; simpl; auto). lia. }
      subst v0. exists v, w. refine (conj eq_refl (conj _ (conj _ _))); [| |simpl in Hlen; lia].
      * apply HV. exists t. split; auto. destruct (kwf_good K HK t Ht) as [Hwt _].
        change [v] with (verts (Simplex [v] 0)). apply wf_ext; auto. repeat constructor.
      * apply clique_sorted; auto. unfold wf in Hw0. rewrite Es in Hw0. auto.
  - intros s Hs. rewrite Hi in Hs. apply in_map_iff in Hs. destruct Hs as (r & <- & Hr). destruct (R2 r Hr) as (W & N & D).
    rewrite Ev. unfold reassign. assert (Hsd : sdim r <=? 1 = (length (verts r) <=? 2)).
    { unfold sdim. destruct (verts r); [easy|]. simpl. rewrite Nat.sub_0_r. auto. }
    rewrite Hsd. split.
    + intros Hl t Ht Et. destruct (Nat.leb_spec (length (verts r)) 2); [|lia].
      destruct (k_lookup K r) as [t'|] eqn:El.
      * apply lookup_some in El; auto. destruct El as [H1 H2]. simpl. f_equal.
        apply (nodup_verts_eq K t' t HK); auto. rewrite H2. destruct (kwf_good K HK t Ht) as [Wt _]. apply wf_ext; auto. intro v. symmetry. apply Et.
      * exfalso. apply lookup_none, contains_false in El. apply El. apply in_map_iff. exists t. split; auto.
        destruct (kwf_good K HK t Ht) as [Wt _]. apply wf_ext; auto.
    + intros [Hl|Hl].
      * destruct (Nat.leb_spec (length (verts r)) 2); [lia|auto].
      * destruct (length (verts r) <=? 2); auto. destruct (k_lookup K r) as [t'|] eqn:El; auto. exfalso.
        apply lookup_some in El; auto. destruct El as [H1 H2]. apply Hl. exists t'. split; auto. rewrite H2. intro; reflexivity.
Qed.

(** If the ends of all edges are stored, the expansion is the skeleton of the
    clique complex. *)
Theorem C25_clique_complex : forall order K dimension, (forall l, Permutation (order l) l) -> reachable K ->
  (forall u v, has (by_index K) [u; v] -> has (by_index K) [u]) ->
  exists L, ripsExpander order K dimension = Ok L /\ closed (by_index L) /\
    (forall vs, NoDup vs -> 2 <= length vs ->
       (has (by_index L) vs <-> clique (by_index K) vs /\ length vs <= S dimension)) /\
    (forall v, has (by_index L) [v] <-> has (by_index K) [v]).
Proof.
  intros order K dimension Ho HR He. destruct (C25_expansion order K dimension Ho HR) as (L & E & HRL & _ & H & _).
  assert (Htop : forall vs, vs <> [] -> exists v, top_of vs v).
  { intros vs Hvs. exists (list_max vs). split.
    - destruct vs as [|x vs]; [easy|]. clear. revert x. induction vs as [|y vs IH]; intro x; simpl; [lia|].
      specialize (IH y). simpl in IH. destruct (Nat.max_spec x (Nat.max y (list_max vs))) as [[_ ->]|[_ ->]]; auto.
    - intros u Hu. pose proof (proj1 (list_max_le vs (list_max vs)) (le_n _)) as F. rewrite Forall_forall in F. auto. }
  assert (H2 : forall vs, NoDup vs -> 2 <= length vs ->
       (has (by_index L) vs <-> clique (by_index K) vs /\ length vs <= S dimension)).
  { intros vs Hn Hl. assert (Hne : vs <> []) by (destruct vs; [simpl in Hl; lia|discriminate]).
    rewrite (H vs Hn Hne). split; [tauto|]. intros [Hc Hd]. refine (conj Hc (conj Hd _)).
    destruct (Htop vs Hne) as (v & Hv). exists v. split; auto. destruct Hv as [Hv _].
    assert (Hu : exists u, In u vs /\ u <> v).
    { destruct vs as [|a [|b vs]]; [easy|simpl in Hl; lia|]. inversion Hn as [|? ? Ha _]; subst.
      destruct (Nat.eq_dec a v) as [->|Hav]; [exists b; split; [simpl; auto|intros ->; apply Ha; simpl; auto]|exists a; simpl; auto]. }
    destruct Hu as (u & Hu & Huv). apply (He v u). apply Hc; auto. }
  assert (H1 : forall v, has (by_index L) [v] <-> has (by_index K) [v]).
  { intro v. rewrite (H [v]); [|repeat constructor; easy|discriminate]. split.
    - intros (_ & _ & w & [[<-|[]] _] & Hw). auto.
    - intro Hv. refine (conj _ (conj _ _)); [intros a b [<-|[]] [<-|[]]; congruence|simpl; lia|].
      exists v. split; auto. split; [simpl; auto|]. intros u [<-|[]]. auto. }
  exists L. refine (conj E (conj _ (conj H2 H1))).
  intros s vs Hs Hne Hsub. pose proof (reachable_kwf L HRL) as HL. destruct (kwf_good L HL s Hs) as [Hw Hn].
  assert (Hsl : has (by_index L) (verts s)) by (exists s; split; auto; intro; reflexivity).
  set (t := simplex_of vs 0). assert (Ht : set_eq (verts t) vs) by (intro; apply simplex_of_In).
  assert (Hwt : wf t) by apply simplex_of_wf.
  assert (Htn : NoDup (verts t)) by (apply SSgt_NoDup; auto).
  assert (Hsn : NoDup (verts s)) by (apply SSgt_NoDup; auto).
  assert (Hts : forall x, In x (verts t) -> In x (verts s)) by (intros x Hx; apply Hsub, Ht; auto).
  assert (Hle : length (verts t) <= length (verts s)) by (apply NoDup_incl_length; auto).
  assert (Hres : has (by_index L) (verts t)).
  { destruct (verts t) as [|a [|b r]] eqn:Et.
    - exfalso. destruct vs; [easy|]. apply (Ht n). simpl; auto.
    - apply H1. destruct (verts s) as [|x [|y r]] eqn:Es; [easy| |].
      + assert (a = x) by (destruct (Hts a) as [<-|[]]; simpl; auto). subst. apply H1; auto.
      + apply H2 in Hsl; [|auto|simpl; lia]. destruct Hsl as [Hc _].
        inversion Hsn as [|? ? Hx _]; subst.
        destruct (Nat.eq_dec a x) as [->|Hax].
        * apply (He x y). apply Hc; simpl; auto. intros ->. apply Hx; simpl; auto.
        * apply (He a x). apply Hc; simpl; auto. apply Hts; simpl; auto.
    - rewrite <- Et in *. apply H2; auto; [rewrite Et; simpl; lia|].
      apply H2 in Hsl; auto; [|rewrite Et in Hle; simpl in Hle; lia]. destruct Hsl as [Hc Hd]. split; [|lia].
      intros u v Hu Hv. apply Hc; auto. }
  destruct Hres as (r & Hr & Er). exists r. split; auto. intro x. rewrite (Er x), (Ht x). tauto.
Qed.

Definition four_cycle_with_chord : complex :=
  mk [InsertRange [([0], 1%Z); ([1], 2%Z); ([2], 3%Z); ([3], 4%Z); ([0; 1], 5%Z); ([1; 2], 6%Z); ([2; 3], 7%Z); ([3; 0], 8%Z); ([0; 2], 9%Z)]].

Example C25_example : exists L, ripsExpander (fun l => l) four_cycle_with_chord 2 = Ok L /\
  map (fun s => (verts s, data s)) (by_index L) =
  [([0], 1%Z); ([1], 2%Z); ([1; 0], 5%Z); ([2], 3%Z); ([2; 1], 6%Z); ([2; 1; 0], 0%Z); ([2; 0], 9%Z); ([3], 4%Z);
   ([3; 2], 7%Z); ([3; 2; 0], 0%Z); ([3; 0], 8%Z)].
Proof. eexists. split; vm_compute; reflexivity. Qed.

(** ** C26 *)
(** [m] is the largest data of the faces of [vs] with at least [k] vertices *)
Definition is_max_of_large_faces (L : list simplex) (k : nat) (vs : list nat) (m : Z) : Prop :=
  (exists t, In t L /\ subset (verts t) vs /\ k <= length (verts t) /\ data t = m) /\
  (forall t, In t L -> subset (verts t) vs -> k <= length (verts t) -> (data t <= m)%Z).

Lemma max_weight_spec S l w : (forall f, In f l -> exists t, k_lookup S f = Some t) ->
  let r := fold_left (fun w f => match k_lookup S f with Some t => Z.max w (data t) | None => w end) l w in
  (w <= r)%Z /\ (forall f t, In f l -> k_lookup S f = Some t -> (data t <= r)%Z) /\
  (r = w \/ exists f t, In f l /\ k_lookup S f = Some t /\ data t = r).
Proof.
  revert w. induction l as [|f l IH]; intros w Hl; simpl.
  - refine (conj _ (conj _ _)); [lia|easy|auto].
  - destruct (Hl f) as (t & Ht); [simpl; auto|]. rewrite Ht.
    destruct (IH (Z.max w (data t))) as (A & B & C); [intros; apply Hl; simpl; auto|]. simpl in A, B, C.
    refine (conj _ (conj _ _)).
    + lia.
    + intros g u [<-|Hg] Hu; [|eauto]. rewrite Ht in Hu. injection Hu as <-. lia.
    + destruct C as [C|(g & u & Hg & Hu & E)]; [|right; exists g, u; auto].
      destruct (Z.max_spec w (data t)) as [[_ Em]|[_ Em]]; [right; exists f, t|left]; auto; [split; auto; split; auto|]; lia.
Qed.

Section Assign.
  Variable K : complex.
  Hypothesis HK : kwf K.
  Hypothesis HC : closed (by_index K).
  Variable b : nat.

  Definition weight_of (s : simplex) (d : Z) : Prop :=
    (sdim s <= b -> d = data s) /\ (b <= sdim s -> is_max_of_large_faces (by_index K) (Datatypes.S b) (verts s) d).

  Lemma facet_step S l1 s l2 : by_dim K = l1 ++ s :: l2 -> kwf S -> map verts (by_index S) = map verts l1 ->
    (forall t, In t (by_index S) -> exists s, In s l1 /\ verts s = verts t /\ weight_of s (data t)) ->
    b < sdim s -> weight_of s (max_weight S s).
  Proof.
    intros El HS Hv Hinv Hb.
    assert (Hin : forall t, In t (by_index K) <-> In t (l1 ++ s :: l2)) by (intro t; rewrite <- El; symmetry; apply WeightFacts.in_dim; auto).
    assert (Hs : In s (by_index K)) by (apply Hin, in_or_app; simpl; auto).
    destruct (kwf_good K HK s Hs) as [Hw Hn].
    assert (Hbd : closedB (by_index K)) by (apply closedB_closed; auto).
    assert (Hprev : forall t, In t (by_index K) -> sdim t < sdim s -> In t l1).
    { intros t Ht Hd. apply Hin in Ht. apply in_app_or in Ht. destruct Ht as [|[<-|Ht]]; [auto|lia|]. exfalso.
      pose proof (kwf_sorted K HK) as Hs'. rewrite El in Hs'. apply StronglySorted_app in Hs'.
      destruct Hs' as (_ & Hs' & _). inversion Hs' as [|? ? _ F]; subst. rewrite Forall_forall in F. specialize (F t Ht). unfold dim_le in F. lia. }
    assert (Hface : forall f, In f (boundary s) -> exists t, In t l1 /\ verts t = verts f /\
        exists t', k_lookup S f = Some t' /\ weight_of t (data t')).
    { intros f Hf. assert (HfK : In (verts f) (map verts (by_index K))) by (apply (Hbd s f); auto).
      apply in_map_iff in HfK. destruct HfK as (t & Et & Ht).
      pose proof (boundary_size s f Hw Hf) as Hsz. unfold s_size in Hsz.
      assert (Hd : sdim t < sdim s). { unfold sdim. rewrite Et. unfold sdim in Hb. lia. }
      specialize (Hprev t Ht Hd). exists t. refine (conj Hprev (conj Et _)).
      assert (Hl : In (verts f) (map verts (by_index S))) by (rewrite Hv, <- Et; apply in_map; auto).
      apply in_map_iff in Hl. destruct Hl as (t' & Et' & Ht'). exists t'. split; [apply lookup_some; auto|].
      destruct (Hinv t' Ht') as (t2 & H1 & H2 & H3).
      assert (t2 = t). { apply (nodup_verts_eq K t2 t HK); auto; [apply Hin, in_or_app; auto|congruence]. }
      subst t2. auto. }
    destruct (max_weight_spec S (boundary s) (data s)) as (M1 & M2 & M3).
    { intros f Hf. destruct (Hface f Hf) as (_ & _ & _ & t' & H & _). eauto. }
    fold (max_weight S s) in M1, M2, M3. split; [lia|]. intros _. split.
    - destruct M3 as [->|(f & t' & Hf & Hl & <-)].
      + exists s. refine (conj Hs (conj _ (conj _ eq_refl))); [intros v; auto|]. unfold sdim in Hb. lia.
      + destruct (Hface f Hf) as (t & Ht & Et & t2 & Hl2 & [_ Hw2]). rewrite Hl in Hl2. injection Hl2 as <-.
        pose proof (boundary_size s f Hw Hf) as Hsz. unfold s_size in Hsz.
        destruct Hw2 as [(u & U1 & U2 & U3 & U4) _]; [unfold sdim in *; rewrite Et; lia|].
        exists u. refine (conj U1 (conj _ (conj U3 U4))). intros v Hv'. apply (boundary_incl s f); auto. rewrite <- Et. auto.
    - intros u Hu Hsub Hlen. destruct (subset_dec (verts s) (verts u)) as [Hsu|(v & Hvs & Hvu)].
      + assert (u = s). { apply (nodup_verts_eq K u s HK); auto. apply wf_ext; auto; [apply (kwf_good K HK); auto|].
          intro v. split; [apply Hsub|apply Hsu]. }
        subst u. auto.
      + set (f := boundary_face s v). assert (Hf : In f (boundary s)).
        { apply in_boundary. split; [|exists v; auto]. unfold s_size. unfold sdim in Hb. lia. }
        destruct (Hface f Hf) as (t & Ht & Et & t' & Hl & [_ Hw2]).
        pose proof (boundary_size s f Hw Hf) as Hsz. unfold s_size in Hsz.
        destruct Hw2 as [_ Hw2]; [unfold sdim in *; rewrite Et; lia|].
        etransitivity; [apply (Hw2 u Hu); auto|apply (M2 f); auto].
        intros x Hx. rewrite Et. apply boundary_face_In. split; [apply Hsub; auto|]. intros ->. contradiction.
  Qed.

  Lemma assign_loop l1 l2 S : by_dim K = l1 ++ l2 -> kwf S -> map verts (by_index S) = map verts l1 ->
    (forall t, In t (by_index S) -> exists s, In s l1 /\ verts s = verts t /\ weight_of s (data t)) ->
    let S' := fold_left (assign_step b) l2 S in
    kwf S' /\ map verts (by_index S') = map verts (by_dim K) /\
    (forall t, In t (by_index S') -> exists s, In s (by_dim K) /\ verts s = verts t /\ weight_of s (data t)).
  Proof.
    revert l1 S. induction l2 as [|s l2 IH]; intros l1 S El HS Hv Hinv; cbn [fold_left].
    - rewrite app_nil_r in El. rewrite El. auto.
    - assert (Hs : In s (by_index K)) by (apply WeightFacts.in_dim; auto; rewrite El; apply in_or_app; simpl; auto).
      set (s' := if b <? sdim s then set_data s (max_weight S s) else s).
      assert (Es : verts s' = verts s) by (unfold s'; destruct (b <? sdim s); auto).
      destruct (push_back_new S s' HS) as [E HS'].
      + unfold good, wf. rewrite Es. apply (kwf_good K HK s Hs).
      + apply contains_false. rewrite Hv, Es. pose proof (WeightFacts.dim_nodup K HK) as Hn. rewrite El, map_app in Hn. simpl in Hn.
        apply NoDup_remove_2 in Hn. intro H. apply Hn. apply in_or_app; auto.
      + replace (assign_step b S s) with (fst (k_push_back S s')) by (unfold assign_step, s'; destruct (b <? sdim s); auto). rewrite E. cbn [fst]. apply (IH (l1 ++ [s])); auto.
        * rewrite <- app_assoc. auto.
        * cbn [by_index]. rewrite !map_app, Hv. simpl. rewrite Es. auto.
        * cbn [by_index]. intros t Ht. apply in_app_or in Ht. destruct Ht as [Ht|[<-|[]]].
          -- destruct (Hinv t Ht) as (u & H1 & H2). exists u. split; auto. apply in_or_app; auto.
          -- exists s. split; [apply in_or_app; simpl; auto|]. split; auto. unfold s'.
             destruct (Nat.ltb_spec b (sdim s)) as [Hb|Hb].
             ++ apply (facet_step S l1 s l2); auto.
             ++ split; auto. intro Hb'. assert (Hw : wf s) by (apply (kwf_good K HK s Hs)).
                assert (Hn : verts s <> []) by (apply (kwf_good K HK s Hs)).
                assert (Hlen : length (verts s) = Datatypes.S (sdim s)) by (unfold sdim; destruct (verts s); [easy|simpl; lia]).
                split; [exists s; refine (conj Hs (conj _ (conj _ eq_refl))); [intros v; auto|lia]|].
                intros t Ht Hsub Hl. replace t with s; [lia|]. apply (nodup_verts_eq K s t HK); auto.
                destruct (kwf_good K HK t Ht) as [Hwt _]. apply wf_ext; auto. intro v. split; [|apply Hsub].
                apply (NoDup_length_incl (SSgt_NoDup _ Hwt)); [lia|exact Hsub].
  Qed.
End Assign.

Theorem C26_weights : forall K b, reachable K -> closed (by_index K) ->
  let S := assignMaximumWeight K b in
  map verts (by_index S) = map verts (by_dim K) /\
  (forall s', In s' (by_index S) -> length (verts s') <= b + 1 ->
     exists s, In s (by_index K) /\ verts s = verts s' /\ data s = data s') /\
  (forall s', In s' (by_index S) -> b + 1 <= length (verts s') ->
     is_max_of_large_faces (by_index K) (b + 1) (verts s') (data s')) /\
  (forall s t, In s (by_index S) -> In t (by_index S) -> subset (verts t) (verts s) -> b + 1 <= length (verts t) ->
     (data t <= data s)%Z).
Proof.
  intros K b HR HC S. pose proof (reachable_kwf K HR) as HK.
  destruct (assign_loop K HK HC b [] (by_dim K) k_empty eq_refl empty_kwf eq_refl) as (A & B & C); [easy|].
  fold (assignMaximumWeight K b) in A, B, C. fold S in A, B, C.
  assert (D : forall s', In s' (by_index S) -> b + 1 <= length (verts s') ->
     is_max_of_large_faces (by_index K) (b + 1) (verts s') (data s')).
  { intros s' Hs' Hl. destruct (C s' Hs') as (s & Hs & Es & [_ Hw]). rewrite <- Es, Nat.add_1_r. apply Hw. unfold sdim. rewrite Es. lia. }
  refine (conj B (conj _ (conj D _))).
  - intros s' Hs' Hl. destruct (C s' Hs') as (s & Hs & Es & [Hw _]). exists s. refine (conj _ (conj Es _)).
    + apply WeightFacts.in_dim; auto.
    + symmetry. apply Hw. unfold sdim. rewrite Es. lia.
  - intros s t Hs Ht Hsub Hl.
    assert (Hls : length (verts t) <= length (verts s)).
    { destruct (kwf_good S A t Ht) as [Hwt _]. apply NoDup_incl_length; [apply SSgt_NoDup; auto|exact Hsub]. }
    destruct (D t Ht Hl) as [(u & U1 & U2 & U3 & <-) _]. destruct (D s Hs) as [_ H]; [lia|]. apply H; auto.
    intros v Hv. apply Hsub, U2; auto.
Qed.

(** As used after a Rips expansion: no simplex with more than two vertices has
    data larger than that of all of its edges. *)
Theorem C26_edges : forall K, reachable K -> closed (by_index K) ->
  (forall s, In s (by_index K) -> 2 < length (verts s) -> data s = 0%Z) ->
  (forall s, In s (by_index K) -> length (verts s) = 2 -> (0 <= data s)%Z) ->
  forall s, In s (by_index (assignMaximumWeight K 1)) -> 2 <= length (verts s) ->
    is_max_of_faces (by_index K) 1 s (data s).
Proof.
  intros K HR HC H0 Hpos s Hs Hl. destruct (C26_weights K 1 HR HC) as (Hv & _ & Hw & _).
  destruct (Hw s Hs Hl) as [(t & Ht & Hsub & Hlt & Ed) Hmax]. split.
  - destruct (Nat.eq_dec (length (verts t)) 2) as [E2|E2].
    + exists t. auto.
    + pose proof (reachable_kwf K HR) as HK. destruct (kwf_good K HK t Ht) as [Hwt _].
      destruct (verts t) as [|x [|y r]] eqn:Et; [simpl in Hlt; lia|simpl in Hlt; lia|].
      destruct (HC t [x; y]) as (e & He & Ee); auto; [discriminate|intros v [<-|[<-|[]]]; rewrite Et; simpl; auto|].
      assert (Le : length (verts e) = 2).
      { destruct (kwf_good K HK e He) as [Hwe _]. assert (Hxy : x <> y).
        { unfold wf in Hwt. rewrite Et in Hwt. inversion Hwt as [|? ? _ F]; subst. inversion F; subst. lia. }
        apply (Permutation_length (l' := [x; y])). apply NoDup_Permutation; [apply SSgt_NoDup; auto| |exact Ee].
        constructor; [intros [|[]]; congruence|constructor; [easy|constructor]]. }
      assert (Hse : subset (verts e) (verts s)).
      { intros v Hv'. apply Hsub. apply Ee in Hv'. destruct Hv' as [<-|[<-|[]]]; simpl; auto. }
      exists e. refine (conj He (conj Hse (conj Le _))).
      assert (data t = 0%Z) by (apply H0; auto; rewrite Et; simpl in *; lia).
      assert (data e <= data s)%Z by (apply Hmax; auto; lia).
      specialize (Hpos e He Le). lia.
  - intros t' Ht' Hs' L2. apply Hmax; auto. lia.
Qed.

Example C26_example : exists L, ripsExpander (fun l => l) four_cycle_with_chord 2 = Ok L /\
  map (fun s => (verts s, data s)) (filter (fun s => length (verts s) =? 3) (by_index (assignMaximumWeight L 1))) =
  [([2; 1; 0], 9%Z); ([3; 2; 0], 9%Z)].
Proof. eexists. split; [vm_compute; reflexivity|]. vm_compute. reflexivity. Qed.

(** With negative edge weights the weight of a triangle is 0, not the largest
    weight of its edges. *)
Theorem C26_negative_refuted : exists K L s, reachable K /\ ripsExpander (fun l => l) K 2 = Ok L /\
  In s (by_index (assignMaximumWeight L 1)) /\ length (verts s) = 3 /\
  data s = 0%Z /\ forall e, In e (by_index K) -> length (verts e) = 2 -> data e = (-1)%Z.
Proof.
  exists (mk [InsertRange [([0], 0%Z); ([1], 0%Z); ([2], 0%Z); ([0; 1], (-1)%Z); ([1; 2], (-1)%Z); ([0; 2], (-1)%Z)]]).
  eexists. exists (Simplex [2; 1; 0] 0). split; [apply mk_reachable|]. split; [vm_compute; reflexivity|].
  split; [vm_compute; tauto|]. split; [reflexivity|]. split; [reflexivity|].
  intros e He. vm_compute in He. decompose [or] He; clear He; subst; simpl; auto; try discriminate; contradiction.
Qed.

(** ** C27 *)
Definition rank (vertices : list nat) (v : nat) : nat := length (filter (fun u => u <? v) vertices).

Lemma vertex_index_rank vs v : StronglySorted lt vs -> In v vs -> vertex_index vs v = rank vs v.
Proof.
  unfold vertex_index, rank. induction 1 as [|x l Hl IH Hx]; intro Hin; [easy|].
  rewrite Forall_forall in Hx. simpl. destruct (Nat.eqb_spec v x) as [->|Hne].
  - rewrite Nat.ltb_irrefl. rewrite (filter_ext_in (fun u => u <? x) (fun _ => false)).
    + clear. induction l; simpl; auto.
    + intros u Hu. apply Nat.ltb_ge. specialize (Hx u Hu). lia.
  - destruct Hin as [->|Hin]; [congruence|]. specialize (Hx v Hin). destruct (Nat.ltb_spec x v); [|lia].
    specialize (IH Hin). simpl. destruct (position (Nat.eqb v) l) as [i|] eqn:E.
    + simpl. lia.
    + exfalso. rewrite (ComplexFacts.position_none _ l) in E. specialize (E v Hin). rewrite Nat.eqb_refl in E. discriminate.
Qed.

Lemma rank_lt vs v : In v vs -> rank vs v < length vs.
Proof.
  unfold rank. induction vs as [|x l IH]; intro H; [easy|]. simpl. destruct (Nat.ltb_spec x v).
  - destruct H as [->|H]; [lia|]. simpl. specialize (IH H). lia.
  - assert (length (filter (fun u => u <? v) l) <= length l) by (clear; induction l as [|a l IH]; simpl; [lia|]; destruct (a <? v); simpl; lia). lia.
Qed.

Lemma data_fold values vs (lowest : Z) l d : (forall v, In v l -> vertex_index vs v < length values) ->
  exists r, foldM (fun d v => let* x := get_ values (vertex_index vs v) in Ok (Z.max d x)) l d = Ok r /\
    (d <= r)%Z /\ (forall v, In v l -> (nth (vertex_index vs v) values 0%Z <= r)%Z) /\
    (r = d \/ exists v, In v l /\ nth (vertex_index vs v) values 0%Z = r).
Proof.
  revert d. induction l as [|v l IH]; intros d H; simpl.
  - exists d. refine (conj eq_refl (conj _ (conj _ _))); [lia|easy|auto].
  - unfold get_ at 1. destruct (nth_error values (vertex_index vs v)) as [x|] eqn:E.
    2:{ apply nth_error_None in E. specialize (H v). simpl in H. assert (vertex_index vs v < length values) by auto. lia. }
    simpl. destruct (IH (Z.max d x)) as (r & Er & A & B & C); [intros; apply H; simpl; auto|].
    exists r. refine (conj Er (conj _ (conj _ _))); [lia| |].
    + intros w [<-|Hw]; auto. rewrite (nth_error_nth _ _ 0%Z E). lia.
    + destruct C as [C|(w & Hw & E')]; [|right; eauto]. destruct (Z.max_spec d x) as [[_ Em]|[_ Em]]; [right; exists v|left; lia].
      split; auto. rewrite (nth_error_nth _ _ 0%Z E). lia.
Qed.

(** [values] has one entry per vertex in ascending order of the vertices. *)
Theorem C27_maximum_data : forall lowest K values, reachable K -> closed (by_index K) ->
  length (k_vertices K) <= length values -> (forall z, In z values -> lowest <= z)%Z ->
  exists S, assignMaximumData lowest K values = Ok S /\
    map verts (by_index S) = map verts (by_index K) /\
    forall s, In s (by_index S) -> is_max_over (fun v => nth (rank (k_vertices K) v) values 0%Z) (verts s) (data s).
Proof.
  intros lowest K values HR HC Hlen Hlow. pose proof (reachable_kwf K HR) as HK.
  destruct (vertices_spec K HK) as [HVs HV].
  assert (Hall : forall s v, In s (by_index K) -> In v (verts s) -> In v (k_vertices K)).
  { intros s v Hs Hv. destruct (HC s [v]) as (t & Ht & Et); auto; [discriminate|intros x [<-|[]]; auto|].
    apply HV. exists t. split; auto. destruct (kwf_good K HK t Ht) as [Hw _].
    change [v] with (verts (Simplex [v] 0)). apply wf_ext; auto. repeat constructor. }
  assert (G : forall l2 l1 S, by_index K = l1 ++ l2 -> kwf S -> map verts (by_index S) = map verts l1 ->
     (forall s, In s (by_index S) -> is_max_over (fun v => nth (rank (k_vertices K) v) values 0%Z) (verts s) (data s)) ->
     exists S', foldM (assign_data_step values lowest Z.max (k_vertices K)) l2 S = Ok S' /\
       map verts (by_index S') = map verts (by_index K) /\
       forall s, In s (by_index S') -> is_max_over (fun v => nth (rank (k_vertices K) v) values 0%Z) (verts s) (data s)).
  { induction l2 as [|s l2 IH]; intros l1 S El HS Hv Hinv.
    - exists S. rewrite app_nil_r in El. rewrite El. auto.
    - assert (Hs : In s (by_index K)) by (rewrite El; apply in_or_app; simpl; auto).
      assert (Hidx : forall v, In v (verts s) -> vertex_index (k_vertices K) v < length values).
      { intros v Hv'. rewrite vertex_index_rank by eauto. pose proof (rank_lt (k_vertices K) v (Hall s v Hs Hv')). lia. }
      destruct (data_fold values (k_vertices K) lowest (verts s) lowest Hidx) as (r & Er & A & B & C).
      assert (Hr : is_max_over (fun v => nth (rank (k_vertices K) v) values 0%Z) (verts s) r).
      { split.
        - destruct C as [->|(v & Hv' & E)].
          + destruct (verts s) as [|v vs] eqn:Es; [destruct (kwf_good K HK s Hs); congruence|].
            exists v. split; [simpl; auto|]. assert (Hv' : In v (verts s)) by (rewrite Es; simpl; auto).
            rewrite <- vertex_index_rank by eauto.
            assert (lowest <= nth (vertex_index (k_vertices K) v) values 0)%Z by (apply Hlow, nth_In, Hidx; simpl; auto).
            assert (nth (vertex_index (k_vertices K) v) values 0 <= lowest)%Z by (apply B; simpl; auto). lia.
          + exists v. split; auto. rewrite <- vertex_index_rank by eauto. auto.
        - intros v Hv'. rewrite <- vertex_index_rank by eauto. auto. }
      destruct (push_back_new S (set_data s r) HS) as [E HS'].
      + apply (kwf_good K HK s Hs).
      + apply contains_false. rewrite Hv. cbn [verts set_data]. pose proof (kwf_nodup K HK) as Hn. rewrite El, map_app in Hn. simpl in Hn.
        apply NoDup_remove_2 in Hn. intro H. apply Hn. apply in_or_app; auto.
      + cbn [foldM]. unfold assign_data_step at 1. rewrite Er. cbn [bind]. rewrite E. cbn [fst].
        apply (IH (l1 ++ [s])); auto.
        * rewrite <- app_assoc. auto.
        * cbn [by_index]. rewrite !map_app, Hv. auto.
        * cbn [by_index]. intros t Ht. apply in_app_or in Ht. destruct Ht as [Ht|[<-|[]]]; auto. }
  apply (G (by_index K) [] k_empty); auto; [apply empty_kwf|easy].
Qed.

Example C27_example : exists S, assignMaximumData (-1000) full_triangle [5%Z; (-3)%Z; 2%Z] = Ok S /\
  map (fun s => (verts s, data s)) (by_index S) =
  map (fun s => (verts s, match verts s with [v] => nth v [5%Z; (-3)%Z; 2%Z] 0%Z | [2; 1] => 2%Z | _ => 5%Z end)) (by_index full_triangle).
Proof. eexists. split; vm_compute; reflexivity. Qed.

Lemma foldM_UB {A B} (f : A -> B -> outcome A) l x : (forall a b, f a b = UB \/ exists r, f a b = Ok r) ->
  In x l -> (forall a, f a x = UB) -> forall a, foldM f l a = UB.
Proof.
  intros H Hx Hu. induction l as [|y l IH]; intro a; [easy|]. cbn [foldM].
  destruct (H a y) as [->|(r & E)]; auto. rewrite E. cbn [bind]. destruct Hx as [->|Hx]; auto.
  rewrite Hu in E. discriminate.
Qed.

(** fewer values than vertices: the container is read out of bounds *)
Theorem C27_missing_values : forall lowest K values, reachable K ->
  length values < length (k_vertices K) -> assignMaximumData lowest K values = UB.
Proof.
  intros lowest K values HR Hlen. pose proof (reachable_kwf K HR) as HK.
  destruct (vertices_spec K HK) as [HVs HV].
  set (v := nth (length values) (k_vertices K) 0).
  assert (Hv : In v (k_vertices K)) by (apply nth_In; auto).
  assert (Hr : vertex_index (k_vertices K) v = length values).
  { unfold vertex_index. destruct (position (Nat.eqb v) (k_vertices K)) as [i|] eqn:E.
    - apply ComplexFacts.position_some in E. destruct E as (a & Ha & Ea & _). apply Nat.eqb_eq in Ea. subst a.
      pose proof (nth_error_lt _ _ _ Ha). apply (NoDup_nth (k_vertices K) 0); [apply SSlt_NoDup; auto|auto|auto|].
      apply nth_error_nth with (d := 0) in Ha. auto.
    - exfalso. rewrite (ComplexFacts.position_none _ _) in E. specialize (E v Hv). rewrite Nat.eqb_refl in E. discriminate. }
  apply HV in Hv. destruct Hv as (s & Hs & Es).
  assert (T : forall l d, foldM (fun d v => let* x := get_ values (vertex_index (k_vertices K) v) in Ok (Z.max d x)) l d = UB \/
     exists r, foldM (fun d v => let* x := get_ values (vertex_index (k_vertices K) v) in Ok (Z.max d x)) l d = Ok r).
  { induction l as [|y l IH]; intro d; cbn [foldM]; [eauto|]. unfold get_ at 1 3.
    destruct (nth_error values _); cbn [bind]; auto. }
  apply (foldM_UB _ _ s); auto.
  - intros S t. unfold assign_data_step. destruct (T (verts t) lowest) as [->|(r & ->)]; cbn [bind]; eauto.
  - intro S. unfold assign_data_step. rewrite Es. cbn [foldM]. unfold get_. rewrite Hr.
    replace (nth_error values (length values)) with (@None Z) by (symmetry; apply nth_error_None; lia). reflexivity.
Qed.

Example C27_missing_example : assignMaximumData (-1000) full_triangle [5%Z; (-3)%Z] = UB.
Proof. vm_compute. reflexivity. Qed.

Print Assumptions C25_expansion.
Print Assumptions C25_clique_complex.
Print Assumptions C26_weights.
Print Assumptions C26_edges.
Print Assumptions C26_negative_refuted.
Print Assumptions C27_maximum_data.
Print Assumptions C27_missing_values.
