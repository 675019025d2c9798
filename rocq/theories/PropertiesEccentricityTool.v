(** * Property C184: the example for Vietoris-Rips complexes with eccentricities. *)
From Coq Require Import String Ascii.
From Coq Require Import List Arith NArith Bool ZArith QArith Qminmax Lia Lqa Sorted Permutation.
From Verif Require Import Base BaseFacts Simplex SimplexFacts SpecComplex Complex ComplexFacts WeightFacts FiltrationFacts Subcomplex SubcomplexFacts History PropertiesComplex Matrix SpecMatrix ReductionFacts PairingFacts SpecHomology HomologyFacts PropertiesHomology
  SpecDiagram Diagram DiagramFacts PropertiesDiagram PropertiesDiagramDims PropertiesDowker PropertiesComponents PropertiesLevels SpecSimplicial SimplicialFacts PropertiesSpineHomology SublevelFacts PropertiesSublevel JoinFacts
  VietorisRips PropertiesGraphTool PropertiesVietorisRips LoadMatrix SpecText LoadFacts StringUtilities PropertiesString ReadMatrices DiagramIO ImageTool PropertiesImage RipsTool PropertiesRipsTool EccentricityTool.
Import ListNotations.
Local Open Scope list_scope.
Local Open Scope nat_scope.

(** ** Specification *)
Definition is_upper (mode : star) : bool := match mode with UpperStar => true | _ => false end.
(** the simplices whose vertices have values at most [t], or at least [t] *)
Definition vertex_part (super : bool) (values : list Z) (t : Z) (K : complex) : list simplex :=
  filter (fun s => forallb (fun v => if super then (t <=? nth v values 0)%Z else (nth v values 0 <=? t)%Z) (verts s)) (by_index K).

(** ** Facts *)
Section Part.
  Variable P : list nat -> bool.
  Lemma part_verts n dist epsilon D L vs : rips_of n dist epsilon D L ->
    (In vs (map verts (filter (fun s => P (verts s)) (by_index L))) <-> StronglySorted gt vs /\ (exists k, k <= D /\ clique n dist epsilon k vs) /\ P vs = true).
  Proof.
    intros (HR & HC & HH). pose proof (reachable_kwf L HR) as HK. rewrite in_map_iff. split.
    - intros (s & <- & Hs). apply filter_In in Hs. destruct Hs as [Hs Q]. pose proof (kwf_good L HK s Hs) as [W N]. split; [exact W|]. split; [|exact Q].
      apply (HH (verts s) (SSgt_NoDup _ W) N). exists s. split; [exact Hs|intro v; tauto].
    - intros (S & (k & Hk & C) & Q). destruct (proj2 (HH vs (proj1 C) ltac:(intros ->; destruct C as (_ & X & _); discriminate))) as (s & Hs & E); [exists k; auto|].
      assert (Ev : verts s = vs). { apply SSgt_ext; [apply (kwf_good L HK s Hs)|exact S|exact E]. }
      exists s. split; [exact Ev|]. apply filter_In. split; [exact Hs|]. rewrite Ev. exact Q.
  Qed.
  Lemma part_nodup n dist epsilon D L : rips_of n dist epsilon D L -> NoDup (map verts (filter (fun s => P (verts s)) (by_index L))).
  Proof. intros (HR & _). pose proof (kwf_nodup L (reachable_kwf L HR)) as N. clear -N. induction (by_index L) as [|s l IH]; [constructor|]. inversion N as [|? ? N1 N2]; subst. cbn [filter]. destruct (P _); [|apply IH; exact N2]. cbn. constructor; [|apply IH; exact N2]. intro X. apply N1. apply in_map_iff in X. destruct X as (u & <- & Hu). apply filter_In in Hu. apply in_map. apply Hu. Qed.
  Lemma part_low n dist epsilon D D' K L : rips_of n dist epsilon D K -> rips_of n dist epsilon D' L -> D <= D' ->
    forall s, length s <= S D -> (In s (map verts (filter (fun s => P (verts s)) (by_index K))) <-> In s (map verts (filter (fun s => P (verts s)) (by_index L)))).
  Proof.
    intros HK HL HD s Hs. rewrite (part_verts n dist epsilon D K s HK), (part_verts n dist epsilon D' L s HL). split; intros (A & (k & Hk & C) & Q); (split; [exact A|split; [|exact Q]]); exists k; (split; [|exact C]); [lia|]. destruct C as (_ & X & _). lia.
  Qed.
End Part.
Lemma part_ranks n dist epsilon D D' P Q K L d r : rips_of n dist epsilon D K -> rips_of n dist epsilon D' L -> D <= D' -> d < D ->
  induced_rank (filter (fun s => P (verts s)) (by_index K)) (filter (fun s => Q (verts s)) (by_index K)) d r ->
  induced_rank (filter (fun s => P (verts s)) (by_index L)) (filter (fun s => Q (verts s)) (by_index L)) d r.
Proof.
  intros HK HL HD Hd (z & b & Hz & Hb & E). exists z, b. split; [|split; [|exact E]].
  - eapply p_dim_ext; [|exact Hz]. intro x. apply (low_cycles _ _ D (part_nodup P _ _ _ _ K HK) (part_nodup P _ _ _ _ L HL) (part_low P _ _ _ _ _ K L HK HL HD)). lia.
  - eapply p_dim_ext; [|exact Hb]. intro x. cbn beta.
    rewrite (low_cycles _ _ D (part_nodup P _ _ _ _ K HK) (part_nodup P _ _ _ _ L HL) (part_low P _ _ _ _ _ K L HK HL HD)) by lia.
    rewrite (low_boundaries _ _ D (part_nodup Q _ _ _ _ K HK) (part_nodup Q _ _ _ _ L HL) (part_low Q _ _ _ _ _ K L HK HL HD)) by lia. tauto.
Qed.
Lemma part_betti n dist epsilon D D' P K L d r : rips_of n dist epsilon D K -> rips_of n dist epsilon D' L -> D <= D' -> d < D ->
  simplicial_betti (filter (fun s => P (verts s)) (by_index K)) d r -> simplicial_betti (filter (fun s => P (verts s)) (by_index L)) d r.
Proof.
  intros HK HL HD Hd (z & b & Hz & Hb & E). exists z, b. split; [|split; [|exact E]].
  - eapply p_dim_ext; [|exact Hz]. intro x. apply (low_cycles _ _ D (part_nodup P _ _ _ _ K HK) (part_nodup P _ _ _ _ L HL) (part_low P _ _ _ _ _ K L HK HL HD)). lia.
  - eapply p_dim_ext; [|exact Hb]. intro x. apply (low_boundaries _ _ D (part_nodup P _ _ _ _ K HK) (part_nodup P _ _ _ _ L HL) (part_low P _ _ _ _ _ K L HK HL HD)). lia.
Qed.

Lemma recalculate_keeps lowest highest um sk l : forall K, reachable K -> (forall s, In s l -> wf s) -> reachable (fold_left (recalculate_step lowest highest um sk) l K).
Proof.
  induction l as [|s l IH]; intros K HR W; [exact HR|]. cbn [fold_left]. apply IH; [|intros t Ht; apply W; right; exact Ht]. unfold recalculate_step. destruct (_ || _); [exact HR|].
  unfold k_replace_at. destruct (k_find K s) as [i|]; [|exact HR]. apply replace_reachable; [exact HR|]. exact (W s (or_introl eq_refl)).
Qed.
Lemma recalculate_reachable lowest highest um sk K : reachable K -> reachable (recalculateWeights lowest highest um sk K).
Proof. intro HR. apply recalculate_keeps; [exact HR|]. intros s Hs. apply (kwf_good K (reachable_kwf K HR) s). apply WeightFacts.in_dim; [apply reachable_kwf; exact HR|exact Hs]. Qed.
Lemma rips_verts n dist epsilon D K L : rips_of n dist epsilon D K -> reachable L -> (forall vs, has (by_index L) vs <-> has (by_index K) vs) -> rips_of n dist epsilon D L.
Proof.
  intros (HR & HC & HH) RL E. split; [exact RL|]. split; [|intros vs N X; rewrite E; apply HH; assumption].
  intros s vs Hs N S. apply E. assert (H : has (by_index K) (verts s)) by (apply E; exists s; split; [exact Hs|intro v; tauto]). destruct H as (u & Hu & Q). apply (HC u vs Hu N). intros v Hv. apply Q. apply S. exact Hv.
Qed.

(** the complex before the calculation of the diagrams *)
Lemma star_facts order n dist epsilon dimension lowest highest mode values : (forall l, Permutation (order l) l) -> n <= length values -> (forall z, In z values -> (lowest <= z <= highest)%Z) ->
  exists K0 K, buildVietorisRipsComplex_values order n dist epsilon dimension lowest values = Ok K0 /\ star_filtration lowest highest mode values K0 = Ok K /\ rips_of n dist epsilon dimension K /\ filtration_order (by_index K) /\
    (if is_upper mode then descending_data (by_index K) else ascending_data (by_index K)) /\ (forall s, In s (by_index K) -> (data s <= highest)%Z) /\
    forall t, vertex_part (is_upper mode) values t K = level (is_upper mode) t (by_index K).
Proof.
  intros Ho Hn Hv. destruct (C71_values order n dist epsilon dimension lowest values Ho Hn ltac:(intros z Hz; apply Hv; exact Hz)) as (K0 & E & HR & HH & HM & HC & HF & HA).
  exists K0. pose proof (reachable_kwf K0 HR) as W0.
  assert (HI : rips_of n dist epsilon dimension K0).
  { split; [exact HR|]. split; [exact HC|]. intros vs N X. rewrite (HH vs N X). split.
    - intros (A & B & C). exists (length vs - 1). assert (0 < length vs) by (destruct vs; [contradiction|simpl; lia]). split; [lia|]. repeat split; auto; lia.
    - intros (k & Hk & _ & L & A & C). repeat split; auto; lia. }
  assert (Lt : forall L s v, rips_of n dist epsilon dimension L -> In s (by_index L) -> In v (verts s) -> v < length values).
  { intros L s v (RL & _ & XL) Hs Hx. destruct (kwf_good L (reachable_kwf L RL) s Hs) as [Ws Ns]. destruct (proj1 (XL (verts s) (SSgt_NoDup _ Ws) Ns)) as (k & _ & _ & _ & A & _); [exists s; split; [exact Hs|intro w; tauto]|]. specialize (A v Hx). lia. }
  assert (Rng : forall s, In s (by_index K0) -> (lowest <= data s <= highest)%Z).
  { intros s Hs. destruct (HM s Hs) as [(v & Hx & <-) _]. apply Hv, nth_In, (Lt K0 s v HI Hs Hx). }
  assert (Vtx : forall s v, In s (by_index K0) -> In v (verts s) -> exists t, In t (by_index K0) /\ subset (verts t) (verts s) /\ length (verts t) = 1 /\ data t = nth v values 0%Z).
  { intros s v Hs Hx. destruct (HC s [v] Hs ltac:(discriminate) ltac:(intros w [<-|[]]; exact Hx)) as (t & Ht & Q).
    assert (Ev : verts t = [v]). { apply SSgt_ext; [apply (kwf_good K0 W0 t Ht)|repeat constructor|exact Q]. }
    exists t. split; [exact Ht|]. rewrite Ev. split; [intros w [<-|[]]; exact Hx|]. split; [reflexivity|]. destruct (HM t Ht) as [(w & Hw & <-) _]. rewrite Ev in Hw. destruct Hw as [<-|[]]. reflexivity. }
  assert (One : forall t, In t (by_index K0) -> length (verts t) = 1 -> exists v, verts t = [v] /\ data t = nth v values 0%Z).
  { intros t Ht L. destruct (HM t Ht) as [(w & Hw & <-) _]. destruct (verts t) as [|v [|? ?]]; try discriminate. destruct Hw as [<-|[]]. exists v. split; reflexivity. }
  assert (LowPart : forall L t, (forall s, In s (by_index L) -> is_max_over (fun v => nth v values 0%Z) (verts s) (data s)) -> vertex_part false values t L = level false t (by_index L)).
  { intros L t HL. unfold vertex_part, level, below. apply filter_ext_in. intros s Hs. apply eq_true_iff_eq. rewrite forallb_forall, Z.leb_le. destruct (HL s Hs) as [(v & Hx & Ev) Q]. split; intro H.
    - specialize (H v Hx). cbn beta iota in H. apply Z.leb_le in H. cbn beta in Ev. lia.
    - intros u Hu. apply Z.leb_le. specialize (Q u Hu). cbn beta in Q. lia. }
  assert (UpPart : forall L t, (forall s, In s (by_index L) -> is_min_over (fun v => nth v values 0%Z) (verts s) (data s)) -> vertex_part true values t L = level true t (by_index L)).
  { intros L t HL. unfold vertex_part, level, above. apply filter_ext_in. intros s Hs. apply eq_true_iff_eq. rewrite forallb_forall, Z.leb_le. destruct (HL s Hs) as [(v & Hx & Ev) Q]. split; intro H.
    - specialize (H v Hx). cbn beta iota in H. apply Z.leb_le in H. cbn beta in Ev. lia.
    - intros u Hu. apply Z.leb_le. specialize (Q u Hu). cbn beta in Q. lia. }
  assert (Pos : forall R s', map verts (by_index R) = map verts (by_index K0) -> In s' (by_index R) -> exists i s, nth_error (by_index K0) i = Some s /\ nth_error (by_index R) i = Some s' /\ verts s = verts s').
  { intros R s' EV Hs. apply In_nth_error in Hs. destruct Hs as [i Hi]. assert (X : nth_error (map verts (by_index R)) i = Some (verts s')) by (rewrite nth_error_map, Hi; reflexivity).
    rewrite EV, nth_error_map in X. destruct (nth_error (by_index K0) i) as [s|] eqn:E0; [|discriminate]. injection X as X. exists i, s. auto. }
  destruct mode; cbn [star_filtration is_upper].
  - exists K0. split; [exact E|]. split; [reflexivity|]. split; [exact HI|]. split; [exact HF|]. split; [exact HA|]. split; [intros s Hs; apply Rng; exact Hs|]. intro t. apply LowPart. exact HM.
  - set (R := recalculateWeights lowest highest false false K0). assert (RR : reachable R) by (apply recalculate_reachable; exact HR).
    destruct (C07_recalculate_minimum lowest highest K0 HR HC Rng) as [EV RW]. fold R in EV, RW.
    assert (HIR : rips_of n dist epsilon dimension R) by (apply (rips_verts _ _ _ _ K0 R HI RR); intro vs; apply has_verts_eq; exact EV).
    assert (MR : forall s, In s (by_index R) -> is_min_over (fun v => nth v values 0%Z) (verts s) (data s)).
    { intros s' Hs'. destruct (Pos R s' EV Hs') as (i & s & Hi & Hi' & Ev). destruct (RW i s s' Hi Hi') as [(t & Ht & St & Lt1 & Et) Q]. apply nth_error_In in Hi. rewrite <- Ev. split.
      - destruct (One t Ht Lt1) as (v & Etv & Edv). exists v. split; [apply St; rewrite Etv; left; reflexivity|]. cbn beta. congruence.
      - intros v Hx. destruct (Vtx s v Hi Hx) as (u & Hu & Su & Lu & <-). apply Q; assumption. }
    destruct (C08_upper_star highest values R RR ltac:(intros x Hx; apply Hv; exact Hx) ltac:(intros s v; apply Lt; exact HIR)) as (K & EK & PK & FK & AK). exists K. split; [exact E|]. split; [exact EK|].
    assert (RK : reachable K). { unfold sort_upper_star in EK. destruct (values_cover values R); [|discriminate]. injection EK as <-. apply sort_reachable. exact RR. }
    assert (MK : forall s, In s (by_index K) -> is_min_over (fun v => nth v values 0%Z) (verts s) (data s)) by (intros s Hs; apply MR; apply (Permutation_in _ PK); exact Hs).
    assert (HIK : rips_of n dist epsilon dimension K) by (apply (rips_verts _ _ _ _ R K HIR RK); intro vs; apply PropertiesVietorisRips.has_perm; exact PK).
    split; [exact HIK|]. split; [exact FK|]. split; [|split; [|intro t; apply UpPart; exact MK]].
    + intros i j s t Hij Hs Ht. apply (AK i j s t _ _ Hij Hs Ht); apply MK; eapply nth_error_In; eassumption.
    + intros s Hs. destruct (MK s Hs) as [(v & Hx & <-) _]. apply Hv, nth_In. apply (Lt K s v); assumption.
  - set (R := recalculateWeights lowest highest true false K0). assert (RR : reachable R) by (apply recalculate_reachable; exact HR).
    destruct (C07_recalculate_maximum lowest highest K0 HR HC Rng) as [EV RW]. fold R in EV, RW.
    assert (HIR : rips_of n dist epsilon dimension R) by (apply (rips_verts _ _ _ _ K0 R HI RR); intro vs; apply has_verts_eq; exact EV).
    assert (MR : forall s, In s (by_index R) -> is_max_over (fun v => nth v values 0%Z) (verts s) (data s)).
    { intros s' Hs'. destruct (Pos R s' EV Hs') as (i & s & Hi & Hi' & Ev). destruct (RW i s s' Hi Hi') as [(t & Ht & St & Lt1 & Et) Q]. apply nth_error_In in Hi. rewrite <- Ev. split.
      - destruct (One t Ht Lt1) as (v & Etv & Edv). exists v. split; [apply St; rewrite Etv; left; reflexivity|]. cbn beta. congruence.
      - intros v Hx. destruct (Vtx s v Hi Hx) as (u & Hu & Su & Lu & <-). apply Q; assumption. }
    destruct (C08_lower_star lowest values R RR ltac:(intros x Hx; apply Hv; exact Hx) ltac:(intros s v; apply Lt; exact HIR)) as (K & EK & PK & FK & AK). exists K. split; [exact E|]. split; [exact EK|].
    assert (RK : reachable K). { unfold sort_lower_star in EK. destruct (values_cover values R); [|discriminate]. injection EK as <-. apply sort_reachable. exact RR. }
    assert (MK : forall s, In s (by_index K) -> is_max_over (fun v => nth v values 0%Z) (verts s) (data s)) by (intros s Hs; apply MR; apply (Permutation_in _ PK); exact Hs).
    assert (HIK : rips_of n dist epsilon dimension K) by (apply (rips_verts _ _ _ _ R K HIR RK); intro vs; apply PropertiesVietorisRips.has_perm; exact PK).
    split; [exact HIK|]. split; [exact FK|]. split; [|split; [|intro t; apply LowPart; exact MK]].
    + intros i j s t Hij Hs Ht. apply (AK i j s t _ _ Hij Hs Ht); apply MK; eapply nth_error_In; eassumption.
    + intros s Hs. destruct (MK s Hs) as [(v & Hx & <-) _]. apply Hv, nth_In. apply (Lt K s v); assumption.
Qed.

(** ** The theorems *)
Theorem C184_eccentricity : forall show inf lowest highest order horder a mode input n dist epsilon dimension values,
  (forall l, Permutation (order l) l) -> (forall l, Permutation (horder l) l) -> 0 < n -> n <= length values -> (forall z, In z values -> (lowest <= z <= highest)%Z) -> (highest < inf)%Z ->
  exists k dgm, largest n dist epsilon dimension k /\
    eccentricity_run show inf lowest highest order horder a mode input n dist epsilon dimension values = Ok (blocks_of show false input (fun d => map (plain_point inf) (dgm d)) k) /\
    forall d, d < k ->
      (forall p, In p (dgm d) -> fst p <> snd p) /\
      forall D L, dimension <= D -> rips_of n dist epsilon D L ->
        (forall s t, (if is_upper mode then t <= s else s <= t < inf)%Z ->
           induced_rank (vertex_part (is_upper mode) values s L) (vertex_part (is_upper mode) values t L) d (living (is_upper mode) inf s t (dgm d))) /\
        forall t, (t < inf)%Z -> simplicial_betti (vertex_part (is_upper mode) values t L) d (living (is_upper mode) inf t t (dgm d)).
Proof.
  intros show inf lowest highest order horder a mode input n dist epsilon dimension values Ho Hh Hn Hl Hv Hi.
  destruct (star_facts order n dist epsilon dimension lowest highest mode values Ho Hl Hv) as (K0 & K & E0 & E & HI & HF & HA & HD & HS). destruct (largest_exists n dist epsilon dimension K Hn HI) as (k & Hk).
  destruct (rips_top n dist epsilon dimension K k HI Hk) as [HT HT']. pose proof HI as (HR & HC & HH).
  destruct (output_facts_gen (is_upper mode) show inf horder a false false false input 0%Z K k Hh HR HC HF HA ltac:(intros s Hs; specialize (HD s Hs); lia) HT HT') as (ds & dgm & Ed & Eo & H).
  exists k, dgm. split; [exact Hk|]. split.
  - unfold eccentricity_run. rewrite E0. cbn [bind]. rewrite E. cbn [bind]. rewrite Ed. cbn [bind]. rewrite Eo. reflexivity.
  - intros d Hd. destruct (H d Hd) as (H1 & H2 & H3). split; [apply H1; reflexivity|]. intros D L HDL HL. assert (Hdd : d < dimension) by (destruct Hk as [Hk _]; lia). split.
    + intros s t Hst. unfold vertex_part. apply (part_ranks n dist epsilon dimension D (fun vs => forallb (fun v => if is_upper mode then (s <=? nth v values 0)%Z else (nth v values 0 <=? s)%Z) vs) (fun vs => forallb (fun v => if is_upper mode then (t <=? nth v values 0)%Z else (nth v values 0 <=? t)%Z) vs) K L d _ HI HL HDL Hdd).
      fold (vertex_part (is_upper mode) values s K) (vertex_part (is_upper mode) values t K). rewrite !HS. apply H2. exact Hst.
    + intros t Ht. unfold vertex_part. apply (part_betti n dist epsilon dimension D (fun vs => forallb (fun v => if is_upper mode then (t <=? nth v values 0)%Z else (nth v values 0 <=? t)%Z) vs) K L d _ HI HL HDL Hdd).
      fold (vertex_part (is_upper mode) values t K). rewrite HS. apply H3. exact Ht.
Qed.

Lemma fold_min l : forall x, (forall v, In v (x :: l) -> fold_left Qmin l x <= v)%Q /\ exists v, In v (x :: l) /\ (v == fold_left Qmin l x)%Q.
Proof.
  induction l as [|y l IH]; intro x; cbn [fold_left]; [split; [intros v [<-|[]]; apply Qle_refl|exists x; split; [left; reflexivity|reflexivity]]|].
  destruct (IH (Qmin x y)) as [A (v & Hv & Ev)]. split.
  - intros u Hu. pose proof (A (Qmin x y) (or_introl eq_refl)) as B. destruct Hu as [<-|[<-|Hu]]; [eapply Qle_trans; [exact B|apply Q.le_min_l]|eapply Qle_trans; [exact B|apply Q.le_min_r]|apply A; right; exact Hu].
  - destruct Hv as [<-|Hv]; [|exists v; split; [right; right; exact Hv|exact Ev]]. destruct (Q.min_spec x y) as [[_ X]|[_ X]]; [exists x|exists y]; (split; [cbn; auto|rewrite <- Ev; symmetry; exact X]).
Qed.
Lemma fold_max l : forall x, (forall v, In v (x :: l) -> v <= fold_left Qmax l x)%Q /\ exists v, In v (x :: l) /\ (v == fold_left Qmax l x)%Q.
Proof.
  induction l as [|y l IH]; intro x; cbn [fold_left]; [split; [intros v [<-|[]]; apply Qle_refl|exists x; split; [left; reflexivity|reflexivity]]|].
  destruct (IH (Qmax x y)) as [A (v & Hv & Ev)]. split.
  - intros u Hu. pose proof (A (Qmax x y) (or_introl eq_refl)) as B. destruct Hu as [<-|[<-|Hu]]; [eapply Qle_trans; [apply Q.le_max_l|exact B]|eapply Qle_trans; [apply Q.le_max_r|exact B]|apply A; right; exact Hu].
  - destruct Hv as [<-|Hv]; [|exists v; split; [right; right; exact Hv|exact Ev]]. destruct (Q.max_spec x y) as [[_ X]|[_ X]]; [exists y|exists x]; (split; [cbn; auto|rewrite <- Ev; symmetry; exact X]).
Qed.

(** The transformation sends the greatest eccentricity to 0, the least one to 1, everything into the interval between them, and it reverses the order. *)
Theorem C184_transformed : forall l, (exists u v, In u l /\ In v l /\ ~ (u == v)%Q) ->
  exists f, transformed l = Ok (map (fun v => Some (f v)) l) /\
    (forall u, In u l -> (0 <= f u <= 1)%Q) /\
    (forall u v, In u l -> In v l -> ((u < v)%Q <-> (f v < f u)%Q)) /\
    (forall u, In u l -> (forall v, In v l -> (v <= u)%Q) -> (f u == 0)%Q) /\
    forall u, In u l -> (forall v, In v l -> (u <= v)%Q) -> (f u == 1)%Q.
Proof.
  intros l (u0 & v0 & Hu0 & Hv0 & Hne). destruct l as [|x r]; [contradiction|].
  destruct (fold_min r x) as [Mn (a & Ha & Ea)]. destruct (fold_max r x) as [Mx (b & Hb & Eb)]. cbn [transformed].
  set (mn := fold_left Qmin r x) in *. set (mx := fold_left Qmax r x) in *. clearbody mn mx.
  assert (Pos : (0 < mx - mn)%Q).
  { pose proof (Mn u0 Hu0). pose proof (Mx u0 Hu0). pose proof (Mn v0 Hv0). pose proof (Mx v0 Hv0). destruct (Qlt_le_dec mn mx) as [L|L]; [lra|]. exfalso. apply Hne. lra. }
  exists (fun v => ((mx - v) / (mx - mn))%Q). split.
  - destruct (Qeq_bool (mx - mn) 0) eqn:Z0; [apply Qeq_bool_iff in Z0; exfalso; lra|reflexivity].
  - assert (Le : forall p q, (p / (mx - mn) <= q / (mx - mn))%Q <-> (p <= q)%Q) by (intros p q; unfold Qdiv; apply Qmult_le_r; apply Qinv_lt_0_compat; exact Pos).
    assert (Lt : forall p q, (p / (mx - mn) < q / (mx - mn))%Q <-> (p < q)%Q) by (intros p q; unfold Qdiv; apply Qmult_lt_r; apply Qinv_lt_0_compat; exact Pos).
    assert (Z0 : (0 == 0 / (mx - mn))%Q) by (unfold Qdiv; ring). assert (Z1 : (1 == (mx - mn) / (mx - mn))%Q) by (field; lra).
    split; [|split; [|split]].
    + intros u Hu. pose proof (Mn u Hu). pose proof (Mx u Hu). split; [rewrite Z0 at 1; apply Le; lra|rewrite Z1; apply Le; lra].
    + intros u v _ _. rewrite Lt. lra.
    + intros u Hu H. pose proof (H b Hb). pose proof (Mx u Hu). assert (Q0 : (mx - u == 0)%Q) by lra. rewrite Q0. symmetry. exact Z0.
    + intros u Hu H. pose proof (H a Ha). pose proof (Mn u Hu). assert (Q0 : (mx - u == mx - mn)%Q) by lra. rewrite Q0. symmetry. exact Z1.
Qed.

(** If all eccentricities agree (for example, for one point, or for the corners of a square), no value is a number; without points, the behaviour is undefined. *)
Theorem C184_constant_refuted : transformed [] = UB /\
  forall l, l <> [] -> (forall u v, In u l -> In v l -> (u == v)%Q) -> transformed l = Ok (map (fun _ => None) l).
Proof.
  split; [reflexivity|]. intros l Hl H. destruct l as [|x r]; [contradiction|]. destruct (fold_min r x) as [_ (a & Ha & Ea)]. destruct (fold_max r x) as [_ (b & Hb & Eb)]. cbn [transformed].
  assert (E : Qeq_bool (fold_left Qmax r x - fold_left Qmin r x) 0 = true). { apply Qeq_bool_iff. rewrite <- Ea, <- Eb, (H b a Hb Ha). ring. }
  rewrite E. reflexivity.
Qed.

(** The argument for the filtration: white space around the letter does not matter, and everything else selects no filtration. *)
Theorem C184_star : forall arguments,
  (star_of arguments = UpperStar <-> exists s r, arguments = s :: r /\ (trim s = chars "u" \/ trim s = chars "U")) /\
  (star_of arguments = LowerStar <-> exists s r, arguments = s :: r /\ (trim s = chars "l" \/ trim s = chars "L")).
Proof.
  intros [|s r]; cbn [star_of]; [split; (split; [discriminate|intros (s & r & X & _); discriminate])|].
  destruct (list_eq_dec ascii_dec (trim s) (chars "u")) as [A|A]; [|destruct (list_eq_dec ascii_dec (trim s) (chars "U")) as [B|B]; [|destruct (list_eq_dec ascii_dec (trim s) (chars "l")) as [C|C]; [|destruct (list_eq_dec ascii_dec (trim s) (chars "L")) as [D|D]]]];
    (split; split; [intro X; first [discriminate|exists s, r; auto]|intros (s' & r' & X & Y); injection X as <- <-; first [reflexivity|exfalso; destruct Y as [Y|Y]; rewrite Y in *; first [discriminate|contradiction|congruence]]|intro X; first [discriminate|exists s, r; auto]|intros (s' & r' & X & Y); injection X as <- <-; first [reflexivity|exfalso; destruct Y as [Y|Y]; rewrite Y in *; first [discriminate|contradiction|congruence]]]).
Qed.

(** ** Examples *)
(** the corners of a square and its centre, without diagonals: a loop of corners that is closed by the centre *)
Definition pyramid (u v : nat) : Z := if (u =? 4) || (v =? 4) then 2%Z else corners u v.
Example C184_pyramid :
  eccentricity_run show_coordinate 99 0 9 (fun l => l) (fun l => l) AStandard NoStar (chars "p") 5 pyramid 3 2 [0; 1; 0; 1; 3]%Z =
    Ok (chars "# Persistence diagram <p>" ++ [newline] ++ chars "#" ++ [newline] ++ chars "# Dimension: 0" ++ [newline] ++ chars "# Entries  : 2" ++ [newline] ++
        line ["0"; "inf"]%string ++ line ["0"; "1"]%string ++ [newline; newline] ++
        chars "# Persistence diagram <p>" ++ [newline] ++ chars "#" ++ [newline] ++ chars "# Dimension: 1" ++ [newline] ++ chars "# Entries  : 1" ++ [newline] ++
        line ["1"; "3"]%string ++ [newline; newline]) /\
  eccentricity_run show_coordinate 99 0 9 (fun l => l) (fun l => l) AStandard LowerStar (chars "p") 5 pyramid 3 2 [0; 1; 0; 1; 3]%Z =
  eccentricity_run show_coordinate 99 0 9 (fun l => l) (fun l => l) AStandard NoStar (chars "p") 5 pyramid 3 2 [0; 1; 0; 1; 3]%Z /\
  eccentricity_run show_coordinate 99 0 9 (fun l => l) (fun l => l) ATwist UpperStar (chars "p") 5 pyramid 3 2 [1; 3; 1; 3; 0]%Z =
    Ok (chars "# Persistence diagram <p>" ++ [newline] ++ chars "#" ++ [newline] ++ chars "# Dimension: 0" ++ [newline] ++ chars "# Entries  : 2" ++ [newline] ++
        line ["3"; "inf"]%string ++ line ["3"; "1"]%string ++ [newline; newline] ++
        chars "# Persistence diagram <p>" ++ [newline] ++ chars "#" ++ [newline] ++ chars "# Dimension: 1" ++ [newline] ++ chars "# Entries  : 1" ++ [newline] ++
        line ["1"; "0"]%string ++ [newline; newline]).
Proof. repeat split; vm_compute; reflexivity. Qed.
Example C184_letters : star_of [chars " u "] = UpperStar /\ star_of [chars "L"] = LowerStar /\ star_of [chars "upper"] = NoStar /\ star_of [] = NoStar.
Proof. repeat split; vm_compute; reflexivity. Qed.
Example C184_transformed_example : exists l, transformed [1; 3; 2]%Q = Ok l /\ Forall2 (fun a b => match a with Some q => (q == b)%Q | None => False end) l [1; 0; 1 # 2]%Q.
Proof. eexists. split; [vm_compute; reflexivity|]. repeat constructor. Qed.

Print Assumptions C184_eccentricity.
Print Assumptions C184_transformed.
Print Assumptions C184_constant_refuted.
Print Assumptions C184_star.
