(** * Property C182: the example for Vietoris-Rips complexes. *)
From Coq Require Import String Ascii.
From Coq Require Import List Arith NArith Bool ZArith QArith Lia Sorted Permutation.
From Verif Require Import Base BaseFacts Simplex SimplexFacts SpecComplex Complex ComplexFacts FiltrationFacts Subcomplex SubcomplexFacts History PropertiesComplex Matrix SpecMatrix ReductionFacts PairingFacts SpecHomology HomologyFacts PropertiesHomology
  SpecDiagram Diagram DiagramFacts PropertiesDiagram PropertiesDiagramDims PropertiesDowker PropertiesComponents PropertiesLevels SpecSimplicial SimplicialFacts PropertiesSpineHomology SublevelFacts PropertiesSublevel JoinFacts
  VietorisRips PropertiesVietorisRips LoadMatrix SpecText LoadFacts StringUtilities PropertiesString ReadMatrices DiagramIO ImageTool PropertiesImage RipsTool.
Import ListNotations.
Local Open Scope list_scope.
Local Open Scope nat_scope.

(** ** Specification *)
(** a set of points with pairwise distances less than [epsilon], for a simplex of dimension [k] *)
Definition clique (n : nat) (dist : nat -> nat -> Z) (epsilon : Z) (k : nat) (vs : list nat) : Prop :=
  NoDup vs /\ length vs = S k /\ (forall v, In v vs -> v < n) /\ near dist epsilon vs.
(** the Vietoris-Rips complex with its dimension bounded *)
Definition rips_of (n : nat) (dist : nat -> nat -> Z) (epsilon : Z) (dimension : nat) (K : complex) : Prop :=
  reachable K /\ closed (by_index K) /\
  forall vs, NoDup vs -> vs <> [] -> (has (by_index K) vs <-> exists k, k <= dimension /\ clique n dist epsilon k vs).
(** its simplices with pairwise distances at most [t] *)
Definition scale (dist : nat -> nat -> Z) (t : Z) (K : complex) : list simplex :=
  filter (fun s => forallb (fun u => forallb (fun v => negb (u <? v) || (dist u v <=? t)%Z) (verts s)) (verts s)) (by_index K).
(** [k] is the largest dimension of a simplex *)
Definition largest (n : nat) (dist : nat -> nat -> Z) (epsilon : Z) (dimension k : nat) : Prop :=
  k <= dimension /\ (exists vs, clique n dist epsilon k vs) /\ forall j vs, j <= dimension -> clique n dist epsilon j vs -> j <= k.
(** the square of the greatest distance *)
Definition greatest_distance (n : nat) (dist : nat -> nat -> Z) (g : Z) : Prop :=
  (exists i j, i < j < n /\ dist i j = g) /\ forall i j, i < j < n -> (dist i j <= g)%Z.

(** ** Facts *)
Lemma rips_facts order n dist epsilon dimension : (forall l, Permutation (order l) l) -> (forall u v, u < v < n -> (0 <= dist u v)%Z) ->
  exists K, buildVietorisRipsComplex order n dist epsilon dimension = Ok K /\ rips_of n dist epsilon dimension K /\ filtration_order (by_index K) /\ ascending_data (by_index K) /\
    (forall s, In s (by_index K) -> (data s < Z.max 1 epsilon)%Z) /\
    forall t, (0 <= t)%Z -> scale dist t K = below t (by_index K).
Proof.
  intros Ho Hp. destruct (C71_rips order n dist epsilon dimension Ho Hp) as (K & E & HR & HH & V1 & V2 & HC & HF & HA). exists K. split; [exact E|].
  assert (HI : rips_of n dist epsilon dimension K).
  { split; [exact HR|]. split; [exact HC|]. intros vs N X. rewrite (HH vs N X). split.
    - intros (A & B & C). exists (length vs - 1). assert (0 < length vs) by (destruct vs; [contradiction|simpl; lia]). split; [lia|]. repeat split; auto; lia.
    - intros (k & Hk & _ & L & A & C). repeat split; auto; lia. }
  split; [exact HI|]. split; [exact HF|]. split; [exact HA|].
  assert (G : forall s, In s (by_index K) -> 1 <= length (verts s)). { intros s Hs. pose proof (kwf_good K (reachable_kwf K HR) s Hs) as [_ N]. destruct (verts s); [contradiction|simpl; lia]. }
  assert (HB : forall s, In s (by_index K) -> near dist epsilon (verts s)).
  { intros s Hs. pose proof (kwf_good K (reachable_kwf K HR) s Hs) as [W N]. apply (HH (verts s) (SSgt_NoDup _ W) N). exists s. split; [exact Hs|intro v; tauto]. }
  split.
  - intros s Hs. pose proof (G s Hs). destruct (Nat.eq_dec (length (verts s)) 1) as [L|L]; [rewrite (V1 s Hs L); lia|].
    destruct (V2 s Hs ltac:(lia)) as [(u & v & Hu & Hv & Huv & <-) _]. pose proof (HB s Hs u v Hu Hv Huv). lia.
  - intros t Ht. unfold scale, below. apply filter_ext_in. intros s Hs. pose proof (G s Hs). apply eq_true_iff_eq. rewrite forallb_forall, Z.leb_le. split; intro H0.
    + destruct (Nat.eq_dec (length (verts s)) 1) as [L|L]; [rewrite (V1 s Hs L); lia|]. destruct (V2 s Hs ltac:(lia)) as [(u & v & Hu & Hv & Huv & <-) _].
      specialize (H0 u Hu). rewrite forallb_forall in H0. specialize (H0 v Hv). destruct (Nat.ltb_spec u v); [cbn in H0; apply Z.leb_le; exact H0|lia].
    + intros u Hu. apply forallb_forall. intros v Hv. destruct (Nat.ltb_spec u v) as [Huv|]; [|reflexivity]. cbn. apply Z.leb_le.
      assert (2 <= length (verts s)). { destruct (verts s) as [|x [|y l]]; cbn in *; [lia|exfalso|lia]. destruct Hu as [<-|[]], Hv as [<-|[]]. lia. }
      pose proof (proj2 (V2 s Hs ltac:(lia)) u v Hu Hv Huv). lia.
Qed.

Lemma rips_top n dist epsilon dimension K k : rips_of n dist epsilon dimension K -> largest n dist epsilon dimension k ->
  (exists s, In s (by_index K) /\ length (verts s) = S k) /\ forall s, In s (by_index K) -> length (verts s) <= S k.
Proof.
  intros (HR & HC & HH) (Hk & (vs & N & L & A & B) & HM). pose proof (reachable_kwf K HR) as HK. split.
  - destruct (proj2 (HH vs N ltac:(intros ->; discriminate))) as (s & Hs & Q); [exists k; repeat split; auto|]. exists s. split; [exact Hs|]. rewrite <- L. apply Nat.le_antisymm.
    + apply (NoDup_incl_length (SSgt_NoDup _ (proj1 (kwf_good K HK s Hs)))). intros v Hv. apply Q. exact Hv.
    + apply (NoDup_incl_length N). intros v Hv. apply Q. exact Hv.
  - intros s Hs. pose proof (kwf_good K HK s Hs) as [W X]. destruct (proj1 (HH (verts s) (SSgt_NoDup _ W) X)) as (j & Hj & C); [exists s; split; [exact Hs|intro u; tauto]|].
    pose proof (HM j _ Hj C). destruct C as (_ & L' & _). lia.
Qed.

Lemma largest_exists n dist epsilon dimension K : 0 < n -> rips_of n dist epsilon dimension K -> exists k, largest n dist epsilon dimension k.
Proof.
  intros Hn (HR & HC & HH). pose proof (reachable_kwf K HR) as HK.
  assert (C : forall s, In s (by_index K) -> exists k, k <= dimension /\ clique n dist epsilon k (verts s)).
  { intros s Hs. pose proof (kwf_good K HK s Hs) as [W X]. apply (HH (verts s) (SSgt_NoDup _ W) X). exists s. split; [exact Hs|intro u; tauto]. }
  assert (H0 : has (by_index K) [0]).
  { apply HH; [repeat constructor; auto|discriminate|]. exists 0. split; [lia|]. split; [repeat constructor; auto|]. split; [reflexivity|]. split; [intros v [<-|[]]; exact Hn|]. intros u v [<-|[]] [<-|[]] X. lia. }
  destruct H0 as (s0 & Hs0 & _). set (lens := map (fun s => length (verts s)) (by_index K)).
  assert (Hne : lens <> []) by (unfold lens; intro X; apply map_eq_nil in X; rewrite X in Hs0; contradiction).
  assert (HB : forall x, In x lens -> x <= List.list_max lens) by (apply Forall_forall, List.list_max_le; lia).
  assert (HI : In (List.list_max lens) lens).
  { clear -Hne. induction lens as [|x l IH]; [contradiction|]. destruct l as [|y l]; [left; cbn; lia|]. change (List.list_max (x :: y :: l)) with (Nat.max x (List.list_max (y :: l))). destruct (Nat.max_spec x (List.list_max (y :: l))) as [[_ ->]|[_ ->]]; [right; apply IH; discriminate|left; reflexivity]. }
  apply in_map_iff in HI. destruct HI as (s & Es & Hs). destruct (C s Hs) as (k & Hk & HCk). exists k. split; [exact Hk|]. split; [exists (verts s); exact HCk|].
  intros j vs Hj Hc. destruct (proj2 (HH vs (proj1 Hc) ltac:(intros ->; destruct Hc as (_ & L & _); discriminate))) as (t & Ht & Q); [exists j; auto|].
  pose proof (HB _ (in_map (fun s => length (verts s)) _ _ Ht)) as L1. cbn in L1. rewrite <- Es in L1. destruct Hc as (N & L & _), HCk as (_ & L' & _).
  assert (length vs <= length (verts t)) by (apply (NoDup_incl_length N); intros v Hv; apply Q; exact Hv). lia.
Qed.

Lemma flat_map_ext_in {A B} (f g : A -> list B) l : (forall x, In x l -> f x = g x) -> flat_map f l = flat_map g l.
Proof. induction l as [|x l IH]; intro H; [reflexivity|]. cbn. rewrite (H x (or_introl eq_refl)), IH; [reflexivity|]. intros y Hy. apply H. right. exact Hy. Qed.
Lemma tail_block {A} (f : nat -> A -> str) (l : list A) : forall a m, m = a + length l -> 
  flat_map (fun x : nat * A => let (i, D) := x in if i + 1 =? m then f i D else []) (combine (seq a (length l)) l) =
  match rev l with [] => [] | D :: _ => f (m - 1) D end.
Proof.
  induction l as [|x l IH]; intros a m ->; [reflexivity|]. cbn [length seq combine flat_map]. rewrite (IH (S a)) by (cbn; lia). cbn [rev]. destruct l as [|y l].
  - cbn. rewrite Nat.eqb_refl, app_nil_r. f_equal. lia.
  - destruct (Nat.eqb_spec (a + 1) (a + S (length (y :: l)))) as [X|_]; [cbn in X; lia|]. cbn [app]. cbn [rev]. destruct (rev l ++ [y]) eqn:R; [destruct (rev l); discriminate|reflexivity].
Qed.

(** Homology of low dimensions depends on the simplices of low dimensions only. *)
Section Low.
  Variables (V W : list (list nat)) (k : nat).
  Hypothesis (NV : NoDup V) (NW : NoDup W) (HVW : forall s, length s <= S k -> (In s V <-> In s W)).
  Let low (l : list (list nat)) := filter (fun s => length s <=? S k) l.
  Lemma low_perm : Permutation (low V) (low W).
  Proof.
    apply NoDup_Permutation; [apply NoDup_filter; exact NV|apply NoDup_filter; exact NW|]. intro s. unfold low. rewrite !filter_In, Nat.leb_le. split; intros [A B]; (split; [apply HVW; assumption|exact B]).
  Qed.
  Lemma low_cycles d x : d <= k -> (s_cycles V d x <-> s_cycles W d x).
  Proof.
    intro L. rewrite <- (skel_cycles V (low V) k eq_refl d x L), <- (skel_cycles W (low W) k eq_refl d x L). pose proof low_perm as P. unfold s_cycles. split; intros [A B]; (split; [eapply s_chain_perm; [|exact A]|intro f; rewrite <- B]).
    - exact P.
    - symmetry. apply s_bd_perm. exact P.
    - apply Permutation_sym. exact P.
    - apply s_bd_perm. exact P.
  Qed.
  Lemma low_boundaries d x : d < k -> (s_boundaries V d x <-> s_boundaries W d x).
  Proof.
    intro L. rewrite <- (skel_boundaries V (low V) k eq_refl d x L), <- (skel_boundaries W (low W) k eq_refl d x L). pose proof low_perm as P. unfold s_boundaries. split; intros (y & A & B); exists y; (split; [eapply s_chain_perm; [|exact A]|intro f; rewrite (B f)]).
    - exact P.
    - apply s_bd_perm. exact P.
    - apply Permutation_sym. exact P.
    - symmetry. apply s_bd_perm. exact P.
  Qed.
End Low.

Lemma scale_verts n dist epsilon D t L vs : rips_of n dist epsilon D L ->
  (In vs (map verts (scale dist t L)) <-> StronglySorted gt vs /\ (exists k, k <= D /\ clique n dist epsilon k vs) /\ forall u v, In u vs -> In v vs -> u < v -> (dist u v <= t)%Z).
Proof.
  intros (HR & HC & HH). pose proof (reachable_kwf L HR) as HK. unfold scale. rewrite in_map_iff.
  assert (F : forall vs, forallb (fun u => forallb (fun v => negb (u <? v) || (dist u v <=? t)%Z) vs) vs = true <-> forall u v, In u vs -> In v vs -> u < v -> (dist u v <= t)%Z).
  { intro ws. rewrite forallb_forall. split.
    - intros H u v Hu Hv Huv. specialize (H u Hu). rewrite forallb_forall in H. specialize (H v Hv). destruct (Nat.ltb_spec u v); [cbn in H; apply Z.leb_le; exact H|lia].
    - intros H u Hu. apply forallb_forall. intros v Hv. destruct (Nat.ltb_spec u v); [|reflexivity]. cbn. apply Z.leb_le. auto. }
  split.
  - intros (s & <- & Hs). apply filter_In in Hs. destruct Hs as [Hs Q]. pose proof (kwf_good L HK s Hs) as [W N]. split; [exact W|]. split; [|apply F; exact Q].
    apply (HH (verts s) (SSgt_NoDup _ W) N). exists s. split; [exact Hs|intro v; tauto].
  - intros (S & (k & Hk & C) & Q). destruct (proj2 (HH vs (proj1 C) ltac:(intros ->; destruct C as (_ & X & _); discriminate))) as (s & Hs & E); [exists k; auto|].
    assert (Ev : verts s = vs). { apply SSgt_ext; [apply (kwf_good L HK s Hs)|exact S|exact E]. }
    exists s. split; [exact Ev|]. apply filter_In. split; [exact Hs|]. rewrite Ev. apply F. exact Q.
Qed.
Lemma scale_nodup n dist epsilon D t L : rips_of n dist epsilon D L -> NoDup (map verts (scale dist t L)).
Proof. intros (HR & _). pose proof (kwf_nodup L (reachable_kwf L HR)) as N. unfold scale. clear -N. induction (by_index L) as [|s l IH]; [constructor|]. inversion N as [|? ? N1 N2]; subst. cbn [filter]. destruct (forallb _ _); [|apply IH; exact N2]. cbn. constructor; [|apply IH; exact N2]. intro X. apply N1. apply in_map_iff in X. destruct X as (u & <- & Hu). apply filter_In in Hu. apply in_map. apply Hu. Qed.
Lemma scale_low n dist epsilon D D' t K L : rips_of n dist epsilon D K -> rips_of n dist epsilon D' L -> D <= D' ->
  forall s, length s <= S D -> (In s (map verts (scale dist t K)) <-> In s (map verts (scale dist t L))).
Proof.
  intros HK HL HD s Hs. rewrite (scale_verts n dist epsilon D t K s HK), (scale_verts n dist epsilon D' t L s HL). split; intros (A & (k & Hk & C) & Q); (split; [exact A|split; [|exact Q]]); exists k; (split; [|exact C]); [lia|]. destruct C as (_ & X & _). lia.
Qed.
Lemma scale_ranks n dist epsilon D D' s t K L d r : rips_of n dist epsilon D K -> rips_of n dist epsilon D' L -> D <= D' -> d < D ->
  induced_rank (scale dist s K) (scale dist t K) d r -> induced_rank (scale dist s L) (scale dist t L) d r.
Proof.
  intros HK HL HD Hd (z & b & Hz & Hb & Q). exists z, b. split; [|split; [|exact Q]].
  - eapply p_dim_ext; [|exact Hz]. intro x. apply (low_cycles _ _ D (scale_nodup _ _ _ _ s K HK) (scale_nodup _ _ _ _ s L HL) (scale_low _ _ _ _ _ s K L HK HL HD)). lia.
  - eapply p_dim_ext; [|exact Hb]. intro x. cbn beta.
    rewrite (low_cycles _ _ D (scale_nodup _ _ _ _ s K HK) (scale_nodup _ _ _ _ s L HL) (scale_low _ _ _ _ _ s K L HK HL HD)) by lia.
    rewrite (low_boundaries _ _ D (scale_nodup _ _ _ _ t K HK) (scale_nodup _ _ _ _ t L HL) (scale_low _ _ _ _ _ t K L HK HL HD)) by lia. tauto.
Qed.
Lemma scale_betti n dist epsilon D D' t K L d r : rips_of n dist epsilon D K -> rips_of n dist epsilon D' L -> D <= D' -> d < D ->
  simplicial_betti (scale dist t K) d r -> simplicial_betti (scale dist t L) d r.
Proof.
  intros HK HL HD Hd (z & b & Hz & Hb & Q). exists z, b. split; [|split; [|exact Q]].
  - eapply p_dim_ext; [|exact Hz]. intro x. apply (low_cycles _ _ D (scale_nodup _ _ _ _ t K HK) (scale_nodup _ _ _ _ t L HL) (scale_low _ _ _ _ _ t K L HK HL HD)). lia.
  - eapply p_dim_ext; [|exact Hb]. intro x. apply (low_boundaries _ _ D (scale_nodup _ _ _ _ t K HK) (scale_nodup _ _ _ _ t L HL) (scale_low _ _ _ _ _ t K L HK HL HD)). lia.
Qed.

(** the printed blocks *)
Definition blocks_of (show : coordinate -> str) (tail : bool) (input : str) (dgm : nat -> list (coordinate * coordinate)) (k : nat) : str :=
  flat_map (fun d => rips_block show input d (dgm d)) (if tail then (if k =? 0 then [] else [k - 1]) else seq 0 k).

Definition level (super : bool) (t : Z) (L : list simplex) : list simplex := if super then above t L else below t L.
Lemma output_facts_gen : forall (super : bool) show inf horder a keep normalize tail input m K k, (forall l, Permutation (horder l) l) ->
  reachable K -> closed (by_index K) -> filtration_order (by_index K) -> (if super then descending_data (by_index K) else ascending_data (by_index K)) -> (forall s, In s (by_index K) -> (data s < inf)%Z) ->
  (exists s, In s (by_index K) /\ length (verts s) = S k) -> (forall s, In s (by_index K) -> length (verts s) <= S k) ->
  exists ds dgm, calculatePersistenceDiagrams inf horder a K true false = Ok ds /\
    rips_output show inf keep normalize tail input m ds = blocks_of show tail input (fun d => map (if normalize then normalised_point inf m else plain_point inf) (dgm d)) k /\
    forall d, d < k ->
      (keep = false -> forall p, In p (dgm d) -> fst p <> snd p) /\
      (forall s t, (if super then t <= s else s <= t < inf)%Z -> induced_rank (level super s (by_index K)) (level super t (by_index K)) d (living super inf s t (dgm d))) /\
      forall t, (t < inf)%Z -> simplicial_betti (level super t (by_index K)) d (living super inf t t (dgm d)).
Proof.
  intros super show inf horder a keep normalize tail input m K k Hh HR HC HF HA HD HT HT'.
  destruct (C159_dimensions inf horder a K true false Hh HR HC HF) as (M & ds & _ & Ed & Es & _ & _ & Hlen). specialize (Hlen k HT HT'). cbn in Hlen. rewrite Hlen in Es.
  exists ds, (fun d => if keep then points_of ds d else filter (fun p : point => negb (fst p =? snd p)%Z) (points_of ds d)).
  assert (Q : forall d D, nth_error ds d = Some D -> dgm_dim D = d /\ points_of ds d = points D).
  { intros d D HD'. assert (X : dgm_dim D = d).
    { pose proof (map_nth_error dgm_dim d ds HD') as Y. rewrite Es in Y. assert (d < k) by (rewrite <- Hlen; apply nth_error_Some; congruence). rewrite (nth_error_nth' _ 0) in Y by (rewrite seq_length; lia). rewrite seq_nth in Y by lia. injection Y as Y. auto. }
    split; [exact X|]. unfold points_of. clear -HD' Es Hlen X.
    assert (Z0 : forall d l, (forall G, In G l -> dgm_dim G <> d) -> flat_map (fun D => if dgm_dim D =? d then points D else []) l = []).
    { clear. induction l as [|F l IH]; intro H; [reflexivity|]. cbn. destruct (Nat.eqb_spec (dgm_dim F) d) as [X|_]; [exfalso; apply (H F); [left; reflexivity|exact X]|]. apply IH. intros G HG. apply H. right. exact HG. }
    assert (G : forall ds a d, map dgm_dim ds = seq a (length ds) -> nth_error ds d = Some D -> flat_map (fun D => if dgm_dim D =? a + d then points D else []) ds = points D).
    { clear -Z0. induction ds as [|F ds IH]; intros a d Em H; [destruct d; discriminate|]. cbn in Em. injection Em as E0 Em. cbn [flat_map]. destruct d as [|d].
      - injection H as <-. rewrite E0, Nat.add_0_r, Nat.eqb_refl. rewrite Z0; [apply app_nil_r|].
        intros G HG. assert (Y : In (dgm_dim G) (seq (S a) (length ds))) by (rewrite <- Em; apply in_map; exact HG). apply in_seq in Y. lia.
      - rewrite E0. destruct (Nat.eqb_spec a (a + S d)); [lia|]. replace (a + S d) with (S a + d) by lia. apply IH; auto. }
    specialize (G ds 0 d). cbn [Nat.add] in G. apply G; [rewrite Hlen; exact Es|exact HD']. }
  split; [exact Ed|]. split.
  - unfold rips_output, blocks_of.
    set (pts := fun d => map (if normalize then normalised_point inf m else plain_point inf) (if keep then points_of ds d else filter (fun p : point => negb (fst p =? snd p)%Z) (points_of ds d))).
    assert (B : forall d D, nth_error ds d = Some D ->
      rips_block show input (dgm_dim (if keep then D else removeDiagonal D)) (map (if normalize then normalised_point inf m else plain_point inf) (points (if keep then D else removeDiagonal D))) = rips_block show input d (pts d)).
    { intros d D X. destruct (Q d D X) as [Q1 Q2]. unfold pts. rewrite Q2. destruct keep, normalize; cbn [removeDiagonal dgm_dim points]; rewrite Q1; reflexivity. }
    assert (CI : forall i D, In (i, D) (combine (seq 0 (length ds)) ds) -> nth_error ds i = Some D).
    { intros i D X. apply (In_nth_error) in X. destruct X as (j & X). assert (G : forall l b j, nth_error (combine (seq b (length l)) l) j = Some (i, D) -> i = b + j /\ nth_error l j = Some D).
      { clear. induction l as [|x l IH]; intros b j X; [destruct j; discriminate|]. destruct j as [|j]; cbn in X; [injection X as <- <-; split; [lia|reflexivity]|]. destruct (IH _ _ X). split; [lia|assumption]. }
      destruct (G ds 0 j X) as [-> Y]. exact Y. }
    destruct tail.
    + erewrite flat_map_ext_in with (g := fun x : nat * Diagram.diagram => let (i, D) := x in if i + 1 =? length ds then (fun i (_ : Diagram.diagram) => rips_block show input i (pts i)) i D else []).
      2: { intros [i D] X. rewrite (B i D (CI i D X)). rewrite orb_false_r. reflexivity. }
      etransitivity; [exact (tail_block (fun i _ => rips_block show input i (pts i)) ds 0 (length ds) eq_refl)|]. rewrite Hlen. destruct (rev ds) as [|D r] eqn:R.
      * assert (ds = []) by (rewrite <- (rev_involutive ds), R; reflexivity). subst ds. cbn in Hlen. rewrite <- Hlen. reflexivity.
      * destruct (Nat.eqb_spec k 0) as [X|X]; [assert (length (rev ds) = 0) by (rewrite rev_length; lia); rewrite R in *; discriminate|]. cbn. rewrite app_nil_r. reflexivity.
    + erewrite flat_map_ext_in with (g := fun x : nat * Diagram.diagram => rips_block show input (fst x) (pts (fst x))).
      2: { intros [i D] X. rewrite (B i D (CI i D X)). rewrite orb_true_r. reflexivity. }
      rewrite <- Hlen. clear. assert (G : forall l b, flat_map (fun x : nat * Diagram.diagram => rips_block show input (fst x) (pts (fst x))) (combine (seq b (length l)) l) = flat_map (fun d => rips_block show input d (pts d)) (seq b (length l))).
      { induction l as [|x l IH]; intro b; [reflexivity|]. cbn [length seq combine flat_map fst]. rewrite IH. reflexivity. }
      apply G.
  - intros d Hd. split; [intros -> p Hp'; apply filter_In in Hp'; destruct Hp' as [_ Hp']; apply negb_true_iff, Z.eqb_neq in Hp'; exact Hp'|].
    destruct (all_points inf horder a K true d Hh HR HC HF) as (ds' & es & Ed' & Ee & Epts); [destruct HT as (s & Hs & L); exists s; split; [exact Hs|lia]|]. rewrite Ed in Ed'. injection Ed' as <-.
    assert (HB : forall p, In p (points_of ds d) -> (fst p < inf)%Z).
    { intros p Hp'. pose proof (births_below inf horder a K true false ds (inf - 1) d p Hh HR HC HF ltac:(intros s Hs; specialize (HD s Hs); lia) Ed Hp'). lia. }
    assert (AL : forall s t, (if super then t <= s else s <= t)%Z -> living super inf s t (if keep then points_of ds d else filter (fun p : point => negb (fst p =? snd p)%Z) (points_of ds d)) = living super inf s t (points_of es d)).
    { intros s t Hst. rewrite <- Epts. destruct keep; [reflexivity|]. apply (living_off super inf s t _ Hst HB). }
    destruct super.
    + destruct (C178_superlevel inf horder a K true Hh HR HC HF HA HD) as (es' & Ee' & R1 & R2). rewrite Ee in Ee'. injection Ee' as <-.
      split; [intros s t Hst; rewrite AL by lia; apply R1|intros t Ht; rewrite AL by lia; apply R2].
    + destruct (C178_ranks inf horder a K true Hh HR HC HF HA) as (es' & Ee' & R1). rewrite Ee in Ee'. injection Ee' as <-.
      destruct (C178_betti inf horder a K true Hh HR HC HF HA) as (es' & Ee' & R2). rewrite Ee in Ee'. injection Ee' as <-.
      split; [intros s t Hst; rewrite AL by lia; apply R1; lia|intros t Ht; rewrite AL by lia; apply R2; lia].
Qed.
Lemma output_facts : forall show inf horder a keep normalize tail input m K k, (forall l, Permutation (horder l) l) ->
  reachable K -> closed (by_index K) -> filtration_order (by_index K) -> ascending_data (by_index K) -> (forall s, In s (by_index K) -> (data s < inf)%Z) ->
  (exists s, In s (by_index K) /\ length (verts s) = S k) -> (forall s, In s (by_index K) -> length (verts s) <= S k) ->
  exists ds dgm, calculatePersistenceDiagrams inf horder a K true false = Ok ds /\
    rips_output show inf keep normalize tail input m ds = blocks_of show tail input (fun d => map (if normalize then normalised_point inf m else plain_point inf) (dgm d)) k /\
    forall d, d < k ->
      (keep = false -> forall p, In p (dgm d) -> fst p <> snd p) /\
      (forall s t, (s <= t < inf)%Z -> induced_rank (below s (by_index K)) (below t (by_index K)) d (alive s t (dgm d))) /\
      forall t, (t < inf)%Z -> simplicial_betti (below t (by_index K)) d (alive t t (dgm d)).
Proof. exact (output_facts_gen false). Qed.

(** ** The theorems *)
(** The printed blocks are those of the dimensions below the largest one of a simplex, in order, or the last of them.  The points
    describe the homology of the Vietoris-Rips complexes [L] at all scales up to [epsilon], even of those with simplices of larger
    dimensions (for [D = n], the dimension is not bounded at all). *)
Theorem C182_rips : forall show inf order horder a keep normalize tail input n dist epsilon dimension,
  (forall l, Permutation (order l) l) -> (forall l, Permutation (horder l) l) -> (forall u v, u < v < n -> (0 <= dist u v)%Z) -> 0 < n -> (Z.max 1 epsilon <= inf)%Z ->
  exists k dgm, largest n dist epsilon dimension k /\
    rips_run show inf order horder a keep normalize tail input n dist epsilon dimension =
      Ok (blocks_of show tail input (fun d => map (if normalize then normalised_point inf (maxDistance n dist) else plain_point inf) (dgm d)) k) /\
    forall d, d < k ->
      (keep = false -> forall p, In p (dgm d) -> fst p <> snd p) /\
      forall D L, dimension <= D -> rips_of n dist epsilon D L ->
        (forall s t, (0 <= s <= t)%Z -> (t < inf)%Z -> induced_rank (scale dist s L) (scale dist t L) d (alive s t (dgm d))) /\
        forall t, (0 <= t < inf)%Z -> simplicial_betti (scale dist t L) d (alive t t (dgm d)).
Proof.
  intros show inf order horder a keep normalize tail input n dist epsilon dimension Ho Hh Hp Hn Hinf.
  destruct (rips_facts order n dist epsilon dimension Ho Hp) as (K & E & HI & HF & HA & HD & HS). destruct (largest_exists n dist epsilon dimension K Hn HI) as (k & Hk).
  destruct (rips_top n dist epsilon dimension K k HI Hk) as [HT HT']. pose proof HI as (HR & HC & HH).
  destruct (output_facts show inf horder a keep normalize tail input (if normalize then maxDistance n dist else 0%Z) K k Hh HR HC HF HA ltac:(intros s Hs; specialize (HD s Hs); lia) HT HT') as (ds & dgm & Ed & Eo & H).
  exists k, dgm. split; [exact Hk|]. split.
  - unfold rips_run. rewrite E. cbn [bind]. rewrite Ed. cbn [bind]. rewrite Eo. destruct normalize; reflexivity.
  - intros d Hd. destruct (H d Hd) as (H1 & H2 & H3). split; [exact H1|]. intros D L HDL HL. assert (Hdd : d < dimension) by (destruct Hk as [Hk _]; lia). split.
    + intros s t Hst Ht. apply (scale_ranks n dist epsilon dimension D s t K L d _ HI HL HDL Hdd). rewrite !HS by lia. apply H2; lia.
    + intros t Ht. apply (scale_betti n dist epsilon dimension D t K L d _ HI HL HDL Hdd). rewrite HS by lia. apply H3; lia.
Qed.

(** The divisor of the normalisation is the square of the greatest distance. *)
Theorem C182_divisor : forall n dist g, (forall u v, u < v < n -> (0 <= dist u v)%Z) -> greatest_distance n dist g -> maxDistance n dist = (g * g)%Z.
Proof.
  intros n dist g Hp ((i0 & j0 & H0 & E0) & HM). unfold maxDistance.
  assert (In1 : forall l i m, fold_left (fun m j => Z.max m (dist i j * dist i j)) l m = fold_left Z.max (map (fun j => (dist i j * dist i j)%Z) l) m).
  { induction l as [|j l IH]; intros i m; [reflexivity|]. cbn. apply IH. }
  assert (Out : forall l m, fold_left (fun m i => fold_left (fun m j => Z.max m (dist i j * dist i j)) (seq (i + 1) (n - (i + 1))) m) l m =
    fold_left Z.max (flat_map (fun i => map (fun j => (dist i j * dist i j)%Z) (seq (i + 1) (n - (i + 1)))) l) m).
  { induction l as [|i l IH]; intro m; [reflexivity|]. cbn [fold_left flat_map]. rewrite fold_left_app, IH, In1. reflexivity. }
  rewrite Out. set (L := flat_map _ _).
  assert (HL : forall x, In x L <-> exists i j, i < j < n /\ x = (dist i j * dist i j)%Z).
  { intro x. unfold L. rewrite in_flat_map. split.
    - intros (i & Hi & Hx). apply in_map_iff in Hx. destruct Hx as (j & <- & Hj). apply in_seq in Hi, Hj. exists i, j. split; [lia|reflexivity].
    - intros (i & j & H & ->). exists i. split; [apply in_seq; lia|]. apply in_map_iff. exists j. split; [reflexivity|apply in_seq; lia]. }
  assert (MX : forall l m, (m <= fold_left Z.max l m)%Z /\ (forall x, In x l -> (x <= fold_left Z.max l m)%Z) /\ (fold_left Z.max l m = m \/ In (fold_left Z.max l m) l)).
  { induction l as [|x l IH]; intro m; cbn; [split; [lia|]; split; [intros x []|left; reflexivity]|]. destruct (IH (Z.max m x)) as (A & B & C). split; [lia|]. split.
    - intros y [<-|Hy]; [lia|apply B; exact Hy].
    - destruct C as [C|C]; [|right; right; exact C]. rewrite C. destruct (Z.max_spec m x) as [[_ ->]|[_ ->]]; [right; left; reflexivity|left; reflexivity]. }
  destruct (MX L 0%Z) as (A & B & C). assert (G0 : (0 <= g)%Z) by (rewrite <- E0; apply Hp; exact H0).
  assert (Hg : (g * g <= fold_left Z.max L 0)%Z) by (apply B, HL; exists i0, j0; rewrite E0; auto). destruct C as [C|C].
  - rewrite C in Hg |- *. nia.
  - apply HL in C. destruct C as (i & j & H & C). pose proof (Hp i j H). pose proof (HM i j H). rewrite C in Hg |- *. apply Z.le_antisymm; [|exact Hg]. nia.
Qed.

(** A normalisation by the greatest distance would map it to 1. *)
Definition two_points (u v : nat) : Z := if u =? v then 0%Z else 2%Z.
(** The text of a block, line by line. *)
Definition unlines (l : list str) : str := flat_map (fun x => x ++ [newline]) l.
Theorem C182_block : forall show input d pts, rips_block show input d pts =
  unlines ([chars "# Persistence diagram <" ++ input ++ chars ">"; chars "#"; chars "# Dimension: " ++ print_nat d; chars "# Entries  : " ++ print_nat (length pts)] ++
    map (fun p => show (fst p) ++ [tab] ++ show (snd p)) pts ++ [[]; []]).
Proof.
  intros show input d pts. unfold rips_block, unlines. rewrite !flat_map_app. cbn [flat_map app]. rewrite <- !app_assoc. cbn [app]. do 3 f_equal.
  assert (E : forall l, print_points show (Dgm d l) = flat_map (fun x => x ++ [newline]) (map (fun p => show (fst p) ++ [tab] ++ show (snd p)) l)).
  { intro l. unfold print_points. cbn [dg_points]. induction l as [|p l IH]; [reflexivity|]. cbn [flat_map map]. rewrite IH, <- !app_assoc. reflexivity. }
  rewrite E. reflexivity.
Qed.
(** Normalised coordinates are quotients, and infinity becomes 1; other coordinates remain. *)
Theorem C182_points : forall inf m p,
  (snd p <> inf -> m <> 0%Z -> exists b d, normalised_point inf m p = (Some b, Some d) /\ (b * inject_Z m == inject_Z (fst p))%Q /\ (d * inject_Z m == inject_Z (snd p))%Q) /\
  (snd p = inf -> snd (normalised_point inf m p) = Some 1%Q /\ snd (plain_point inf p) = None) /\
  fst (plain_point inf p) = Some (inject_Z (fst p)) /\ (snd p <> inf -> snd (plain_point inf p) = Some (inject_Z (snd p))).
Proof.
  intros inf m [x y]. unfold normalised_point, plain_point. cbn [fst snd]. destruct (Z.eqb_spec y inf) as [E|E]; (split; [|split; [|split]]); try (intros; contradiction); auto.
  intros _ Hm. exists (inject_Z x / inject_Z m)%Q, (inject_Z y / inject_Z m)%Q. assert (Q0 : ~ (inject_Z m == 0)%Q) by (intro X; apply Hm; change 0%Q with (inject_Z 0) in X; apply (proj1 (inject_Z_injective m 0)) in X; exact X).
  split; [reflexivity|]. split; field; exact Q0.
Qed.

Definition show_coordinate (c : coordinate) : str :=
  match c with
  | None => chars "inf"
  | Some q => let q := Qred q in if (Qden q =? 1)%positive then print_Z (Qnum q) else print_Z (Qnum q) ++ chars "/" ++ print_Z (Zpos (Qden q))
  end.
Theorem C182_normalise_refuted : ~ (forall inf n dist g p, greatest_distance n dist g -> (0 < g < inf)%Z -> (0 <= fst p <= g)%Z -> (0 <= snd p <= g)%Z ->
  exists x y, normalised_point inf (maxDistance n dist) p = (Some x, Some y) /\ (x == inject_Z (fst p) / inject_Z g)%Q /\ (y == inject_Z (snd p) / inject_Z g)%Q).
Proof.
  intro H. destruct (H 9%Z 2 two_points 2%Z (0, 2)%Z) as (x & y & E & X & Y); [|lia|cbn; lia|cbn; lia|].
  - split; [exists 0, 1; split; [lia|reflexivity]|]. intros i j Hij. assert (i = 0 /\ j = 1) as [-> ->] by lia. cbn. lia.
  - vm_compute in E. injection E as <- <-. vm_compute in Y. discriminate.
Qed.
(** Points that are further apart than [epsilon] are components, but nothing is printed for them. *)
Theorem C182_isolated_refuted : ~ (forall show inf order horder a keep normalize tail input n dist epsilon dimension text,
  (forall l, Permutation (order l) l) -> (forall l, Permutation (horder l) l) -> (forall u v, u < v < n -> (0 <= dist u v)%Z) -> 0 < n -> (Z.max 1 epsilon <= inf)%Z ->
  rips_run show inf order horder a keep normalize tail input n dist epsilon dimension = Ok text -> text <> []).
Proof.
  intro H. apply (H show_coordinate 9%Z (fun l => l) (fun l => l) AStandard false false false (chars "cloud") 2 two_points 1%Z 2 []); [auto|auto| |lia|lia|vm_compute; reflexivity|reflexivity].
  intros u v _. unfold two_points. destruct (u =? v); lia.
Qed.
(** The arguments: without one, the exit status is -1; with one, the behaviour is undefined; the third one is the dimension, which
    otherwise is the one of the point cloud plus one. *)
Theorem C182_arguments : forall show inf order horder a keep normalize tail load convert,
  let main := rips_main show inf order horder a keep normalize tail load convert in
  let run := rips_run show inf order horder a keep normalize tail in
  main [] = Ok ((-1)%Z, []) /\ (forall input, main [input] = UB) /\
  (forall input e n d dist text, load input = (n, d, dist) -> run input n dist (convert e) (d + 1) = Ok text -> main [input; e] = Ok (0%Z, text)) /\
  (forall input e s rest v n d dist text, load input = (n, d, dist) -> numeral s v -> (v < 2 ^ 32)%N -> run input n dist (convert e) (N.to_nat v) = Ok text -> main (input :: e :: s :: rest) = Ok (0%Z, text)).
Proof.
  intros show inf order horder a keep normalize tail load convert main run. split; [reflexivity|]. split; [reflexivity|]. split.
  - intros input e n d dist text L R. unfold main, rips_main. rewrite L. cbn [bind]. unfold run in R. rewrite R. reflexivity.
  - intros input e s rest v n d dist text L Hs Hv R. unfold main, rips_main. rewrite L.
    rewrite (numeral_stoul s v Hs) by (eapply N.lt_trans; [exact Hv|reflexivity]). cbn [bind]. rewrite N.mod_small by exact Hv. unfold run in R. rewrite R. reflexivity.
Qed.

(** The corners of a square with sides of length 2 and diagonals of length 3 (rounded up): three components die at 2, and there is
    a hole from 2 to 3. *)
Definition corners (u v : nat) : Z := if u =? v then 0%Z else if (u + v) mod 2 =? 1 then 2%Z else 3%Z.
Definition line (l : list string) : str := match l with [x; y] => chars x ++ [tab] ++ chars y ++ [newline] | _ => [] end.
Example C182_square :
  rips_run show_coordinate 99 (fun l => l) (fun l => l) AStandard false false false (chars "square") 4 corners 4 2 =
    Ok (chars "# Persistence diagram <square>" ++ [newline] ++ chars "#" ++ [newline] ++ chars "# Dimension: 0" ++ [newline] ++ chars "# Entries  : 4" ++ [newline] ++
        line ["0"; "inf"]%string ++ line ["0"; "2"]%string ++ line ["0"; "2"]%string ++ line ["0"; "2"]%string ++ [newline; newline] ++
        chars "# Persistence diagram <square>" ++ [newline] ++ chars "#" ++ [newline] ++ chars "# Dimension: 1" ++ [newline] ++ chars "# Entries  : 1" ++ [newline] ++
        line ["2"; "3"]%string ++ [newline; newline]) /\
  rips_run show_coordinate 99 (fun l => l) (fun l => l) ATwist false true true (chars "square") 4 corners 4 2 =
    Ok (chars "# Persistence diagram <square>" ++ [newline] ++ chars "#" ++ [newline] ++ chars "# Dimension: 1" ++ [newline] ++ chars "# Entries  : 1" ++ [newline] ++
        line ["2/9"; "1/3"]%string ++ [newline; newline]).
Proof. split; vm_compute; reflexivity. Qed.
Example C182_square_distances : greatest_distance 4 corners 3 /\ largest 4 corners 4 2 2.
Proof.
  split.
  - split; [exists 0, 2; split; [lia|reflexivity]|]. intros i j _. unfold corners. destruct (i =? j), ((i + j) mod 2 =? 1); lia.
  - split; [lia|]. split; [|intros; assumption]. exists [0; 1; 2]. split; [repeat constructor; simpl; intuition lia|]. split; [reflexivity|]. split; [intros v [<-|[<-|[<-|[]]]]; lia|].
    intros u v _ _ _. unfold corners. destruct (u =? v), ((u + v) mod 2 =? 1); lia.
Qed.

Print Assumptions C182_rips.
Print Assumptions C182_divisor.
Print Assumptions C182_normalise_refuted.
Print Assumptions C182_isolated_refuted.
Print Assumptions C182_arguments.
Print Assumptions C182_block.
Print Assumptions C182_points.
