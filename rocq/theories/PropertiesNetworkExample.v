(** * C170: the example for the analysis of networks. *)
From Coq Require Import List Arith Bool ZArith Lia Permutation Sorted.
From Verif Require Import Base BaseFacts Matrix SpecMatrix Simplex SimplexFacts SpecComplex Complex ComplexFacts ClosureFacts FiltrationFacts
  History Subcomplex SubcomplexFacts PropertiesComplex SpecRips Rips RipsFacts WeightFacts PropertiesRips
  Diagram SpecHomology SpecDiagram PropertiesDiagram HomologyFacts PropertiesComponents PropertiesDowker PropertiesVietorisRips BarycentricFacts
  PropertiesDiagramDims PairingFacts DualFacts SparseTool PropertiesSparseTool PropertiesGraphTool CommunitiesJSON PropertiesCommunitiesJSON InterlevelTool RepFacts NetworkExample.
Import ListNotations.
Local Open Scope nat_scope.

(** ** Specification *)
Definition is_graph (K : complex) : Prop := reachable K /\ closed (by_index K) /\ by_index K <> [] /\ forall s, In s (by_index K) -> length (verts s) <= 2.
Definition smallest (L : list simplex) (m : Z) : Prop := (forall s, In s L -> m <= data s)%Z /\ exists s, In s L /\ data s = m.
(** the sets of at most [k + 1] vertices joined pairwise *)
Definition small_clique (L : list simplex) (k : nat) (vs : list nat) : Prop :=
  length vs <= S k /\ (forall v, In v vs -> has L [v]) /\ forall u v, In u vs -> In v vs -> u <> v -> has L [u; v].
(** the weight of an edge, in units of the reciprocal of the range if weights are normalised *)
Definition edge_value (L : list simplex) (normalize invert : bool) (e : simplex) (x : Z) : Prop :=
  exists m n, largest L m /\ smallest L n /\
    let top := if normalize then (m - n)%Z else m in let w := if normalize then (data e - n)%Z else data e in x = if invert then (top - w)%Z else w.
(** the data of a simplex: zero for vertices and the largest value of an edge otherwise *)
Definition network_data (L : list simplex) (normalize invert : bool) (s : simplex) : Prop :=
  if length (verts s) =? 1 then data s = 0%Z
  else (exists e x, In e L /\ length (verts e) = 2 /\ subset (verts e) (verts s) /\ edge_value L normalize invert e x /\ data s = x) /\
       forall e x, In e L -> length (verts e) = 2 -> subset (verts e) (verts s) -> edge_value L normalize invert e x -> (x <= data s)%Z.

Lemma expand_graph order k K : (forall l, Permutation (order l) l) -> is_graph K ->
  (forall e, In e (by_index K) -> length (verts e) = 2 -> (0 <= data e)%Z) ->
  (forall e s, In e (by_index K) -> In s (by_index K) -> length (verts e) = 2 -> length (verts s) = 1 -> subset (verts s) (verts e) -> (data s <= data e)%Z) ->
  exists L, (let* K := ripsExpander order K k in Ok (k_sort data_cmp (assignMaximumWeight K 1))) = Ok L /\
    reachable L /\ closed (by_index L) /\ filtration_order (by_index L) /\ ascending_data (by_index L) /\
    (forall vs, NoDup vs -> vs <> [] -> (has (by_index L) vs <-> small_clique (by_index K) k vs)) /\
    forall s, In s (by_index L) -> if length (verts s) =? 1 then (exists t, In t (by_index K) /\ verts t = verts s /\ data t = data s) else is_max_of_faces (by_index K) 1 s (data s).
Proof.
  intros Ho (HR & HC & Hne & H2) Hpos Hmon. pose proof (reachable_kwf K HR) as WK.
  assert (He : forall u v, has (by_index K) [u; v] -> has (by_index K) [u]).
  { intros u v (s & Hs & Es). apply (HC s [u] Hs); [discriminate|]. intros w [<-|[]]. apply Es. left. reflexivity. }
  destruct (C25_expansion order K k Ho HR) as (E & EE & RE & NE & HE & DE). destruct (C25_clique_complex order K k Ho HR He) as (E' & EE' & CE & HCq & HV1). rewrite EE in EE'. injection EE' as <-.
  pose proof (reachable_kwf E RE) as WE.
  assert (RS : reachable (assignMaximumWeight E 1)) by (apply assign_weight_reachable; intros s Hs; apply (kwf_good E WE s); apply WeightFacts.in_dim; auto).
  set (S := assignMaximumWeight E 1) in *. pose proof (reachable_kwf S RS) as WS.
  destruct (C26_weights E 1 RE CE) as (Hvs & Hlow & _ & _). fold S in Hvs, Hlow.
  assert (Same : forall t t', In t (by_index K) -> In t' (by_index E) -> set_eq (verts t) (verts t') -> verts t = verts t' /\ data t' = data t).
  { intros t t' Ht Ht' Et. split; [apply wf_ext; [apply (kwf_good K WK t Ht)|apply (kwf_good E WE t' Ht')|exact Et]|].
    apply (proj1 (DE t' Ht')); auto. assert (X : verts t = verts t') by (apply wf_ext; [apply (kwf_good K WK t Ht)|apply (kwf_good E WE t' Ht')|exact Et]). rewrite <- X. apply H2, Ht. }
  assert (SE : forall s, In s (by_index S) -> exists t, In t (by_index E) /\ verts t = verts s).
  { intros s Hs. assert (Y : In (verts s) (map verts (by_dim E))) by (rewrite <- Hvs; apply in_map, Hs). apply in_map_iff in Y. destruct Y as (t & Et & Ht). exists t. split; [apply WeightFacts.in_dim; auto|exact Et]. }
  assert (EK : forall t, In t (by_index E) -> length (verts t) = 2 -> exists e, In e (by_index K) /\ verts e = verts t /\ data t = data e).
  { intros t Ht Lt. assert (Nt : NoDup (verts t)) by (apply SSgt_NoDup, (kwf_good E WE t Ht)). assert (Y : has (by_index E) (verts t)) by (exists t; split; [exact Ht|intro; reflexivity]).
    apply HCq in Y; [|exact Nt|lia]. destruct Y as [Y _]. destruct (verts t) as [|a [|b [|]]] eqn:Ev; try discriminate. destruct (Y a b) as (e & He' & Ee); [left; reflexivity|right; left; reflexivity| |].
    { intros ->. inversion Nt as [|? ? X _]. apply X. left. reflexivity. }
    exists e. destruct (Same e t He' Ht) as [X1 X2]; [rewrite Ev; exact Ee|]. rewrite <- Ev. auto. }
  assert (VK : forall t, In t (by_index E) -> length (verts t) = 1 -> exists e, In e (by_index K) /\ verts e = verts t /\ data t = data e).
  { intros t Ht Lt. assert (Y : has (by_index E) (verts t)) by (exists t; split; [exact Ht|intro; reflexivity]). destruct (verts t) as [|a [|]] eqn:Ev; try discriminate.
    apply HV1 in Y. destruct Y as (e & He' & Ee). exists e. destruct (Same e t He' Ht) as [X1 X2]; [rewrite Ev; exact Ee|]. rewrite <- Ev. auto. }
  assert (DS : forall s, In s (by_index S) -> if length (verts s) =? 1 then (exists t, In t (by_index K) /\ verts t = verts s /\ data t = data s) else is_max_of_faces (by_index K) 1 s (data s)).
  { intros s Hs. destruct (Nat.eqb_spec (length (verts s)) 1) as [L1|L1].
    - destruct (Hlow s Hs) as (t & Ht & Et & Dt); [lia|]. destruct (VK t Ht) as (e & He' & Ee & De); [rewrite Et; exact L1|]. exists e. refine (conj He' (conj _ _)); congruence.
    - assert (L2 : 2 <= length (verts s)). { destruct (kwf_good S WS s Hs) as [_ N]. destruct (verts s) as [|? [|]]; cbn [length] in *; try lia; congruence. }
      destruct (C26_edges E RE CE) with (s := s) as [(t & Ht & Sub & Lt & Dt) Max]; auto.
      + intros t Ht Lt. apply (proj2 (DE t Ht)). left. exact Lt.
      + intros t Ht Lt. destruct (EK t Ht Lt) as (e & He' & Ee & De). rewrite De. apply Hpos; [exact He'|congruence].
      + split.
        * destruct (EK t Ht Lt) as (e & He' & Ee & De). exists e. rewrite Ee. refine (conj He' (conj Sub (conj Lt _))). congruence.
        * intros e He' Se Le. destruct (SE s Hs) as (s' & Hs' & Es'). destruct (CE s' (verts e) Hs') as (t' & Ht' & Et'); [destruct (verts e); discriminate|rewrite Es'; exact Se|].
          destruct (Same e t' He' Ht') as [X1 X2]; [intro v; symmetry; apply Et'|]. rewrite <- X2. apply Max; [exact Ht'|rewrite <- X1; exact Se|rewrite <- X1; exact Le]. }
  assert (MS : monotone (by_index S)).
  { intros s t Hs Ht Sub. pose proof (DS s Hs) as Ds. pose proof (DS t Ht) as Dt. destruct (kwf_good S WS s Hs) as [W1 N1]. destruct (kwf_good S WS t Ht) as [W2 N2].
    destruct (Nat.eqb_spec (length (verts t)) 1) as [L1|L1].
    - destruct Dt as (v & Hv & Ev & Dv). destruct (Nat.eqb_spec (length (verts s)) 1) as [M1|M1].
      + destruct Ds as (w & Hw & Ew & Dw). assert (X : v = w); [|subst; lia]. apply (nodup_verts_eq K v w WK); auto. rewrite Ev, Ew. destruct (verts t) as [|a [|]] eqn:Et; try discriminate. destruct (verts s) as [|b [|]]; try discriminate.
        destruct (Sub a (or_introl eq_refl)) as [->|[]]. reflexivity.
      + destruct (verts t) as [|a [|]] eqn:Et; try discriminate. assert (Ha : In a (verts s)) by (apply Sub; left; reflexivity).
        assert (Y : exists b, In b (verts s) /\ b <> a).
        { assert (Nd : NoDup (verts s)) by (apply SSgt_NoDup, W1). destruct (verts s) as [|x [|y r]]; [destruct Ha|cbn [length] in M1; lia|]. destruct (Nat.eq_dec x a) as [->|N]; [|exists x; split; [left; reflexivity|exact N]].
          exists y. split; [right; left; reflexivity|]. intros ->. inversion Nd as [|? ? X _]. apply X. left. reflexivity. }
        destruct Y as (b & Hb & Nb). destruct (SE s Hs) as (s' & Hs' & Es'). destruct (CE s' [a; b] Hs') as (t' & Ht' & Et'); [discriminate|rewrite Es'; intros w [<-|[<-|[]]]; assumption|].
        assert (L2 : length (verts t') = 2).
        { apply (Permutation_length (l' := [a; b])). apply NoDup_Permutation; [apply SSgt_NoDup, (kwf_good E WE t' Ht')| |exact Et']. constructor; [intros [|[]]; congruence|constructor; [easy|constructor]]. }
        destruct (EK t' Ht' L2) as (e & He' & Ee & _). assert (Le : length (verts e) = 2) by congruence.
        assert (Q1 : (data v <= data e)%Z). { apply Hmon; auto; [rewrite Ev; reflexivity|]. rewrite Ev, Ee. intros w [<-|[]]. apply Et'. left. reflexivity. }
        assert (Q2 : (data e <= data s)%Z). { apply (proj2 Ds); auto. rewrite Ee. intros w Hw. apply Et' in Hw. destruct Hw as [<-|[<-|[]]]; assumption. }
        lia.
    - destruct Dt as [(e & He' & Se & Le & <-) _]. destruct (Nat.eqb_spec (length (verts s)) 1) as [M1|M1].
      + exfalso. assert (Q : length (verts t) <= length (verts s)) by (apply NoDup_incl_length; [apply SSgt_NoDup, W2|exact Sub]). destruct (verts t) as [|? [|]]; cbn [length] in *; try lia; congruence.
      + apply (proj2 Ds); auto. intros w Hw. apply Sub, Se, Hw. }
  exists (k_sort data_cmp S). assert (P : Permutation (by_index (k_sort data_cmp S)) (by_index S)) by apply cpp_sort_perm.
  assert (HT : forall vs, has (by_index (k_sort data_cmp S)) vs <-> has (by_index E) vs).
  { intro vs. rewrite (PropertiesVietorisRips.has_perm _ _ vs P), (has_verts_eq _ _ vs Hvs). apply (PropertiesVietorisRips.has_perm _ _ vs (Permutation_sym (kwf_perm E WE))). }
  refine (conj _ (conj (sort_reachable data_cmp _ RS) (conj _ (conj (filtration_data S WS MS) (conj _ (conj _ _)))))).
  - rewrite EE. reflexivity.
  - intros s vs Hs Hn Sub. apply HT. destruct (SE s (Permutation_in _ P Hs)) as (t & Ht & Et). apply (CE t vs Ht Hn). rewrite Et. exact Sub.
  - intros i j s t Hij Hi Hj. refine (sorted_by_value data_cmp data (by_index S) data_cmp_swo _ i j s t Hij Hi Hj).
    intros s' t' Q. unfold data_cmp in Q. destruct (Z.eqb_spec (data t') (data s')); [lia|]. apply Z.ltb_ge in Q. lia.
  - intros vs Nv Nn. rewrite HT. unfold small_clique. destruct vs as [|a [|b r]]; [congruence| |].
    + rewrite HV1. split; [|intros (_ & H & _); apply H; left; reflexivity]. intro H. split; [cbn; lia|]. split; [intros v [<-|[]]; exact H|]. intros u v [<-|[]] [<-|[]] N. congruence.
    + rewrite HCq; [|exact Nv|cbn; lia]. split; [|intros (D & _ & C); split; [exact C|exact D]].
      intros [C D]. refine (conj D (conj _ C)). intros v Hv'. assert (Y : exists u, In u (a :: b :: r) /\ u <> v).
      { destruct (Nat.eq_dec a v) as [->|N]; [|exists a; split; [left; reflexivity|exact N]]. exists b. split; [right; left; reflexivity|]. intros ->. inversion Nv as [|? ? N1 _]. apply N1. left. reflexivity. }
      destruct Y as (u & Hu & N). apply (He v u), C; auto.
  - intros s Hs. apply DS, (Permutation_in _ P Hs).
Qed.

(** ** Weights *)
Definition normalized (mn range : Z) (s : simplex) : simplex := set_data s (if length (verts s) =? 1 then (data s * range)%Z else (data s - mn)%Z).
Lemma normalize_step_ok mn range a b s L : reachable L -> by_index L = a ++ s :: b -> exists L', normalize_step mn range L (length a) = Ok L' /\ reachable L' /\ by_index L' = a ++ normalized mn range s :: b.
Proof.
  intros HL HI. pose proof (reachable_kwf L HL) as HK. assert (En : nth_error (by_index L) (length a) = Some s) by (rewrite HI, nth_error_app2, Nat.sub_diag by lia; reflexivity).
  assert (Hs : good s) by (apply (kwf_good L HK); eapply nth_error_In; exact En).
  assert (E0 : (sdim s =? 0) = (length (verts s) =? 1)). { unfold sdim. destruct Hs as [_ N]. destruct (verts s) as [|? [|]]; [congruence|reflexivity|reflexivity]. }
  unfold normalize_step, get_. rewrite En. cbn [bind]. rewrite E0. change (set_data s (if length (verts s) =? 1 then (data s * range)%Z else (data s - mn)%Z)) with (normalized mn range s).
  assert (EK : k_replace L (length a) (normalized mn range s) = (Complex (upd (by_index L) (length a) (normalized mn range s)) (dim_replace s (normalized mn range s) (by_dim L)), Ok true)).
  { unfold k_replace. rewrite En. assert (Eq : s_eqb s (normalized mn range s) = true) by (apply s_eqb_eq; reflexivity). rewrite Eq. cbn [negb andb].
    unfold s_dimension. change (verts (normalized mn range s)) with (verts s). destruct Hs as [_ N]. destruct (verts s) eqn:Ev; [congruence|]. reflexivity. }
  pose proof (replace_reachable L (length a) (normalized mn range s) HL) as HRp. rewrite EK in HRp |- *. cbn [bind fst] in *. eexists. split; [reflexivity|]. split; [apply HRp; apply (proj1 Hs)|].
  cbn [by_index]. rewrite HI.
  assert (U : forall (a : list simplex) x y b, upd (a ++ x :: b) (length a) y = a ++ y :: b).
  { clear. induction a as [|z a IH]; intros x y b; cbn [app length upd]; [reflexivity|]. rewrite IH. reflexivity. }
  apply U.
Qed.
Lemma normalize_ok mn range K : reachable K -> exists L, normalizeWeights mn range K = Ok L /\ reachable L /\ by_index L = map (normalized mn range) (by_index K).
Proof.
  intro HR. unfold normalizeWeights.
  assert (G : forall b a L, by_index L = a ++ b -> reachable L -> exists L', foldM (normalize_step mn range) (seq (length a) (length b)) L = Ok L' /\ reachable L' /\ by_index L' = a ++ map (normalized mn range) b).
  { induction b as [|s b IH]; intros a L HI HL; cbn [length seq foldM map].
    - exists L. auto.
    - destruct (normalize_step_ok mn range a b s L HL HI) as (L1 & E1 & R1 & I1). rewrite E1. cbn [bind].
      destruct (IH (a ++ [normalized mn range s]) L1) as (L' & E & R & I); [rewrite <- app_assoc; exact I1|exact R1|]. rewrite app_length, Nat.add_1_r in E. exists L'. refine (conj E (conj R _)).
      rewrite I, <- app_assoc. reflexivity. }
  apply (G (by_index K) [] K eq_refl HR).
Qed.
Lemma smallest_ok greatest K : (forall s, In s (by_index K) -> data s <= greatest)%Z -> by_index K <> [] -> smallest (by_index K) (smallest_weight greatest K).
Proof.
  unfold smallest_weight. generalize (by_index K). intros L Hl Hn.
  assert (G : forall l a, (fold_left (fun m s => Z.min m (data s)) l a <= a)%Z /\ (forall s, In s l -> (fold_left (fun m s => Z.min m (data s)) l a <= data s)%Z) /\
    (fold_left (fun m s => Z.min m (data s)) l a = a \/ exists s, In s l /\ data s = fold_left (fun m s => Z.min m (data s)) l a)).
  { clear. induction l as [|s l IH]; intro a; cbn [fold_left]; [split; [lia|split; [intros s []|left; reflexivity]]|]. destruct (IH (Z.min a (data s))) as (A & B & C). split; [lia|]. split.
    - intros t [<-|Ht]; [lia|apply B, Ht].
    - destruct C as [C|(t & Ht & Et)]; [|right; exists t; split; [right; exact Ht|exact Et]]. rewrite C. destruct (Z.min_spec a (data s)) as [[_ X]|[_ X]]; rewrite X; [left; reflexivity|right; exists s; split; [left|]; reflexivity]. }
  destruct (G L greatest) as (A & B & C). split; [exact B|]. destruct C as [C|C]; [|exact C]. destruct L as [|s L]; [congruence|]. exists s. split; [left; reflexivity|].
  specialize (B s (or_introl eq_refl)). specialize (Hl s (or_introl eq_refl)). lia.
Qed.
Lemma largest_unique L m m' : largest L m -> largest L m' -> m = m'.
Proof. intros [A (s & Hs & Es)] [B (t & Ht & Et)]. specialize (A t Ht). specialize (B s Hs). lia. Qed.
Lemma smallest_unique L m m' : smallest L m -> smallest L m' -> m = m'.
Proof. intros [A (s & Hs & Es)] [B (t & Ht & Et)]. specialize (A t Ht). specialize (B s Hs). lia. Qed.
Lemma map_graph K K' (g : simplex -> simplex) : is_graph K -> reachable K' -> by_index K' = map g (by_index K) -> (forall s, verts (g s) = verts s) -> is_graph K'.
Proof.
  intros (HR & HC & Hn & H2) R' I' Hg. assert (V : map verts (by_index K') = map verts (by_index K)) by (rewrite I', map_map; apply map_ext; exact Hg). refine (conj R' (conj _ (conj _ _))).
  - intros s vs Hs Hv Sub. rewrite (has_verts_eq _ _ vs V). rewrite I' in Hs. apply in_map_iff in Hs. destruct Hs as (t & <- & Ht). rewrite Hg in Sub. exact (HC t vs Ht Hv Sub).
  - rewrite I'. destruct (by_index K); [congruence|discriminate].
  - intros s Hs. rewrite I' in Hs. apply in_map_iff in Hs. destruct Hs as (t & <- & Ht). rewrite Hg. apply H2, Ht.
Qed.

(** ** The complex without weights of nodes *)
Theorem C170_complex : forall order lowest highest normalize invert k K, (forall l, Permutation (order l) l) -> is_graph K ->
  (forall s, In s (by_index K) -> (lowest <= data s <= highest)%Z) ->
  (forall s, In s (by_index K) -> length (verts s) = 1 -> data s = 0%Z) ->
  (normalize = true \/ invert = true \/ forall s, In s (by_index K) -> (0 <= data s)%Z) ->
  exists m n L, network_complex order lowest highest None normalize invert k K = Ok ((if normalize then m - n else m)%Z, L) /\
    largest (by_index K) m /\ smallest (by_index K) n /\
    reachable L /\ closed (by_index L) /\ filtration_order (by_index L) /\ ascending_data (by_index L) /\
    (forall vs, NoDup vs -> vs <> [] -> (has (by_index L) vs <-> small_clique (by_index K) k vs)) /\
    forall s, In s (by_index L) -> network_data (by_index K) normalize invert s.
Proof.
  intros order lowest highest normalize invert k K Ho HG Hlim Hv0 Hpos. pose proof HG as (HR & HC & Hn & H2). pose proof (reachable_kwf K HR) as WK.
  pose proof (largest_ok lowest K (fun s Hs => proj1 (Hlim s Hs)) Hn) as Lm. pose proof (smallest_ok highest K (fun s Hs => proj2 (Hlim s Hs)) Hn) as Sn.
  set (m := largest_weight lowest K) in *. set (n := smallest_weight highest K) in *.
  (* some vertex has weight zero *)
  assert (V0 : exists v, In v (by_index K) /\ data v = 0%Z).
  { destruct (by_index K) as [|s0 l0] eqn:EI; [congruence|]. assert (Hs0 : In s0 (by_index K)) by (rewrite EI; left; reflexivity). destruct (kwf_good K WK s0 Hs0) as [W0 N0].
    destruct (verts s0) as [|a r] eqn:Ea; [congruence|]. rewrite <- EI in *. destruct (HC s0 [a] Hs0) as (v & Hv & Ev); [discriminate|intros w [<-|[]]; rewrite Ea; left; reflexivity|]. exists v. split; [exact Hv|]. apply Hv0; [exact Hv|].
    replace (verts v) with [a]; [reflexivity|]. change [a] with (verts (Simplex [a] 0)). apply wf_ext; [repeat constructor|apply (kwf_good K WK v Hv)|]. intro w. symmetry. apply Ev. }
  destruct V0 as (v0 & Hv0' & Dv0). assert (Bn : (n <= 0 <= m)%Z) by (pose proof (proj1 Lm v0 Hv0'); pose proof (proj1 Sn v0 Hv0'); lia).
  (* the weights of edges *)
  set (value := fun e => (let top := if normalize then m - n else m in let w := if normalize then data e - n else data e in if invert then top - w else w)%Z).
  assert (EV : forall e x, edge_value (by_index K) normalize invert e x <-> x = value e).
  { intros e x. split; [|intros ->; exists m, n; auto]. intros (m' & n' & L' & S' & ->). rewrite (largest_unique _ _ _ L' Lm), (smallest_unique _ _ _ S' Sn). reflexivity. }
  assert (Vpos : forall e, In e (by_index K) -> (0 <= value e)%Z).
  { intros e He. pose proof (proj1 Lm e He). pose proof (proj1 Sn e He). unfold value. destruct normalize, invert; try lia. destruct Hpos as [X|[X|X]]; try discriminate. apply X, He. }
  assert (X : exists g K1, (let* (mx, K) := if normalize && negb (m =? n)%Z then let* K := normalizeWeights n (m - n) K in Ok ((m - n)%Z, K) else Ok (m, K) in let* K := if invert then invertWeights mx K else Ok K in Ok (mx, K)) =
      Ok ((if normalize then m - n else m)%Z, K1) /\ reachable K1 /\ by_index K1 = map g (by_index K) /\ (forall s, verts (g s) = verts s) /\
      forall s, In s (by_index K) -> data (g s) = if length (verts s) =? 1 then 0%Z else value s).
  { assert (Y : exists g K1, (if normalize && negb (m =? n)%Z then let* K := normalizeWeights n (m - n) K in Ok ((m - n)%Z, K) else Ok (m, K)) = Ok ((if normalize then m - n else m)%Z, K1) /\ reachable K1 /\
        by_index K1 = map g (by_index K) /\ (forall s, verts (g s) = verts s) /\ forall s, In s (by_index K) -> data (g s) = if length (verts s) =? 1 then 0%Z else if normalize then (data s - n)%Z else data s).
    { destruct normalize; cbn [andb].
      - destruct (Z.eqb_spec m n) as [E|E]; cbn [negb].
        + exists (fun s => s), K. rewrite map_id. assert (n = 0 /\ m = 0)%Z as [-> ->] by lia. refine (conj eq_refl (conj HR (conj eq_refl (conj (fun _ => eq_refl) _)))).
          intros s Hs. destruct (Nat.eqb_spec (length (verts s)) 1) as [L1|]; [apply Hv0; assumption|lia].
        + destruct (normalize_ok n (m - n) K HR) as (K1 & E1 & R1 & I1). exists (normalized n (m - n)), K1. rewrite E1. refine (conj eq_refl (conj R1 (conj I1 (conj (fun _ => eq_refl) _)))).
          intros s Hs. unfold normalized. cbn [set_data data]. destruct (Nat.eqb_spec (length (verts s)) 1) as [L1|]; [|reflexivity]. rewrite (Hv0 s Hs L1). reflexivity.
      - exists (fun s => s), K. rewrite map_id. refine (conj eq_refl (conj HR (conj eq_refl (conj (fun _ => eq_refl) _)))). intros s Hs. destruct (Nat.eqb_spec (length (verts s)) 1) as [L1|]; [apply Hv0; assumption|reflexivity]. }
    destruct Y as (g & K1 & E1 & R1 & I1 & Vg & Dg). rewrite E1. cbn [bind]. set (top := (if normalize then m - n else m)%Z) in *. destruct invert.
    - destruct (invert_ok top K1 R1) as (K2 & E2 & R2 & I2). rewrite E2. exists (fun s => inverted top (g s)), K2. refine (conj eq_refl (conj R2 (conj _ (conj _ _)))).
      + rewrite I2, I1, map_map. reflexivity.
      + intro s. rewrite inverted_verts. apply Vg.
      + intros s Hs. unfold inverted. rewrite Vg. pose proof (Dg s Hs) as D. destruct (length (verts s) =? 1); [exact D|]. cbn [set_data data]. rewrite D. reflexivity.
    - exists g, K1. refine (conj eq_refl (conj R1 (conj I1 (conj Vg _)))). exact Dg. }
  destruct X as (g & K1 & E1 & R1 & I1 & Vg & Dg). pose proof (map_graph K K1 g HG R1 I1 Vg) as G1. set (top := (if normalize then m - n else m)%Z) in *.
  destruct (expand_graph order k K1 Ho G1) as (L & EL & RL & CL & FL & AL & HL & DL).
  { intros e He Le. rewrite I1 in He. apply in_map_iff in He. destruct He as (e' & <- & He'). rewrite Vg in Le. rewrite (Dg e' He'), Le. apply Vpos, He'. }
  { intros e s He Hs Le Ls _. rewrite I1 in He, Hs. apply in_map_iff in He, Hs. destruct He as (e' & <- & He'). destruct Hs as (s' & <- & Hs'). rewrite Vg in Le, Ls. rewrite (Dg e' He'), (Dg s' Hs'), Le, Ls. apply Vpos, He'. }
  assert (VV : map verts (by_index K1) = map verts (by_index K)) by (rewrite I1, map_map; apply map_ext; exact Vg).
  exists m, n, L. refine (conj _ (conj Lm (conj Sn (conj RL (conj CL (conj FL (conj AL (conj _ _)))))))).
  - unfold network_complex. cbn [bind]. fold m n. fold top.
    destruct (if normalize && negb (m =? n)%Z then let* K := normalizeWeights n (m - n) K in Ok ((m - n)%Z, K) else Ok (m, K)) as [[mx K']| | |]; cbn [bind] in E1 |- *; try discriminate.
    destruct (if invert then invertWeights mx K' else Ok K') as [K''| | |]; cbn [bind] in E1 |- *; try discriminate. injection E1 as -> ->.
    destruct (ripsExpander order K1 k) as [Q| | |]; cbn [bind] in EL |- *; try discriminate. injection EL as <-. reflexivity.
  - intros vs Nv Nn. rewrite (HL vs Nv Nn). unfold small_clique. split; intros (A & B & C); (refine (conj A (conj _ _))).
    + intros v Hv. rewrite <- (has_verts_eq _ _ [v] VV). apply B, Hv.
    + intros u v Hu Hv N. rewrite <- (has_verts_eq _ _ [u; v] VV). apply C; assumption.
    + intros v Hv. rewrite (has_verts_eq _ _ [v] VV). apply B, Hv.
    + intros u v Hu Hv N. rewrite (has_verts_eq _ _ [u; v] VV). apply C; assumption.
  - intros s Hs. pose proof (DL s Hs) as D. unfold network_data. destruct (Nat.eqb_spec (length (verts s)) 1) as [L1|L1].
    + destruct D as (t & Ht & Et & <-). rewrite I1 in Ht. apply in_map_iff in Ht. destruct Ht as (t' & <- & Ht'). rewrite Vg in Et. rewrite (Dg t' Ht'), Et, L1. reflexivity.
    + destruct D as [(t & Ht & Sub & Lt & Dt) Max]. split.
      * rewrite I1 in Ht. apply in_map_iff in Ht. destruct Ht as (e & <- & He). rewrite Vg in Sub, Lt. exists e, (value e). refine (conj He (conj Lt (conj Sub (conj (proj2 (EV _ _) eq_refl) _)))). rewrite <- Dt, (Dg e He), Lt. reflexivity.
      * intros e x He Le Se Hx. apply EV in Hx. subst x. assert (Q : (data (g e) <= data s)%Z) by (apply Max; [rewrite I1; apply in_map, He|rewrite Vg; exact Se|rewrite Vg; exact Le]). rewrite (Dg e He), Le in Q. exact Q.
Qed.

(** ** Weights of nodes *)
Theorem C170_nodes : forall order lowest highest w k K, (forall l, Permutation (order l) l) -> is_graph K ->
  length (k_vertices K) <= length w -> (lowest <= 0)%Z -> (forall z, In z w -> (0 <= z)%Z) ->
  exists m L, network_complex order lowest highest (Some w) false false k K = Ok (m, L) /\
    reachable L /\ closed (by_index L) /\ filtration_order (by_index L) /\ ascending_data (by_index L) /\
    (forall vs, NoDup vs -> vs <> [] -> (has (by_index L) vs <-> small_clique (by_index K) k vs)) /\
    forall s, In s (by_index L) -> is_max_over (fun v => nth (rank (k_vertices K) v) w 0%Z) (verts s) (data s).
Proof.
  intros order lowest highest w k K Ho HG Hw Hl Hp. pose proof HG as (HR & HC & Hn & H2). pose proof (reachable_kwf K HR) as WK.
  destruct (C27_maximum_data lowest K w HR HC Hw) as (K1 & E1 & V1 & D1); [intros z Hz; specialize (Hp z Hz); lia|].
  destruct (assign_general K w lowest Z.max HR HC Hw) as (K1' & E1' & R1 & _ & _). unfold assignMaximumData in E1. rewrite E1' in E1. injection E1 as ->.
  assert (G1 : is_graph K1).
  { refine (conj R1 (conj _ (conj _ _))).
    - intros s vs Hs Hv Sub. rewrite (has_verts_eq _ _ vs V1). apply (in_map verts) in Hs. rewrite V1 in Hs. apply in_map_iff in Hs. destruct Hs as (t & Et & Ht). rewrite <- Et in Sub. exact (HC t vs Ht Hv Sub).
    - intro X. rewrite X in V1. destruct (by_index K); [congruence|discriminate].
    - intros s Hs. apply (in_map verts) in Hs. rewrite V1 in Hs. apply in_map_iff in Hs. destruct Hs as (t & Et & Ht). rewrite <- Et. apply H2, Ht. }
  set (f := fun v => nth (rank (k_vertices K) v) w 0%Z) in *. assert (Pf : forall v, (0 <= f v)%Z).
  { intro v. unfold f. destruct (nth_in_or_default (rank (k_vertices K) v) w 0%Z) as [X| ->]; [apply Hp, X|lia]. }
  pose proof (reachable_kwf K1 R1) as WK1.
  destruct (expand_graph order k K1 Ho G1) as (L & EL & RL & CL & FL & AL & HL & DL).
  { intros e He _. destruct (D1 e He) as [(v & _ & <-) _]. apply Pf. }
  { intros e s He Hs _ _ Sub. destruct (D1 s Hs) as [(v & Hv & <-) _]. apply (proj2 (D1 e He)), Sub, Hv. }
  exists (largest_weight lowest K1), L. refine (conj _ (conj RL (conj CL (conj FL (conj AL (conj _ _)))))).
  - unfold network_complex, assignMaximumData. rewrite E1'. cbn [bind andb]. destruct (ripsExpander order K1 k) as [Q| | |]; cbn [bind] in EL |- *; try discriminate. injection EL as <-. reflexivity.
  - intros vs Nv Nn. rewrite (HL vs Nv Nn). unfold small_clique. split; intros (A & B & C); (refine (conj A (conj _ _))).
    + intros v Hv. rewrite <- (has_verts_eq _ _ [v] V1). apply B, Hv.
    + intros u v Hu Hv N. rewrite <- (has_verts_eq _ _ [u; v] V1). apply C; assumption.
    + intros v Hv. rewrite (has_verts_eq _ _ [v] V1). apply B, Hv.
    + intros u v Hu Hv N. rewrite (has_verts_eq _ _ [u; v] V1). apply C; assumption.
  - intros s Hs. pose proof (DL s Hs) as D. pose proof (reachable_kwf L RL) as WL. destruct (kwf_good L WL s Hs) as [Ws Ns]. destruct (Nat.eqb_spec (length (verts s)) 1) as [L1|L1].
    + destruct D as (t & Ht & <- & <-). apply D1, Ht.
    + destruct D as [(t & Ht & Sub & Lt & Dt) Max]. split.
      * destruct (D1 t Ht) as [(v & Hv & Ev) _]. exists v. split; [apply Sub, Hv|congruence].
      * intros a Ha. assert (Nd : NoDup (verts s)) by (apply SSgt_NoDup, Ws).
        assert (Y : exists b, In b (verts s) /\ b <> a).
        { destruct (verts s) as [|x [|y r]]; [destruct Ha|cbn [length] in L1; lia|]. destruct (Nat.eq_dec x a) as [->|N]; [|exists x; split; [left; reflexivity|exact N]].
          exists y. split; [right; left; reflexivity|]. intros ->. inversion Nd as [|? ? X _]. apply X. left. reflexivity. }
        destruct Y as (b & Hb & Nb). assert (Z : has (by_index L) (verts s)) by (exists s; split; [exact Hs|intro; reflexivity]). apply HL in Z; [|exact Nd|exact Ns]. destruct Z as (_ & _ & Z).
        destruct (Z a b Ha Hb) as (e & He & Ee); [congruence|].
        assert (Le : length (verts e) = 2).
        { apply (Permutation_length (l' := [a; b])). apply NoDup_Permutation; [apply SSgt_NoDup, (kwf_good K1 WK1 e He)| |exact Ee]. constructor; [intros [|[]]; congruence|constructor; [easy|constructor]]. }
        assert (Q1 : (f a <= data e)%Z) by (apply (proj2 (D1 e He)), Ee; left; reflexivity).
        assert (Q2 : (data e <= data s)%Z) by (apply Max; auto; intros x Hx; apply Ee in Hx; destruct Hx as [<-|[<-|[]]]; assumption). lia.
Qed.
(** too few weights *)
Theorem C170_short : forall order horder a inf lowest highest factor w normalize invert k K, reachable K -> length w < length (k_vertices K) ->
  network_analysis order horder a inf lowest highest factor (Some w) normalize invert k K = UB.
Proof. intros. unfold network_analysis, network_complex. rewrite C27_missing_values by assumption. reflexivity. Qed.

(** ** Reports *)
Definition report_points (files : list report) (d : nat) : list point := flat_map (fun r => if r_dim r =? d then r_points r else []) files.
Lemma reports_of inf factor m ds : Forall2 (fun D r => r_dim r = dgm_dim D /\ r_entries r = length (r_points r) /\ r_points r = points (network_diagram inf factor m D) /\ r_betti r = d_betti inf (network_diagram inf factor m D))
  ds (network_reports inf factor m ds).
Proof.
  assert (Dn : forall D, dgm_dim (network_diagram inf factor m D) = dgm_dim D) by (intro D; unfold network_diagram; destruct factor; reflexivity).
  induction ds as [|D r IH]; [constructor|]. cbn [network_reports]. destruct r as [|D' r]; (constructor; [unfold network_report; cbn [r_dim r_entries r_points r_betti]; rewrite Dn; auto|]); [constructor|exact IH].
Qed.
Theorem C170_reports : forall order horder a inf lowest highest factor weights normalize invert k K m L, (forall l, Permutation (horder l) l) ->
  network_complex order lowest highest weights normalize invert k K = Ok (m, L) ->
  reachable L -> closed (by_index L) -> filtration_order (by_index L) -> ascending_data (by_index L) -> (forall s, In s (by_index L) -> (data s < inf)%Z) ->
  exists M files, network_analysis order horder a inf lowest highest factor weights normalize invert k K = Ok files /\
    makeBoundaryMatrix L 0 = Ok M /\
    map r_dim files = seq 0 (length files) /\ (forall r, In r files -> r_entries r = length (r_points r)) /\
    (* points alive *)
    (forall d x y, (exists s, In s (by_index L) /\ S d < length (verts s)) -> (x <= y)%Z -> (y < inf)%Z -> (forall f, factor = Some f -> (y < f * m)%Z) ->
       persistent_betti (cols M) (dims M) (sublevel L x) (sublevel L y) d (alive (report_points files d) x y)) /\
    (* Betti numbers, which the option for infinity spoils *)
    (factor = None -> forall r, In r files -> (forall p, In p (r_points r) -> fst p <> snd p) /\
       ((exists s, In s (by_index L) /\ S (r_dim r) < length (verts s)) -> betti (cols M) (dims M) (k_size L) (r_dim r) (r_betti r))) /\
    (forall f, factor = Some f -> (f * m <> inf)%Z -> forall r, In r files -> r_betti r = 0).
Proof.
  intros order horder a inf lowest highest factor weights normalize invert k K m L Hh EN RL CL FL AL Hinf. pose proof (reachable_kwf L RL) as WL.
  destruct (C55_diagrams_give_persistent_ranks inf horder a L true false Hh RL CL FL AL) as (M & ds & EM & Ed & HB).
  destruct (C55_betti inf horder a L true false Hh RL CL FL Hinf) as (M' & ds' & EM' & Ed' & HB'). rewrite EM in EM'. injection EM' as <-. rewrite Ed in Ed'. injection Ed' as <-.
  destruct (C159_dimensions inf horder a L true false Hh RL CL FL) as (_ & ds' & _ & Ed' & Es & _). rewrite Ed in Ed'. injection Ed' as <-.
  assert (Cr : forall D p, In D ds -> In p (points D) -> (fst p < inf)%Z).
  { intros D p HD Hp. destruct (pipeline inf L false RL CL FL) as (M' & q & q1 & ds' & _ & _ & HLn & _ & _ & _ & Hb & Edp & H). rewrite (H horder a true Hh) in Ed. injection Ed as ->.
    assert (Sd : StronglySorted lt (map dgm_dim ds)) by (rewrite Es; apply RepFacts.seq_sorted).
    rewrite <- (points_of_one ds D Sd HD), (points_of_pairs inf L q1 ds (dgm_dim D) WL Hb Edp) in Hp. apply in_map_iff in Hp. destruct Hp as (z & <- & Hz). apply filter_In in Hz. destruct Hz as [Hz _]. specialize (Hb z Hz). cbn [fst].
    unfold data_at. apply Hinf. apply nth_In. exact Hb. }
  pose proof (reports_of inf factor m ds) as FR. set (files := network_reports inf factor m ds) in *.
  assert (Ln : length files = length ds) by (clear -FR; induction FR; [reflexivity|cbn [length]; congruence]).
  assert (Md : map r_dim files = map dgm_dim ds). { clear -FR. induction FR as [|D r ds l (E & _) F IH]; [reflexivity|]. cbn [map]. congruence. }
  assert (Fr : forall r, In r files -> exists D, In D ds /\ r_dim r = dgm_dim D /\ r_entries r = length (r_points r) /\ r_points r = points (network_diagram inf factor m D) /\ r_betti r = d_betti inf (network_diagram inf factor m D)).
  { clear -FR. induction FR as [|D r ds l E F IH]; intros x []; [subst; exists D; split; [left; reflexivity|exact E]|]. destruct (IH x H) as (D' & H1 & H2). exists D'. split; [right; exact H1|exact H2]. }
  exists M, files. refine (conj _ (conj EM (conj _ (conj _ (conj _ (conj _ _)))))).
  - unfold network_analysis. rewrite EN. cbn [bind]. rewrite Ed. reflexivity.
  - rewrite Md, Ln. exact Es.
  - intros r Hr. destruct (Fr r Hr) as (D & _ & _ & E & _). exact E.
  - intros d x y Hd Hxy Hy Hf.
    replace (alive (report_points files d) x y) with (length (filter (fun q => (fst q <=? x)%Z && (y <? snd q)%Z) (points_of ds d))); [apply HB; [right; exact Hd|exact Hy]|].
    unfold alive, report_points, points_of. clear -FR Hxy Hy Hf. induction FR as [|D r ds l (E1 & _ & E3 & _) F IH]; [reflexivity|]. cbn [flat_map]. rewrite !filter_app, !app_length, E1. f_equal; [|exact IH].
    destruct (dgm_dim D =? d); [|reflexivity]. rewrite E3. unfold network_diagram.
    assert (G : forall l, length (filter (fun p : point => (fst p <=? x)%Z && (y <? snd p)%Z) (filter (fun p => negb (fst p =? snd p)%Z) l)) = length (filter (fun p : point => (fst p <=? x)%Z && (y <? snd p)%Z) l)).
    { induction l0 as [|p l0 IH']; [reflexivity|]. cbn [filter]. destruct (Z.eqb_spec (fst p) (snd p)) as [E|E]; cbn [negb].
      - rewrite IH'. destruct (Z.leb_spec (fst p) x), (Z.ltb_spec y (snd p)); cbn [andb]; try reflexivity. lia.
      - cbn [filter]. destruct ((fst p <=? x)%Z && (y <? snd p)%Z); cbn [length]; rewrite IH'; reflexivity. }
    destruct factor as [f|]; [|symmetry; apply G]. specialize (Hf f eq_refl). cbn [points removeDiagonal]. etransitivity; [symmetry; apply (G (points D))|]. generalize (filter (fun p => negb (fst p =? snd p)%Z) (points D)).
    induction l0 as [|p l0 IH']; [reflexivity|]. cbn [map filter]. unfold isUnpaired at 1 2. destruct (Z.eqb_spec (snd p) inf) as [E|E]; cbn [fst snd].
    + rewrite E, (proj2 (Z.ltb_lt y inf) Hy), (proj2 (Z.ltb_lt y (f * m)) Hf). destruct ((fst p <=? x)%Z && true); cbn [length]; rewrite IH'; reflexivity.
    + destruct ((fst p <=? x)%Z && (y <? snd p)%Z); cbn [length]; rewrite IH'; reflexivity.
  - intros -> r Hr. destruct (Fr r Hr) as (D & HD & E1 & _ & E3 & E4). split.
    + intros p Hp. rewrite E3 in Hp. apply filter_In in Hp. destruct Hp as [_ Hp]. apply negb_true_iff, Z.eqb_neq in Hp. exact Hp.
    + intro Hs. specialize (HB' (r_dim r) (or_intror Hs)). rewrite E1 in HB'. assert (Sd : StronglySorted lt (map dgm_dim ds)) by (rewrite Es; apply RepFacts.seq_sorted). rewrite (points_of_one ds D Sd HD) in HB'. rewrite E1, E4.
      replace (d_betti inf (network_diagram inf None m D)) with (d_betti inf (Diagram (dgm_dim D) (points D))); [exact HB'|]. unfold d_betti, network_diagram, removeDiagonal. cbn [points].
      specialize (Cr D). assert (Q : forall p, In p (points D) -> (fst p < inf)%Z) by (intros; apply Cr; assumption). clear -Q. induction (points D) as [|p l IH]; [reflexivity|]. cbn [filter]. unfold isUnpaired at 1.
      assert (IH' := IH (fun q Hq => Q q (or_intror Hq))). specialize (Q p (or_introl eq_refl)). destruct (Z.eqb_spec (snd p) inf) as [E|E].
      * destruct (Z.eqb_spec (fst p) (snd p)); [lia|]. cbn [negb filter]. unfold isUnpaired at 2. rewrite (proj2 (Z.eqb_eq _ _) E). cbn [length]. rewrite IH'. reflexivity.
      * destruct (negb (fst p =? snd p)%Z); [|exact IH']. cbn [filter]. unfold isUnpaired at 2. rewrite (proj2 (Z.eqb_neq _ _) E). exact IH'.
  - intros f -> Nf r Hr. destruct (Fr r Hr) as (D & HD & _ & _ & _ & E4). rewrite E4. unfold d_betti, network_diagram. cbn [points]. generalize (points (removeDiagonal D)). clear -Nf.
    induction l as [|p l IH]; [reflexivity|]. cbn [map filter]. destruct (isUnpaired inf p) eqn:E; unfold isUnpaired at 1; cbn [snd].
    + rewrite (proj2 (Z.eqb_neq _ _) Nf). exact IH.
    + unfold isUnpaired in E. rewrite E. exact IH.
Qed.
(** the last report is not followed by empty lines *)
Theorem C170_last : forall inf factor m ds r, ds <> [] -> r_separator (last (network_reports inf factor m ds) r) = false.
Proof.
  intros inf factor m ds r. induction ds as [|D ds IH]; [congruence|]. intros _. cbn [network_reports]. destruct ds as [|D' ds].
  - cbn [last network_report r_separator]. apply negb_false_iff. generalize (points (network_diagram inf factor m D)).
    induction l as [|p l IH']; [reflexivity|]. cbn [points_eqb]. rewrite IH', andb_true_r. unfold point_eqb. rewrite !Z.eqb_refl. reflexivity.
  - specialize (IH ltac:(discriminate)). destruct (network_reports inf factor m (D' :: ds)) as [|x l] eqn:E; [|exact IH]. exfalso. clear -E. cbn [network_reports] in E. destruct ds; discriminate.
Qed.

(** ** Examples and findings *)
Definition C170_triangle (w : Z) : complex := mk [PushBack [0] 0; PushBack [1] 0; PushBack [2] 0; PushBack [0;1] w; PushBack [0;2] w; PushBack [1;2] w].
Definition C170_path : complex := mk [PushBack [0] 0; PushBack [1] 0; PushBack [2] 0; PushBack [0;1] 4; PushBack [1;2] 5].
Definition C170_run (factor : option Z) (weights : option (list Z)) (normalize invert : bool) (k : nat) (K : complex) : outcome (list report) :=
  network_analysis (fun l => l) (fun l => l) AStandard 99 (-99) 98 factor weights normalize invert k K.
Lemma C170_triangle_graph w : is_graph (C170_triangle w).
Proof.
  refine (conj (mk_reachable _) (conj _ (conj _ _))).
  - apply closed_check; [apply mk_reachable|vm_compute; reflexivity].
  - vm_compute. discriminate.
  - intros s Hs. vm_compute in Hs. repeat destruct Hs as [<-|Hs]; try destruct Hs; cbn; lia.
Qed.
Lemma C170_path_graph : is_graph C170_path.
Proof.
  refine (conj (mk_reachable _) (conj _ (conj _ _))).
  - apply closed_check; [apply mk_reachable|vm_compute; reflexivity].
  - vm_compute. discriminate.
  - intros s Hs. vm_compute in Hs. repeat destruct Hs as [<-|Hs]; try destruct Hs; cbn; lia.
Qed.
Example C170_example :
  C170_run None None false false 2 (C170_triangle 5) = Ok [Report 0 3 1 [(0, 99); (0, 5); (0, 5)]%Z true; Report 1 0 0 [] false] /\
  C170_run None None true true 1 C170_path = Ok [Report 0 2 1 [(0, 99); (0, 1)]%Z false] /\
  C170_run (Some 2%Z) None false false 1 C170_path = Ok [Report 0 3 0 [(0, 10); (0, 4); (0, 5)]%Z false] /\
  C170_run (Some 0%Z) None false false 1 C170_path = Ok [Report 0 3 0 [(0, 0); (0, 4); (0, 5)]%Z false] /\
  C170_run None (Some [1; 2; 3]%Z) false false 1 C170_path = Ok [Report 0 1 1 [(1, 99)]%Z false] /\
  C170_run None (Some [1; 2]%Z) false false 1 C170_path = UB /\
  C170_run None None false false 1 (mk [PushBack [0] 0]) = Ok [].
Proof. refine (conj _ (conj _ (conj _ (conj _ (conj _ (conj _ _)))))); vm_compute; reflexivity. Qed.
Example C170_hypotheses : is_graph C170_path /\ (forall s, In s (by_index C170_path) -> (-99 <= data s <= 98)%Z) /\ (forall s, In s (by_index C170_path) -> length (verts s) = 1 -> data s = 0%Z) /\
  (forall s, In s (by_index C170_path) -> (0 <= data s)%Z).
Proof.
  refine (conj C170_path_graph (conj _ (conj _ _))); intros s Hs; vm_compute in Hs; repeat destruct Hs as [<-|Hs]; try destruct Hs; cbn; (lia || reflexivity || discriminate).
Qed.

(** With weights of nodes, neither inversion nor normalisation change vertices, so that edges precede their vertices and
    components are destroyed before they are created *)
Theorem C170_inverted_refuted : ~ (forall order horder a inf lowest highest w k K files, (forall l, Permutation (order l) l) -> (forall l, Permutation (horder l) l) -> is_graph K ->
  length (k_vertices K) <= length w -> (forall z, In z w -> (0 <= z < inf)%Z) ->
  network_analysis order horder a inf lowest highest None (Some w) false true k K = Ok files -> forall r p, In r files -> In p (r_points r) -> (fst p <= snd p)%Z).
Proof.
  intro H. assert (E : network_analysis (fun l => l) (fun l => l) AStandard 99 (-99) 98 None (Some [1; 2; 3]%Z) false true 1 C170_path = Ok [Report 0 3 1 [(1, 99); (2, 1); (3, 0)]%Z false]) by (vm_compute; reflexivity).
  assert (W : forall z, In z [1; 2; 3]%Z -> (0 <= z < 99)%Z) by (intros z Hz; cbn in Hz; lia).
  assert (N : length (k_vertices C170_path) <= length [1; 2; 3]%Z) by (vm_compute; lia).
  pose proof (H _ _ _ _ _ _ _ _ _ _ (fun l => Permutation_refl _) (fun l => Permutation_refl _) C170_path_graph N W E _ (3, 0)%Z (or_introl eq_refl) (or_intror (or_intror (or_introl eq_refl)))) as Q. cbn in Q. lia.
Qed.
Theorem C170_normalized_refuted : ~ (forall order horder a inf lowest highest w k K files, (forall l, Permutation (order l) l) -> (forall l, Permutation (horder l) l) -> is_graph K ->
  length (k_vertices K) <= length w -> (forall z, In z w -> (0 <= z < inf)%Z) ->
  network_analysis order horder a inf lowest highest None (Some w) true false k K = Ok files -> forall r p, In r files -> In p (r_points r) -> (fst p <= snd p)%Z).
Proof.
  intro H. assert (E : network_analysis (fun l => l) (fun l => l) AStandard 99 (-99) 98 None (Some [1; 2; 3]%Z) true false 1 C170_path = Ok [Report 0 3 1 [(2, 99); (4, 1); (6, 2)]%Z false]) by (vm_compute; reflexivity).
  assert (W : forall z, In z [1; 2; 3]%Z -> (0 <= z < 99)%Z) by (intros z Hz; cbn in Hz; lia).
  assert (N : length (k_vertices C170_path) <= length [1; 2; 3]%Z) by (vm_compute; lia).
  pose proof (H _ _ _ _ _ _ _ _ _ _ (fun l => Permutation_refl _) (fun l => Permutation_refl _) C170_path_graph N W E _ (6, 2)%Z (or_introl eq_refl) (or_intror (or_intror (or_introl eq_refl)))) as Q. cbn in Q. lia.
Qed.
(** Negative weights: vertices have weight zero *)
Theorem C170_negative_refuted : ~ (forall order horder a inf lowest highest k K files, (forall l, Permutation (order l) l) -> (forall l, Permutation (horder l) l) -> is_graph K ->
  (forall s, In s (by_index K) -> (lowest <= data s <= highest)%Z) -> (forall s, In s (by_index K) -> length (verts s) = 1 -> data s = 0%Z) ->
  network_analysis order horder a inf lowest highest None None false false k K = Ok files -> forall r p, In r files -> In p (r_points r) -> (fst p <= snd p)%Z).
Proof.
  intro H. set (K := mk [PushBack [0] 0; PushBack [1] 0; PushBack [0;1] (-3)]).
  assert (E : network_analysis (fun l => l) (fun l => l) AStandard 99 (-99) 98 None None false false 1 K = Ok [Report 0 2 1 [(0, 99); (0, -3)]%Z false]) by (vm_compute; reflexivity).
  assert (G : is_graph K).
  { refine (conj (mk_reachable _) (conj _ (conj _ _))); [apply closed_check; [apply mk_reachable|vm_compute; reflexivity]|vm_compute; discriminate|].
    intros s Hs. vm_compute in Hs. repeat destruct Hs as [<-|Hs]; try destruct Hs; cbn; lia. }
  assert (B : forall s, In s (by_index K) -> (-99 <= data s <= 98)%Z) by (intros s Hs; vm_compute in Hs; repeat destruct Hs as [<-|Hs]; try destruct Hs; cbn; lia).
  assert (V : forall s, In s (by_index K) -> length (verts s) = 1 -> data s = 0%Z) by (intros s Hs; vm_compute in Hs; repeat destruct Hs as [<-|Hs]; try destruct Hs; cbn; (reflexivity || discriminate)).
  pose proof (H _ _ _ _ _ _ _ _ _ (fun l => Permutation_refl _) (fun l => Permutation_refl _) G B V E _ (0, -3)%Z (or_introl eq_refl) (or_intror (or_introl eq_refl))) as Q. cbn in Q. lia.
Qed.
(** Diagrams are compared by their points: with the option for infinity the separation of two diagrams may be missing *)
Theorem C170_separator_refuted : ~ (forall order horder a inf lowest highest factor normalize invert k K files, (forall l, Permutation (order l) l) -> (forall l, Permutation (horder l) l) -> is_graph K ->
  network_analysis order horder a inf lowest highest factor None normalize invert k K = Ok files -> forall i r, nth_error files i = Some r -> S i < length files -> r_separator r = true).
Proof.
  intro H. assert (E : network_analysis (fun l => l) (fun l => l) AStandard 99 (-99) 98 (Some 2%Z) None false false 2 (C170_triangle 0) = Ok [Report 0 1 0 [(0, 0)]%Z false; Report 1 0 0 [] false]) by (vm_compute; reflexivity).
  pose proof (H _ _ _ _ _ _ _ _ _ _ _ _ (fun l => Permutation_refl _) (fun l => Permutation_refl _) (C170_triangle_graph 0) E 0 _ eq_refl) as X. cbn in X. specialize (X ltac:(lia)). discriminate.
Qed.

Print Assumptions C170_complex.
Print Assumptions C170_nodes.
Print Assumptions C170_short.
Print Assumptions C170_reports.
Print Assumptions C170_last.
Print Assumptions C170_inverted_refuted.
Print Assumptions C170_normalized_refuted.
Print Assumptions C170_negative_refuted.
Print Assumptions C170_separator_refuted.
