(** * C45, C48, C57: enumeration of subsets, top-down expansion and its weights. *)
From Coq Require Import List Arith Bool ZArith Lia Permutation Sorted.
From Verif Require Import Base BaseFacts Simplex SimplexFacts SpecComplex Matrix PairingFacts RepFacts Complex ComplexFacts
  History Subcomplex SubcomplexFacts PropertiesComplex Quotient PropertiesQuotient MaximalCliques SpecCliques CliqueFacts PropertiesCliques
  TopDown CombinationFacts.
From Verif Require Rips SpecRips PropertiesRips.
Import ListNotations.

(** ** C45 *)
Theorem C45_combinations : forall k l, StronglySorted lt l -> k <= length l ->
  exists R, combinations k l = Ok (R, l) /\ NoDup R /\
    forall vs, In vs R <-> StronglySorted lt vs /\ length vs = k /\ subset vs l.
Proof.
  intros k l Hl Hk. exists (combs k l). refine (conj (combinations_ok k l Hl Hk) (conj (combs_NoDup l (SSlt_NoDup _ Hl) k) (combs_In l Hl k))).
Qed.

Example C45_example : combinations 2 [1; 4; 5; 9] = Ok ([[1; 4]; [1; 5]; [1; 9]; [4; 5]; [4; 9]; [5; 9]], [1; 4; 5; 9]).
Proof. vm_compute. reflexivity. Qed.

(** ** insertion of simplices that may be repeated *)
Lemma insert_any l : forall K, kwf K -> (forall s, In s l -> good s) ->
  exists K', k_insert K l = (K', Ok tt) /\ kwf K' /\
    (forall s, In s (by_index K') -> In s (by_index K) \/ In s l) /\
    (forall vs, In vs (map verts (by_index K')) <-> In vs (map verts (by_index K)) \/ In vs (map verts l)).
Proof.
  induction l as [|s l IH]; intros K HK Hg; cbn [k_insert].
  - exists K. refine (conj eq_refl (conj HK (conj (fun s Hs => or_introl Hs) _))). simpl. tauto.
  - destruct (k_contains K s) eqn:Ec.
    + rewrite push_back_dup by auto. destruct (IH K HK) as (K' & E & W & I1 & I2); [intros; apply Hg; simpl; auto|].
      exists K'. refine (conj E (conj W (conj _ _))).
      * intros t Ht. destruct (I1 t Ht); simpl; auto.
      * intro vs. rewrite I2. simpl. apply existsb_seqb in Ec. split; [tauto|]. intros [H|[<-|H]]; auto.
    + destruct (push_back_new K s HK ltac:(apply Hg; simpl; auto) Ec) as [E W]. rewrite E.
      destruct (IH _ W) as (K' & E' & W' & I1 & I2); [intros; apply Hg; simpl; auto|].
      exists K'. refine (conj E' (conj W' (conj _ _))).
      * intros t Ht. destruct (I1 t Ht) as [H|H]; [|simpl; auto]. cbn [by_index] in H. apply in_app_or in H. simpl. destruct H as [|[|[]]]; auto.
      * intro vs. rewrite I2. cbn [by_index]. rewrite map_app, in_app_iff. simpl. tauto.
Qed.

(** ** the simplices of the cliques *)
Lemma td_clique_ok kMax kMin acc C : StronglySorted lt C ->
  td_clique kMax kMin acc C = Ok (acc ++ flat_map (fun k => map (fun vs => simplex_of vs 0) (combs k C)) (seq (kMin + 1) (Nat.min (kMax + 1) (length C) - kMin))).
Proof.
  intro HC. unfold td_clique.
  assert (G : forall ks acc, (forall k, In k ks -> k <= length C) ->
    foldM (fun st k => let* c := combinations k (snd st) in Ok (fst st ++ map (fun vs => simplex_of vs 0) (fst c), snd c)) ks (acc, C) =
    Ok (acc ++ flat_map (fun k => map (fun vs => simplex_of vs 0) (combs k C)) ks, C)).
  { induction ks as [|k ks IH]; intros a Hk; cbn [foldM flat_map]; [rewrite app_nil_r; auto|]. cbn [snd]. rewrite combinations_ok by (auto; apply Hk; simpl; auto).
    cbn [bind fst snd]. rewrite IH by (intros; apply Hk; simpl; auto). rewrite app_assoc. reflexivity. }
  rewrite G; [reflexivity|]. intros k Hk. apply in_seq in Hk. lia.
Qed.

Lemma td_cliques_ok kMax kMin R acc : (forall C, In C R -> StronglySorted lt C) ->
  exists l, foldM (td_clique kMax kMin) R acc = Ok (acc ++ l) /\
  forall s, In s l <-> exists C vs, In C R /\ StronglySorted lt vs /\ subset vs C /\ kMin < length vs /\ length vs <= kMax + 1 /\ s = simplex_of vs 0.
Proof.
  revert acc. induction R as [|C R IH]; intros acc HR; cbn [foldM].
  - exists []. rewrite app_nil_r. split; auto. intro s. split; [easy|]. intros (C & vs & [] & _).
  - rewrite td_clique_ok by (apply HR; simpl; auto). cbn [bind].
    destruct (IH (acc ++ flat_map (fun k => map (fun vs => simplex_of vs 0) (combs k C)) (seq (kMin + 1) (Nat.min (kMax + 1) (length C) - kMin)))) as (l & E & Hl); [intros; apply HR; simpl; auto|].
    rewrite E. eexists. split; [rewrite <- app_assoc; reflexivity|]. intro s. rewrite in_app_iff, Hl, in_flat_map.
    assert (HC : StronglySorted lt C) by (apply HR; simpl; auto). split.
    + intros [(k & Hk & Hs)|(D & vs & HD & Hvs)].
      * apply in_map_iff in Hs. destruct Hs as (vs & <- & Hvs). apply (combs_In C HC) in Hvs. destruct Hvs as (S1 & L1 & H1). apply in_seq in Hk.
        exists C, vs. refine (conj (or_introl eq_refl) (conj S1 (conj H1 (conj _ (conj _ eq_refl))))); lia.
      * exists D, vs. simpl. tauto.
    + intros (D & vs & [<-|HD] & S1 & H1 & L1 & L2 & ->).
      * left. exists (length vs). split.
        -- apply in_seq. assert (length vs <= length C) by (apply NoDup_incl_length; [apply SSlt_NoDup; auto|exact H1]). lia.
        -- apply in_map_iff. exists vs. split; auto. apply (combs_In C HC). auto.
      * right. exists D, vs. auto 8.
Qed.

(** every clique is part of a maximal one *)
Lemma graph_clique_sub L vs ws : subset ws vs -> graph_clique L vs -> graph_clique L ws.
Proof. intros H (C1 & C2). split; auto. Qed.

Lemma has_dec K vs : kwf K -> {has (by_index K) vs} + {~ has (by_index K) vs}.
Proof. intro HK. destruct (k_contains K (simplex_of vs 0)) eqn:E; [left|right]; rewrite <- (contains_has K vs 0 HK); congruence. Qed.

Lemma graph_clique_dec K vs : kwf K -> {graph_clique (by_index K) vs} + {~ graph_clique (by_index K) vs}.
Proof.
  intro HK. destruct (Forall_dec (fun u => has (by_index K) [u]) (fun u => has_dec K [u] HK) vs) as [H1|H1].
  - destruct (Forall_dec (fun p => fst p = snd p \/ has (by_index K) [fst p; snd p])
      (fun p => match Nat.eq_dec (fst p) (snd p) with left e => left (or_introl e) | right n =>
         match has_dec K [fst p; snd p] HK with left h => left (or_intror h) | right nh => right (fun o => match o with or_introl e => n e | or_intror h => nh h end) end end) (list_prod vs vs)) as [H2|H2].
    + left. rewrite Forall_forall in H1, H2. split; auto. intros u v Hu Hv Huv. destruct (H2 (u, v)) as [H|H]; auto; [apply in_prod; auto|easy].
    + right. intros (C1 & C2). apply H2. apply Forall_forall. intros [u v] Huv. apply in_prod_iff in Huv. cbn [fst snd].
      destruct (Nat.eq_dec u v); auto. right. apply C2; tauto.
  - right. intros (C1 & _). apply H1. apply Forall_forall. auto.
Qed.

Lemma extend_clique K vs : kwf K -> graph_clique (by_index K) vs ->
  exists ms, StronglySorted lt ms /\ subset vs ms /\ maximal_clique (by_index K) ms.
Proof.
  intros HK Hc. assert (G : forall l, exists ms, subset vs ms /\ graph_clique (by_index K) ms /\ forall w, In w l -> ~ In w ms -> ~ graph_clique (by_index K) (w :: ms)).
  { induction l as [|w l (ms & S1 & C1 & M1)]; [exists vs; refine (conj (fun v H => H) (conj Hc _)); intros w []|].
    destruct (in_dec Nat.eq_dec w ms) as [Hw|Hw].
    - exists ms. refine (conj S1 (conj C1 _)). intros u [<-|Hu]; auto.
    - destruct (graph_clique_dec K (w :: ms) HK) as [Hcw|Hcw].
      + exists (w :: ms). refine (conj _ (conj Hcw _)); [intros v Hv; right; auto|]. intros u Hu Hnu Hcu. destruct Hu as [<-|Hu]; [apply Hnu; simpl; auto|].
        apply (M1 u Hu); [intro; apply Hnu; simpl; auto|]. eapply graph_clique_sub; [|exact Hcu]. intros v [<-|Hv]; simpl; auto.
      + exists ms. refine (conj S1 (conj C1 _)). intros u [<-|Hu]; auto. }
  destruct (G (k_vertices K)) as (ms & S1 & C1 & M1). set (ms' := set_insert_range ms []).
  assert (E : forall v, In v ms' <-> In v ms) by (intro v; unfold ms'; rewrite set_range_In; simpl; tauto).
  exists ms'. refine (conj (set_range_sorted _ _ (SSorted_nil _)) (conj _ (conj _ _))).
  - intros v Hv. apply E. auto.
  - eapply graph_clique_sub; [|exact C1]. intros v Hv. apply E. auto.
  - intros w Hw Hcw. apply (M1 w).
    + apply has_vertex; auto. apply Hcw. simpl. auto.
    + rewrite <- E. auto.
    + eapply graph_clique_sub; [|exact Hcw]. intros v [<-|Hv]; [simpl; auto|]. right. apply E. auto.
Qed.

(** ** C48 *)
Theorem C48_clique_complex : forall order K kMax kMin, (forall C l, Permutation (order C l) l) ->
  reachable K -> edges_have_vertices (by_index K) ->
  exists L, topDown order K kMax kMin = Ok L /\ reachable L /\
    (forall s, In s (by_index L) -> data s = 0%Z) /\
    forall vs, NoDup vs -> (has (by_index L) vs <-> graph_clique (by_index K) vs /\ kMin < length vs /\ length vs <= kMax + 1).
Proof.
  intros order K kMax kMin Ho HR He. pose proof (reachable_kwf K HR) as HK.
  destruct (C28_koch order K Ho HR He) as (R & ER & NR & IR). unfold topDown. rewrite ER. cbn [bind].
  destruct (td_cliques_ok kMax kMin R []) as (l & El & Il); [intros C HC; apply IR in HC; tauto|]. rewrite El. cbn [bind app].
  assert (Hg : forall s, In s l -> good s).
  { intros s Hs. apply Il in Hs. destruct Hs as (C & vs & _ & _ & _ & L1 & _ & ->). split; [apply simplex_of_wf|].
    intro E. destruct vs as [|v vs]; [simpl in L1; lia|]. assert (H : In v (verts (simplex_of (v :: vs) 0))) by (apply simplex_of_In; simpl; auto). rewrite E in H. contradiction. }
  destruct (insert_any l k_empty empty_kwf Hg) as (L & EL & WL & I1 & I2). unfold insert_into. rewrite EL. exists L. split; [reflexivity|]. split.
  { replace L with (fst (k_insert k_empty l)) by (rewrite EL; auto). apply insert_reachable; [|intros s Hs; apply Hg; auto]. exists 0%Z, 0%Z, []. reflexivity. }
  split.
  { intros s Hs. destruct (I1 s Hs) as [[]|Hs']. apply Il in Hs'. destruct Hs' as (C & vs & _ & _ & _ & _ & _ & ->). reflexivity. }
  intros vs Hn. split.
  - intros (t & Ht & Et). destruct (I1 t Ht) as [[]|Hl]. apply Il in Hl. destruct Hl as (C & us & HC & S1 & H1 & L1 & L2 & ->).
    assert (Eu : set_eq us vs) by (intro v; rewrite <- (Et v), simplex_of_In; tauto).
    assert (Elen : length us = length vs) by (apply NoDup_same_length; auto; apply SSlt_NoDup; auto).
    rewrite <- Elen. split; auto. apply IR in HC. destruct HC as [_ [HC _]]. eapply graph_clique_sub; [|exact HC]. intros v Hv. apply H1, Eu. auto.
  - intros (Hc & L1 & L2). destruct (extend_clique K vs HK Hc) as (ms & Sm & Hsub & Mm).
    set (us := set_insert_range vs []). assert (Eu : forall v, In v us <-> In v vs) by (intro v; unfold us; rewrite set_range_In; simpl; tauto).
    assert (Su : StronglySorted lt us) by (apply set_range_sorted; constructor).
    assert (Elen : length us = length vs) by (apply NoDup_same_length; auto; apply SSlt_NoDup; auto).
    assert (Hin : In (simplex_of us 0) l).
    { apply Il. exists ms, us. refine (conj _ (conj Su (conj _ (conj _ (conj _ eq_refl))))); [apply IR; auto|intros v Hv; apply Hsub, Eu; auto|lia|lia]. }
    assert (Hv : In (verts (simplex_of us 0)) (map verts (by_index L))) by (apply I2; right; apply in_map; auto).
    apply in_map_iff in Hv. destruct Hv as (t & Et & Ht). exists t. split; auto. intro v. rewrite Et, simplex_of_In. apply Eu.
Qed.

(** the two expansions store the same simplices *)
Theorem C48_agreement : forall order order' K dimension, (forall C l, Permutation (order C l) l) -> (forall l, Permutation (order' l) l) ->
  reachable K -> (forall u v, has (by_index K) [u; v] -> has (by_index K) [u]) ->
  exists L L', topDown order K dimension 0 = Ok L /\ Rips.ripsExpander order' K dimension = Ok L' /\
    forall vs, has (by_index L) vs <-> has (by_index L') vs.
Proof.
  intros order order' K dimension Ho Ho' HR He. pose proof (reachable_kwf K HR) as HK.
  assert (He' : edges_have_vertices (by_index K)).
  { intros s v Hs Ls Hv. destruct (verts s) as [|a [|b [|]]] eqn:Es; simpl in Ls; try lia. destruct Hv as [<-|[<-|[]]].
    - apply (He a b). exists s. split; auto. rewrite Es. intro; tauto.
    - apply (He b a). exists s. split; auto. rewrite Es. intro; simpl; tauto. }
  destruct (C48_clique_complex order K dimension 0 Ho HR He') as (L & E & HRL & _ & H).
  destruct (PropertiesRips.C25_clique_complex order' K dimension Ho' HR He) as (L' & E' & _ & H2 & H1).
  destruct (PropertiesRips.C25_expansion order' K dimension Ho' HR) as (L'' & E'' & HRL' & _).
  rewrite E' in E''. injection E'' as <-.
  exists L, L'. refine (conj E (conj E' _)).
  assert (G : forall vs, NoDup vs -> (has (by_index L) vs <-> has (by_index L') vs)).
  { intros vs Hn. rewrite (H vs Hn). destruct vs as [|a [|b vs]].
    - split; [intros (_ & F & _); simpl in F; lia|]. intros (s & Hs & Es). exfalso.
      destruct (kwf_good L' (reachable_kwf L' HRL') s Hs) as [_ Hne]. destruct (verts s) as [|x r]; [easy|]. apply (proj1 (Es x)). simpl. auto.
    - rewrite H1. split; [intros ((C1 & _) & _); apply C1; simpl; auto|]. intro Ha. split; [|simpl; lia]. split.
      + intros u [<-|[]]; auto.
      + intros u v [<-|[]] [<-|[]]; easy.
    - rewrite (H2 (a :: b :: vs) Hn) by (simpl; lia). split.
      + intros ((_ & C2) & _ & L2). split; [exact C2|lia].
      + intros (C2 & L2). split; [|simpl in *; lia]. split; [|exact C2]. intros u Hu.
        destruct (Nat.eq_dec u a) as [->|Hua]; [|apply (He u a), C2; simpl; auto].
        apply (He a b), C2; simpl; auto. inversion Hn as [|? ? Na _]; subst. intros ->. apply Na. simpl. auto. }
  intro vs. assert (Hs : forall M, has (by_index M) vs <-> has (by_index M) (nodup Nat.eq_dec vs)).
  { intro M. split; intros (s & Hs & Es); exists s; (split; [auto|]); intro v; rewrite (Es v), nodup_In; tauto. }
  rewrite (Hs L), (Hs L'). apply G, NoDup_nodup.
Qed.

Example C48_example : exists L, topDown (fun _ l => l) bowtie 2 0 = Ok L /\ map verts (by_index L) =
  [[1]; [2]; [3]; [2; 1]; [3; 1]; [3; 2]; [3; 2; 1]; [5]; [8]; [5; 3]; [8; 3]; [8; 5]; [8; 5; 3]; [9]].
Proof. eexists. split; vm_compute; reflexivity. Qed.

(** ** C57: weights *)
(** the largest data of a simplex of [L] with [k] vertices among those of [s], at least [lowest] *)
Definition max_of_faces_from (lowest : Z) (L : list simplex) (k : nat) (s : simplex) (m : Z) : Prop :=
  (m = lowest \/ exists t, In t L /\ subset (verts t) (verts s) /\ length (verts t) = k /\ data t = m) /\
  (lowest <= m)%Z /\
  (forall t, In t L -> subset (verts t) (verts s) -> length (verts t) = k -> (data t <= m)%Z).

Lemma td_weight_ok lowest S dimension s : kwf S -> wf s -> dimension + 1 <= length (verts s) ->
  exists w, td_weight lowest S dimension s = Ok w /\ max_of_faces_from lowest (by_index S) (dimension + 1) s w.
Proof.
  intros HS Hw Hd. unfold td_weight. set (l := cpp_sort Nat.ltb (verts s)).
  assert (El : forall v, In v l <-> In v (verts s)) by (intro v; apply cpp_sort_In).
  assert (Hl : StronglySorted lt l).
  { assert (Hn : NoDup (verts s)) by (apply SSgt_NoDup; auto). unfold l. rewrite <- set_range_sort by auto. apply set_range_sorted. constructor. }
  rewrite combinations_ok; [|auto|unfold l; rewrite cpp_sort_length; auto]. cbn [bind fst]. eexists. split; [reflexivity|].
  assert (G : forall cs w0, let w := fold_left (fun w vs => match k_lookup S (simplex_of vs 0) with Some t => Z.max w (data t) | None => w end) cs w0 in
    (w = w0 \/ exists t vs, In vs cs /\ In t (by_index S) /\ set_eq (verts t) vs /\ data t = w) /\ (w0 <= w)%Z /\
    (forall t vs, In vs cs -> In t (by_index S) -> set_eq (verts t) vs -> (data t <= w)%Z)).
  { induction cs as [|c cs IH]; intros w0 w; cbn [fold_left] in w.
    - refine (conj (or_introl eq_refl) (conj (Z.le_refl _) _)). intros t vs [].
    - set (w1 := match k_lookup S (simplex_of c 0) with Some t => Z.max w0 (data t) | None => w0 end) in w.
      destruct (IH w1) as (A & B & C). fold w in A, B, C.
      assert (H1 : (w1 = w0 \/ exists t, In t (by_index S) /\ set_eq (verts t) c /\ data t = w1) /\ (w0 <= w1)%Z /\
                   forall t, In t (by_index S) -> set_eq (verts t) c -> (data t <= w1)%Z).
      { unfold w1. destruct (k_lookup S (simplex_of c 0)) as [t|] eqn:E.
        - apply lookup_some in E; auto. destruct E as [Ht Et]. refine (conj _ (conj _ _)).
          + destruct (Z.max_spec w0 (data t)) as [[_ ->]|[_ ->]]; auto. right. exists t. refine (conj Ht (conj _ eq_refl)). intro v. rewrite Et. apply simplex_of_In.
          + lia.
          + intros t' Ht' Et'. replace t' with t; [lia|]. apply (nodup_verts_eq S); auto. apply wf_ext; [apply (kwf_good S HS t Ht)|apply (kwf_good S HS t' Ht')|].
            intro v. rewrite Et, simplex_of_In, (Et' v). tauto.
        - refine (conj (or_introl eq_refl) (conj (Z.le_refl _) _)). intros t Ht Et. exfalso.
          assert (k_lookup S (simplex_of c 0) = Some t); [|congruence]. apply lookup_some; auto. split; auto.
          apply wf_ext; [apply (kwf_good S HS t Ht)|apply simplex_of_wf|]. intro v. rewrite simplex_of_In. apply Et. }
      destruct H1 as (D1 & D2 & D3). refine (conj _ (conj _ _)).
      + destruct A as [A|(t & vs & Hv & H)]; [|right; exists t, vs; simpl; tauto]. rewrite A. destruct D1 as [D1|(t & Ht & Et & Ed)]; auto.
        right. exists t, c. simpl. auto.
      + lia.
      + intros t vs [<-|Hv] Ht Et; [specialize (D3 t Ht Et); lia|apply (C t vs); auto]. }
  destruct (G (combs (dimension + 1) l) lowest) as (A & B & C). refine (conj _ (conj B _)).
  - destruct A as [A|(t & vs & Hv & Ht & Et & Ed)]; auto. right. exists t. apply (combs_In l Hl) in Hv. destruct Hv as (S1 & L1 & H1).
    refine (conj Ht (conj _ (conj _ Ed))).
    + intros v Hv. apply El, H1, Et. auto.
    + rewrite <- L1. apply NoDup_same_length; auto; [apply SSgt_NoDup, (kwf_good S HS t Ht)|apply SSlt_NoDup; auto].
  - intros t Ht Hsub Lt. set (us := set_insert_range (verts t) []).
    assert (Eu : forall v, In v us <-> In v (verts t)) by (intro v; unfold us; rewrite set_range_In; simpl; tauto).
    assert (Su : StronglySorted lt us) by (apply set_range_sorted; constructor).
    apply (C t us); auto; [|intro v; symmetry; apply Eu]. apply (combs_In l Hl). refine (conj Su (conj _ _)).
    + rewrite <- Lt. apply NoDup_same_length; auto; [apply SSlt_NoDup; auto|apply SSgt_NoDup, (kwf_good S HS t Ht)].
    + intros v Hv. apply El, Hsub, Eu. auto.
Qed.

Theorem C57_weights : forall lowest K S dimension, reachable K -> reachable S ->
  exists R, td_assignMaximumWeight lowest K S dimension = Ok R /\ map verts (by_index R) = map verts (by_index K) /\
    forall i s r, nth_error (by_index K) i = Some s -> nth_error (by_index R) i = Some r ->
      (length (verts s) <= dimension -> data r = data s) /\
      (dimension < length (verts s) -> max_of_faces_from lowest (by_index S) (dimension + 1) s (data r)).
Proof.
  intros lowest K S dimension HK0 HS0. pose proof (reachable_kwf K HK0) as HK. pose proof (reachable_kwf S HS0) as HS.
  unfold td_assignMaximumWeight.
  assert (G : forall l2 l1 R, by_index K = l1 ++ l2 -> kwf R -> map verts (by_index R) = map verts l1 ->
     (forall i s r, nth_error l1 i = Some s -> nth_error (by_index R) i = Some r ->
      (length (verts s) <= dimension -> data r = data s) /\
      (dimension < length (verts s) -> max_of_faces_from lowest (by_index S) (dimension + 1) s (data r))) ->
     exists R', foldM (td_assign lowest S dimension) l2 R = Ok R' /\ map verts (by_index R') = map verts (by_index K) /\
     forall i s r, nth_error (by_index K) i = Some s -> nth_error (by_index R') i = Some r ->
      (length (verts s) <= dimension -> data r = data s) /\
      (dimension < length (verts s) -> max_of_faces_from lowest (by_index S) (dimension + 1) s (data r))).
  { induction l2 as [|s l2 IH]; intros l1 R E HR Em Hi; cbn [foldM].
    - rewrite app_nil_r in E. subst l1. exists R. auto.
    - assert (Hs : In s (by_index K)) by (rewrite E; apply in_or_app; simpl; auto). destruct (kwf_good K HK s Hs) as [Hw Hne].
      assert (Hlen : length (by_index R) = length l1) by (rewrite <- (map_length verts (by_index R)), Em, map_length; auto).
      assert (Hpush : forall d, exists R1, insert_into R [set_data s d] = Ok R1 /\ kwf R1 /\ by_index R1 = by_index R ++ [set_data s d]).
      { intro d. destruct (insert_new [set_data s d] R HR) as (R1 & E1 & W1 & B1).
        - intros t [<-|[]]. split; auto.
        - rewrite map_app, Em. cbn [map]. change (verts (set_data s d)) with (verts s). pose proof (kwf_nodup K HK) as Hn. rewrite E in Hn.
          rewrite map_app in Hn. cbn [map] in Hn. replace (map verts l1 ++ verts s :: map verts l2) with ((map verts l1 ++ [verts s]) ++ map verts l2) in Hn by (rewrite <- app_assoc; auto).
          clear - Hn. revert Hn. generalize (map verts l1 ++ [verts s]) as a. intro a. induction a as [|x a IH]; intro H; [constructor|]. simpl in H. inversion H; subst.
          constructor; auto. intro; apply H2, in_or_app; auto.
        - exists R1. unfold insert_into. rewrite E1. auto. }
      assert (Hstep : exists d R1, td_assign lowest S dimension R s = Ok R1 /\ kwf R1 /\ by_index R1 = by_index R ++ [set_data s d] /\
        (length (verts s) <= dimension -> d = data s) /\ (dimension < length (verts s) -> max_of_faces_from lowest (by_index S) (dimension + 1) s d)).
      { unfold td_assign. rewrite dimension_size by (unfold s_size; destruct (verts s); [easy|simpl; lia]). cbn [bind]. unfold s_size.
        assert (Hpos : 0 < length (verts s)) by (destruct (verts s); [easy|simpl; lia]).
        destruct (Nat.ltb_spec (length (verts s) - 1) dimension) as [Hlt|Hge].
        - destruct (Hpush (data s)) as (R1 & E1 & W1 & B1). assert (Es : set_data s (data s) = s) by (destruct s; reflexivity). rewrite Es in *.
          exists (data s), R1. rewrite Es. refine (conj E1 (conj W1 (conj B1 (conj (fun _ => eq_refl) _)))). lia.
        - destruct (td_weight_ok lowest S dimension s HS Hw) as (w & Ew & Mw); [lia|]. rewrite Ew. cbn [bind]. destruct (Hpush w) as (R1 & E1 & W1 & B1).
          exists w, R1. refine (conj E1 (conj W1 (conj B1 (conj _ (fun _ => Mw))))). lia. }
      destruct Hstep as (d & R1 & E1 & W1 & B1 & D1 & D2). rewrite E1. cbn [bind]. apply (IH (l1 ++ [s]) R1).
      + rewrite <- app_assoc. auto.
      + auto.
      + rewrite B1, !map_app, Em. reflexivity.
      + intros i t r Ht Hr. rewrite B1 in Hr. destruct (Nat.lt_ge_cases i (length l1)) as [Hlt|Hge].
        * rewrite nth_error_app1 in Ht, Hr by lia. apply (Hi i); auto.
        * rewrite nth_error_app2 in Ht, Hr by lia. rewrite Hlen in Hr. destruct (i - length l1) as [|m]; [|destruct m; discriminate].
          injection Ht as <-. injection Hr as <-. cbn [set_data data]. auto. }
  apply (G (by_index K) [] k_empty); auto; [apply empty_kwf|]. intros [|i] s r; discriminate.
Qed.

Example C57_example : exists L R, topDown (fun _ l => l) full_triangle 2 0 = Ok L /\
  td_assignMaximumWeight (-1000) L (mk [InsertRange [([0; 1], 4%Z); ([1; 2], 6%Z); ([0; 2], 5%Z)]]) 1 = Ok R /\
  by_index R = [Simplex [0] 0; Simplex [1] 0; Simplex [2] 0; Simplex [1; 0] 4; Simplex [2; 0] 5; Simplex [2; 1] 6; Simplex [2; 1; 0] 6].
Proof. eexists. eexists. split; [vm_compute; reflexivity|]. split; vm_compute; reflexivity. Qed.

Print Assumptions C45_combinations.
Print Assumptions C48_clique_complex.
Print Assumptions C48_agreement.
Print Assumptions C57_weights.
