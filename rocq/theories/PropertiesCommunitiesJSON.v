(** * C168: clique communities in JSON documents. *)
From Coq Require Import String Ascii.
From Coq Require Import List Arith NArith Bool ZArith Lia Permutation Sorted Relations.
From Verif Require Import LoadFacts DiagramIO PropertiesRaw PropertiesJSON.
From Verif Require Import Base BaseFacts Simplex SimplexFacts SpecComplex Matrix Complex ComplexFacts History SubcomplexFacts RepFacts
  UnionFind SpecUnionFind UnionFindFacts PropertiesUnionFind Components SpecComponents ComponentFacts BarycentricFacts FiltrationFacts DualFacts PairingFacts
  PropertiesComplex PropertiesComponents Rips SpecRips RipsFacts PropertiesRips CliqueGraph PropertiesCliqueGraph PropertiesDowker PropertiesCliqueCommunities
  StringUtilities SpecText LoadMatrix PropertiesString PropertiesVietorisRips PropertiesGraphTool PropertiesPointCloudTools PropertiesInterlevelTool CommunitiesJSON.
Import ListNotations.
Local Open Scope list_scope.
Local Open Scope nat_scope.

(** ** Specification *)
(** simplices with [k + 1] vertices, [k] of which they have in common *)
Definition of_level (L : list simplex) (k : nat) (s : simplex) : Prop := In s L /\ length (verts s) = S k.
Definition neighbours (L : list simplex) (k : nat) (s t : simplex) : Prop :=
  of_level L k s /\ of_level L k t /\ exists r, NoDup r /\ length r = k /\ subset r (verts s) /\ subset r (verts t).
Definition chained (L : list simplex) (k : nat) : simplex -> simplex -> Prop := clos_refl_sym_trans simplex (neighbours L k).
(** the communities of a level: sorted lists of simplices *)
Definition are_communities (L : list simplex) (k : nat) (cs : list (list simplex)) : Prop :=
  NoDup (concat cs) /\ (forall s, In s (concat cs) <-> of_level L k s) /\
  forall c, In c cs -> c <> [] /\ StronglySorted (fun s t => precedes (verts s) (verts t)) c /\
    forall s t, In s c -> (In t c <-> of_level L k t /\ chained L k s t).

(** ** Repeated requests to a union-find structure *)
Inductive gets (order : list nat -> list nat) : parents -> list nat -> list (list nat) -> Prop :=
| gets_nil m : gets order m [] []
| gets_cons m r l m1 c cs : uf_get order m r = Ok (m1, c) -> gets order m1 l cs -> gets order m (r :: l) (c :: cs).
Lemma gets_ok order V h l m : (forall l, Permutation (order l) l) -> (forall o v, In o h -> In v (mentions o) -> In v V) -> uf_run V h = Ok m -> (forall r, In r l -> In r V) ->
  exists cs, gets order m l cs /\ Forall2 (fun r c => NoDup c /\ forall i, In i c <-> In i V /\ connected (merged_pairs h) i r) l cs.
Proof.
  intros Ho. revert h m. induction l as [|r l IH]; intros h m Hh Hm Hl; [exists []; split; constructor|].
  destruct (C21_classes V h Hh) as (m' & rep' & E' & _ & _ & _ & _ & _ & _ & Hget). rewrite Hm in E'. injection E' as <-.
  destruct (Hget order r Ho) as (m2 & c & Eg & Nc & Ic); [apply Hl; left; reflexivity|].
  destruct (IH (h ++ [UGet r]) m2) as (cs & G & F).
  - intros o v Ho' Hv. apply in_app_iff in Ho'. destruct Ho' as [Ho'|[<-|[]]]; [apply (Hh o v Ho' Hv)|]. destruct Hv as [<-|[]]. apply Hl. left. reflexivity.
  - apply (run_snoc V _ _ m); [exact Hm|apply (exec_get order m r m2 c Eg)].
  - intros; apply Hl; right; assumption.
  - exists (c :: cs). split; [econstructor; eassumption|]. constructor; [auto|]. rewrite merged_app in F. cbn [merged_pairs] in F. rewrite app_nil_r in F. exact F.
Qed.
Lemma components_run K : reachable K -> closed (by_index K) -> exists m h, calculateConnectedComponents K = Ok m /\ uf_run (k_vertices K) h = Ok m /\
  (forall o v, In o h -> In v (mentions o) -> In v (k_vertices K)) /\ forall u v, connected (merged_pairs h) u v <-> joined K u v.
Proof.
  intros HR HC. pose proof (reachable_kwf K HR) as HK. set (h := map edge_op (k_range K 1)).
  assert (Hh : forall o v, In o h -> In v (mentions o) -> In v (k_vertices K)).
  { intros o v Ho Hv. apply in_map_iff in Ho. destruct Ho as (s & <- & Hs). apply range_In in Hs; auto. destruct Hs as [Hs Hn]. apply (V_spec K HR).
    destruct (HC s [v] Hs) as (t & Ht & Et); [discriminate| |exists t; split; [exact Ht|]].
    - intros x [<-|[]]. simpl in Hv. destruct (verts s) as [|a [|b [|c t]]]; try discriminate. simpl in *. intuition.
    - pose proof (kwf_good K HK t Ht) as Gt. assert (Nt : NoDup (verts t)) by (apply SSgt_NoDup; apply Gt). destruct (verts t) as [|a [|b r]].
      + destruct (proj2 (Et v) (or_introl eq_refl)).
      + destruct (proj1 (Et a) (or_introl eq_refl)) as [->|[]]. reflexivity.
      + exfalso. destruct (proj1 (Et a) (or_introl eq_refl)) as [<-|[]]. destruct (proj1 (Et b) (or_intror (or_introl eq_refl))) as [<-|[]]. inversion Nt as [|? ? N1 _]. apply N1. left. reflexivity. }
  destruct (C21_classes (k_vertices K) h Hh) as (m & rep & Em & _). exists m, h. refine (conj _ (conj Em (conj Hh _))).
  - unfold calculateConnectedComponents. rewrite component_run; [exact Em|]. intros s Hs. apply range_In in Hs; auto. destruct Hs as [Hs Hn]. split; auto. apply (kwf_good K HK s Hs).
  - intros u v. unfold h. rewrite merged_pairs_edges. symmetry. apply joined_connected; auto.
Qed.

(** ** Communities *)
Section Level.
  Variable K C : complex.
  Variable k : nat.
  Hypothesis HR : reachable K.
  Hypothesis Hk : 1 <= k.
  Hypothesis HV : forall m, In m (k_vertices C) <-> exists s, nth_error (by_index K) m = Some s /\ length (verts s) = S k.
  Hypothesis HE : forall i j, i <> j -> (has (by_index C) [i; j] <-> exists s s' r, nth_error (by_index K) i = Some s /\ nth_error (by_index K) j = Some s' /\
      length (verts s) = S k /\ length (verts s') = S k /\ r <> [] /\ NoDup r /\ length r = k /\ subset r (verts s) /\ subset r (verts s')).
  Let L := by_index K.
  Let P (i : nat) (s : simplex) : Prop := nth_error L i = Some s /\ length (verts s) = S k.

  Lemma P_level i s : P i s -> of_level L k s.
  Proof. intros [H1 H2]. split; [eapply nth_error_In; exact H1|exact H2]. Qed.
  Lemma P_fun i j s : P i s -> P j s -> i = j.
  Proof.
    intros [H1 _] [H2 _]. pose proof (kwf_nodup K (reachable_kwf K HR)) as N. rewrite NoDup_nth_error in N. apply N; [rewrite map_length; apply nth_error_Some; unfold L in H1; congruence|].
    rewrite !nth_error_map. unfold L in H1, H2. rewrite H1, H2. reflexivity.
  Qed.
  Lemma joined_chained i j : joined C i j -> (forall s, P i s -> exists t, P j t /\ chained L k s t) /\ (forall t, P j t -> exists s, P i s /\ chained L k s t).
  Proof.
    induction 1 as [i j H|i|i j H [I1 I2]|i j l H1 [I1 I2] H2 [I3 I4]].
    - destruct (Nat.eq_dec i j) as [->|N]; [split; intros s Hs; exists s; split; auto; apply rst_refl|]. apply (HE i j N) in H. destruct H as (s & s' & r & E1 & E2 & L1 & L2 & _ & R1 & R2 & R3 & R4).
      assert (X : neighbours L k s s') by (refine (conj (P_level i s (conj E1 L1)) (conj (P_level j s' (conj E2 L2)) _)); exists r; auto).
      split; intros t [Ht _]; [exists s'; split; [split; assumption|]|exists s; split; [split; assumption|]]; unfold L in Ht; [rewrite E1 in Ht|rewrite E2 in Ht]; injection Ht as <-; apply rst_step, X.
    - split; intros s Hs; exists s; split; auto; apply rst_refl.
    - split; intros s Hs; [destruct (I2 s Hs) as (t & Ht & Hc)|destruct (I1 s Hs) as (t & Ht & Hc)]; exists t; split; auto; apply rst_sym; exact Hc.
    - split; intros s Hs.
      + destruct (I1 s Hs) as (t & Ht & Hc). destruct (I3 t Ht) as (u & Hu & Hc'). exists u. split; auto. eapply rst_trans; eassumption.
      + destruct (I4 s Hs) as (t & Ht & Hc). destruct (I2 t Ht) as (u & Hu & Hc'). exists u. split; auto. eapply rst_trans; eassumption.
  Qed.
  Lemma chained_joined s t : chained L k s t -> (forall i, P i s -> exists j, P j t /\ joined C i j) /\ (forall j, P j t -> exists i, P i s /\ joined C i j).
  Proof.
    induction 1 as [s t (Hs & Ht & r & R1 & R2 & R3 & R4)|s|s t H [I1 I2]|s t u H1 [I1 I2] H2 [I3 I4]].
    - assert (X : forall i j, P i s -> P j t -> joined C i j).
      { intros i j Hi Hj. destruct (Nat.eq_dec i j) as [->|N]; [apply rst_refl|]. apply rst_step. apply (HE i j N). exists s, t, r. destruct Hi, Hj. repeat (split; [assumption|]). split; [destruct r; [cbn in R2; lia|discriminate]|]. auto. }
      destruct Hs as [Hs Ls]. destruct Ht as [Ht Lt]. apply In_nth_error in Hs. apply In_nth_error in Ht. destruct Hs as [i Hi]. destruct Ht as [j Hj].
      split; [intros i' Hi'; exists j|intros j' Hj'; exists i]; (split; [split; assumption|]); apply X; auto; split; assumption.
    - split; intros i Hi; exists i; split; auto; apply rst_refl.
    - split; intros i Hi; [destruct (I2 i Hi) as (j & Hj & Hc)|destruct (I1 i Hi) as (j & Hj & Hc)]; exists j; split; auto; apply rst_sym; exact Hc.
    - split; intros i Hi.
      + destruct (I1 i Hi) as (j & Hj & Hc). destruct (I3 j Hj) as (l & Hl & Hc'). exists l. split; auto. eapply rst_trans; eassumption.
      + destruct (I4 i Hi) as (j & Hj & Hc). destruct (I2 j Hj) as (l & Hl & Hc'). exists l. split; auto. eapply rst_trans; eassumption.
  Qed.
  Lemma joined_iff i j s t : P i s -> P j t -> (joined C i j <-> chained L k s t).
  Proof.
    intros Hi Hj. split; intro H.
    - destruct (proj1 (joined_chained i j H) s Hi) as (t' & [Ht' _] & Hc). destruct Hj as [Hj _]. rewrite Hj in Ht'. injection Ht' as <-. exact Hc.
    - destruct (proj1 (chained_joined s t H) i Hi) as (j' & Hj' & Hc). rewrite (P_fun j j' t Hj Hj'). exact Hc.
  Qed.

  Lemma fetch_ok is acc : (forall i, In i is -> In i (k_vertices C)) ->
    exists l, foldM (fun l v => let* s := k_at K v in Ok (l ++ [s])) is acc = Ok (acc ++ l) /\ Forall2 P is l.
  Proof.
    revert acc. induction is as [|i is IH]; intros acc H; [exists []; cbn [foldM]; rewrite app_nil_r; split; [reflexivity|constructor]|].
    destruct (proj1 (HV i) (H i (or_introl eq_refl))) as (s & Hs & Hl). destruct (IH (acc ++ [s])) as (l & E & F); [intros; apply H; right; assumption|].
    exists (s :: l). cbn [foldM]. unfold k_at at 1, at_. rewrite Hs. cbn [bind]. rewrite E, <- app_assoc. split; [reflexivity|]. constructor; [split; assumption|exact F].
  Qed.
  Lemma sorted_precedes l : NoDup (map verts l) -> (forall s, In s l -> length (verts s) = S k) -> StronglySorted (fun s t => precedes (verts s) (verts t)) (cpp_sort s_ltb l).
  Proof.
    intros N HL. pose proof (cpp_sort_sorted s_ltb l s_ltb_swo) as SS. pose proof (cpp_sort_perm s_ltb l) as PP.
    assert (N' : NoDup (map verts (cpp_sort s_ltb l))) by (apply (Permutation_NoDup (Permutation_sym (Permutation_map verts PP)) N)).
    assert (HL' : forall s, In s (cpp_sort s_ltb l) -> length (verts s) = S k) by (intros s Hs; apply HL; apply (Permutation_in _ PP Hs)).
    revert N' HL' SS. generalize (cpp_sort s_ltb l). clear. intros l N HL SS. induction SS as [|s l SS IH HF]; [constructor|]. cbn [map] in N. apply NoDup_cons_iff in N. destruct N as [N1 N2].
    constructor; [apply IH; [exact N2|intros; apply HL; right; assumption]|]. apply Forall_forall. intros t Ht. rewrite Forall_forall in HF. specialize (HF t Ht).
    apply lex_precedes; [rewrite (HL s (or_introl eq_refl)), (HL t (or_intror Ht)); reflexivity|]. unfold s_ltb in HF. destruct (lex_total (verts s) (verts t)) as [X|[X|X]]; [exact X| |congruence].
    exfalso. apply N1. rewrite X. apply in_map. exact Ht.
  Qed.
  Lemma community_ok is : NoDup is -> (forall i, In i is -> In i (k_vertices C)) ->
    exists c, community K is = Ok c /\ NoDup c /\ (forall s, In s c <-> exists i, In i is /\ P i s) /\ StronglySorted (fun s t => precedes (verts s) (verts t)) c.
  Proof.
    intros N H. unfold community. assert (I : forall i, In i (set_insert_range is []) <-> In i is) by (intro i; rewrite set_range_In; simpl; tauto).
    destruct (fetch_ok (set_insert_range is []) []) as (l & E & F); [intros i Hi; apply H, I, Hi|]. rewrite E. cbn [bind app]. exists (cpp_sort s_ltb l). split; [reflexivity|].
    assert (SN : NoDup (set_insert_range is [])) by (apply SSlt_NoDup, set_range_sorted; constructor).
    assert (Il : forall s, In s l <-> exists i, In i is /\ P i s).
    { intro s. transitivity (exists i, In i (set_insert_range is []) /\ P i s); [|split; intros (i & Hi & Hp); exists i; split; auto; apply I; exact Hi]. clear -F HR. induction F as [|i t l1 l2 Hp F IH]; [split; [intros []|intros (i & [] & _)]|].
      cbn [In]. rewrite IH. split.
      - intros [<-|(j & Hj & Hpj)]; [exists i; auto|exists j; auto].
      - intros (j & [<-|Hj] & Hpj); [left; destruct Hp as [Hp _]; destruct Hpj as [Hpj _]; congruence|right; exists j; auto]. }
    assert (NL : NoDup (map verts l)).
    { clear -F SN HR. induction F as [|i t l1 l2 Hp F IH]; [constructor|]. apply NoDup_cons_iff in SN. destruct SN as [S1 S2]. cbn [map]. constructor; [|apply IH; exact S2]. intro X. apply in_map_iff in X. destruct X as (t' & Et & Ht').
      assert (Y : exists j, In j l1 /\ P j t') by (clear -F Ht'; induction F as [|j u l1 l2 Hp F IH]; [destruct Ht'|]; destruct Ht' as [->|Ht']; [exists j; split; [left; reflexivity|exact Hp]|destruct (IH Ht') as (x & Hx & Hp'); exists x; split; [right; exact Hx|exact Hp']]).
      destruct Y as (j & Hj & [Hpj _]). destruct Hp as [Hp _]. assert (i = j); [|subst j; contradiction].
      pose proof (kwf_nodup K (reachable_kwf K HR)) as N. rewrite NoDup_nth_error in N. apply N; [rewrite map_length; apply nth_error_Some; unfold L in Hp; congruence|]. rewrite !nth_error_map. unfold L in Hp, Hpj. rewrite Hp, Hpj. cbn. congruence. }
    pose proof (cpp_sort_perm s_ltb l) as PP. refine (conj _ (conj _ _)).
    - apply (Permutation_NoDup (Permutation_sym PP)). apply (NoDup_map_inv verts). exact NL.
    - intro s. rewrite <- Il. split; [apply (Permutation_in _ PP)|apply (Permutation_in _ (Permutation_sym PP))].
    - apply sorted_precedes; [exact NL|]. intros s Hs. apply Il in Hs. destruct Hs as (i & _ & [_ X]). exact X.
  Qed.
End Level.

Theorem C168_communities : forall order K k, (forall l, Permutation (order l) l) -> reachable K -> 1 <= k ->
  exists cs, communities order K k = Ok cs /\ are_communities (by_index K) k cs.
Proof.
  intros order K k Ho HR Hk. destruct (C49_maximum K k HR) as (G & EG & RG & _ & IE). destruct (graph_closed K k G HR EG) as (RC & CC & VC & _). set (C := k_sort data_cmp G) in *.
  assert (PI : forall t, In t (by_index C) <-> In t (by_index G)) by (intro t; pose proof (C03_sort_permutes G data_cmp RG) as X; split; apply Permutation_in; auto; apply Permutation_sym; auto).
  assert (HE : forall i j, i <> j -> (has (by_index C) [i; j] <-> exists s s' r, nth_error (by_index K) i = Some s /\ nth_error (by_index K) j = Some s' /\
      length (verts s) = S k /\ length (verts s') = S k /\ r <> [] /\ NoDup r /\ length r = k /\ subset r (verts s) /\ subset r (verts s'))).
  { intros i j N. split.
    - intros (t & Ht & Et). apply PI in Ht. destruct (proj1 (IE i j (data t) N)) as (s & s' & r & H); [exists t; auto|]. exists s, s', r. tauto.
    - intros (s & s' & r & H). destruct (proj2 (IE i j (Z.max (data s) (data s')) N)) as (t & Ht & Et & _); [exists s, s', r; tauto|]. exists t. split; [apply PI; exact Ht|exact Et]. }
  destruct (components_run C RC CC) as (m & h & Ec & Em & Hh & Hj).
  destruct (C21_classes (k_vertices C) h Hh) as (m' & rep & Em' & H1 & H2 & _ & _ & _ & H5 & _). rewrite Em in Em'. injection Em' as <-.
  destruct (H5 order Ho) as (m1 & roots & Er & Nr & Ir).
  set (rs := set_insert_range roots []). assert (Irs : forall r, In r rs <-> In r (k_vertices C) /\ rep r = r) by (intro r; unfold rs; rewrite set_range_In, Ir; simpl; tauto).
  assert (Nrs : NoDup rs) by (apply SSlt_NoDup, set_range_sorted; constructor).
  destruct (gets_ok order (k_vertices C) (h ++ [URoots]) rs m1 Ho) as (cs & G1 & F1).
  - intros o v Hov Hv. apply in_app_iff in Hov. destruct Hov as [Hov|[<-|[]]]; [apply (Hh o v Hov Hv)|destruct Hv].
  - apply (run_snoc _ _ _ m); [exact Em|apply (exec_roots order m m1 roots Er)].
  - intros r Hr. apply Irs in Hr. apply Hr.
  - rewrite merged_app in F1. cbn [merged_pairs] in F1. rewrite app_nil_r in F1.
    assert (HL : forall l m acc cs, gets order m l cs -> Forall2 (fun r c => NoDup c /\ forall i, In i c <-> In i (k_vertices C) /\ connected (merged_pairs h) i r) l cs ->
      exists m' ds, foldM (community_step order K) l (m, acc) = Ok (m', acc ++ ds) /\
        Forall2 (fun r c => NoDup c /\ (forall s, In s c <-> exists i, (In i (k_vertices C) /\ joined C i r) /\ nth_error (by_index K) i = Some s /\ length (verts s) = S k) /\
                            StronglySorted (fun s t => precedes (verts s) (verts t)) c) l ds).
    { clear -HR VC Hj. intros l m acc cs GT. revert acc. induction GT as [m|m r l m1 c cs Eg GT IH]; intros acc F.
      - exists m, []. cbn [foldM]. rewrite app_nil_r. split; [reflexivity|constructor].
      - inversion F as [|? ? ? ? [N I] F']; subst. destruct (community_ok K C k HR VC c N) as (d & Ed & Nd & Id & Sd); [intros i Hi; apply I; exact Hi|].
        destruct (IH (acc ++ [d]) F') as (m' & ds & E & FD). exists m', (d :: ds). cbn [foldM]. unfold community_step at 1. cbn [fst snd]. rewrite Eg. cbn [bind]. rewrite Ed. cbn [bind]. rewrite E, <- app_assoc. split; [reflexivity|].
        constructor; [|exact FD]. refine (conj Nd (conj _ Sd)). intro s. rewrite Id. split; intros (i & Hi & Hp); exists i; (split; [|exact Hp]); [apply I in Hi; rewrite <- Hj; exact Hi|apply I; rewrite Hj; exact Hi]. }
    destruct (HL rs m1 [] cs G1 F1) as (m2 & ds & E & FD). cbn [app] in E. exists ds. split.
    + unfold communities. rewrite EG. cbn [bind]. fold C. rewrite Ec. cbn [bind]. rewrite Er. cbn [bind]. fold rs. rewrite E. reflexivity.
    + assert (Rj : forall i j, In i (k_vertices C) -> In j (k_vertices C) -> (rep i = rep j <-> joined C i j)) by (intros i j Hi Hj'; rewrite <- Hj; apply H1; assumption).
      assert (JP : forall i j s t, nth_error (by_index K) i = Some s /\ length (verts s) = S k -> nth_error (by_index K) j = Some t /\ length (verts t) = S k -> (joined C i j <-> chained (by_index K) k s t)).
      { intros i j s t Hi Hj'. apply (joined_iff K C k HR Hk HE i j s t); assumption. }
      assert (Cd : forall c, In c ds -> exists r, In r rs /\ NoDup c /\ (forall s, In s c <-> exists i, (In i (k_vertices C) /\ joined C i r) /\ nth_error (by_index K) i = Some s /\ length (verts s) = S k) /\ StronglySorted (fun s t => precedes (verts s) (verts t)) c).
      { clear -FD. induction FD as [|r c l ds H F IH]; [intros c []|]. intros x [<-|Hx]; [exists r; split; [left; reflexivity|exact H]|]. destruct (IH x Hx) as (r' & Hr & H'). exists r'. split; [right; exact Hr|exact H']. }
      refine (conj _ (conj _ _)).
      * assert (Hin : forall r, In r rs -> In r (k_vertices C) /\ rep r = r) by (intros r; apply Irs).
        clear -FD Nrs Hin Rj HR. induction FD as [|r c l ds (N & I & _) F IH]; [constructor|]. cbn [concat]. apply NoDup_cons_iff in Nrs. destruct Nrs as [N1 N2].
        apply NoDup_app_intro; [exact N|apply IH; [exact N2|intros; apply Hin; right; assumption]|].
        intros s Hs Hs'. apply I in Hs. destruct Hs as (i & [Hi Ji] & Ei & _). apply in_concat in Hs'. destruct Hs' as (c' & Hc' & Hs').
        assert (X : exists r', In r' l /\ forall s, In s c' <-> exists i, (In i (k_vertices C) /\ joined C i r') /\ nth_error (by_index K) i = Some s /\ length (verts s) = S k).
        { clear -F Hc'. induction F as [|r' d l ds (N & I & _) F IH]; [destruct Hc'|]. destruct Hc' as [<-|Hc']; [exists r'; split; [left; reflexivity|exact I]|]. destruct (IH Hc') as (x & Hx & Ix). exists x. split; [right; exact Hx|exact Ix]. }
        destruct X as (r' & Hr' & I'). apply I' in Hs'. destruct Hs' as (j & [Hj' Jj] & Ej & _).
        assert (i = j). { pose proof (kwf_nodup K (reachable_kwf K HR)) as NK. rewrite NoDup_nth_error in NK. apply NK; [rewrite map_length; apply nth_error_Some; congruence|]. rewrite !nth_error_map, Ei, Ej. reflexivity. }
        subst j. destruct (Hin r (or_introl eq_refl)) as [V1 R1]. destruct (Hin r' (or_intror Hr')) as [V2 R2]. apply Rj in Ji; auto. apply Rj in Jj; auto. apply N1. assert (r = r') by congruence. subst r'. exact Hr'.
      * intro s. rewrite in_concat. split.
        -- intros (c & Hc & Hs). destruct (Cd c Hc) as (r & _ & _ & I & _). apply I in Hs. destruct Hs as (i & _ & Ei & Li). split; [eapply nth_error_In; exact Ei|exact Li].
        -- intros [Hs Ls]. apply In_nth_error in Hs. destruct Hs as [i Ei]. assert (Vi : In i (k_vertices C)) by (apply VC; eauto). destruct (H2 i Vi) as [V2 R2].
           assert (Ri : In (rep i) rs) by (apply Irs; split; assumption).
           assert (X : exists c, In c ds /\ forall s, In s c <-> exists i0, (In i0 (k_vertices C) /\ joined C i0 (rep i)) /\ nth_error (by_index K) i0 = Some s /\ length (verts s) = S k).
           { clear -FD Ri. induction FD as [|r' d l ds (N & I & _) F IH]; [destruct Ri|]. destruct Ri as [->|Hr]; [exists d; split; [left; reflexivity|exact I]|]. destruct (IH Hr) as (x & Hx & Ix). exists x. split; [right; exact Hx|exact Ix]. }
           destruct X as (c & Hc & Ic). exists c. split; [exact Hc|]. apply Ic. exists i. refine (conj (conj Vi _) (conj Ei Ls)). apply Rj; auto.
      * intros c Hc. destruct (Cd c Hc) as (r & Hr & N & I & Sc). apply Irs in Hr. destruct Hr as [Vr Rr]. refine (conj _ (conj Sc _)).
        -- destruct (proj1 (VC r) Vr) as (s & Es & Ls). assert (X : In s c) by (apply I; exists r; refine (conj (conj Vr _) (conj Es Ls)); apply rst_refl). intro Y. rewrite Y in X. destruct X.
        -- intros s t Hs. apply I in Hs. destruct Hs as (i & [Vi Ji] & Ei & Li). rewrite I. split.
           ++ intros (j & [Vj Jj] & Ej & Lj). split; [split; [eapply nth_error_In; exact Ej|exact Lj]|]. apply (JP i j); auto. eapply rst_trans; [exact Ji|apply rst_sym; exact Jj].
           ++ intros [[Ht Lt] Hc']. apply In_nth_error in Ht. destruct Ht as [j Ej]. exists j. split; [|auto]. split; [apply VC; eauto|]. apply (JP i j s t) in Hc'; auto. eapply rst_trans; [apply rst_sym; exact Hc'|exact Ji].
Qed.

(** ** The complex *)
Definition largest (L : list simplex) (m : Z) : Prop := (forall s, In s L -> data s <= m)%Z /\ exists s, In s L /\ data s = m.
(** the edge is used *)
Definition kept (L : list simplex) (invert : bool) (threshold : Z) (e : simplex) : Prop :=
  if invert then exists m, largest L m /\ (m - data e <= threshold)%Z else (data e <= threshold)%Z.

Definition inverted (m : Z) (s : simplex) : simplex := if length (verts s) =? 1 then s else set_data s (m - data s).
Lemma inverted_verts m s : verts (inverted m s) = verts s.
Proof. unfold inverted. destruct (_ =? _); reflexivity. Qed.
Lemma invert_step_ok m a b s L : reachable L -> by_index L = a ++ s :: b -> exists L', invert_step m L (length a) = Ok L' /\ reachable L' /\ by_index L' = a ++ inverted m s :: b.
Proof.
  intros HL HI. pose proof (reachable_kwf L HL) as HK. assert (En : nth_error (by_index L) (length a) = Some s) by (rewrite HI, nth_error_app2, Nat.sub_diag by lia; reflexivity).
  assert (Hs : good s) by (apply (kwf_good L HK); eapply nth_error_In; exact En).
  unfold invert_step, get_. rewrite En. cbn [bind]. unfold sdim, inverted. destruct (verts s) as [|v [|u r]] eqn:Ev; [destruct Hs; congruence| |].
  - cbn [length Nat.sub Nat.eqb]. exists L. auto.
  - cbn [length Nat.sub Nat.eqb].
    assert (EK : k_replace L (length a) (set_data s (m - data s)) = (Complex (upd (by_index L) (length a) (set_data s (m - data s))) (dim_replace s (set_data s (m - data s)) (by_dim L)), Ok true)).
    { unfold k_replace. rewrite En. assert (Eq : s_eqb s (set_data s (m - data s)) = true) by (apply s_eqb_eq; reflexivity). rewrite Eq. cbn [negb andb].
      unfold s_dimension. cbn [set_data verts]. rewrite Ev. reflexivity. }
    pose proof (replace_reachable L (length a) (set_data s (m - data s)) HL (proj1 Hs)) as HR. rewrite EK in HR |- *. cbn [bind fst] in *. eexists. split; [reflexivity|]. split; [exact HR|].
    cbn [by_index]. rewrite HI.
    assert (U : forall (a : list simplex) x y b, upd (a ++ x :: b) (length a) y = a ++ y :: b).
    { clear. induction a as [|z a IH]; intros x y b; cbn [app length upd]; [reflexivity|]. rewrite IH. reflexivity. }
    apply U.
Qed.
Lemma invert_ok m K : reachable K -> exists L, invertWeights m K = Ok L /\ reachable L /\ by_index L = map (inverted m) (by_index K).
Proof.
  intro HR. unfold invertWeights.
  assert (G : forall b a L, by_index L = a ++ b -> reachable L -> exists L', foldM (invert_step m) (seq (length a) (length b)) L = Ok L' /\ reachable L' /\ by_index L' = a ++ map (inverted m) b).
  { induction b as [|s b IH]; intros a L HI HL; cbn [length seq foldM map].
    - exists L. auto.
    - destruct (invert_step_ok m a b s L HL HI) as (L1 & E1 & R1 & I1). rewrite E1. cbn [bind].
      destruct (IH (a ++ [inverted m s]) L1) as (L' & E & R & I); [rewrite <- app_assoc; exact I1|exact R1|]. rewrite app_length, Nat.add_1_r in E. exists L'. refine (conj E (conj R _)).
      rewrite I, <- app_assoc. reflexivity. }
  apply (G (by_index K) [] K eq_refl HR).
Qed.
Lemma largest_ok least K : (forall s, In s (by_index K) -> least <= data s)%Z -> by_index K <> [] -> largest (by_index K) (largest_weight least K).
Proof.
  unfold largest_weight. generalize (by_index K). intros L Hl Hn.
  assert (G : forall l a, (a <= fold_left (fun m s => Z.max m (data s)) l a)%Z /\ (forall s, In s l -> (data s <= fold_left (fun m s => Z.max m (data s)) l a)%Z) /\
    (fold_left (fun m s => Z.max m (data s)) l a = a \/ exists s, In s l /\ data s = fold_left (fun m s => Z.max m (data s)) l a)).
  { clear. induction l as [|s l IH]; intro a; cbn [fold_left]; [split; [lia|split; [intros s []|left; reflexivity]]|]. destruct (IH (Z.max a (data s))) as (A & B & C). split; [lia|]. split.
    - intros t [<-|Ht]; [lia|apply B, Ht].
    - destruct C as [C|(t & Ht & Et)]; [|right; exists t; split; [right; exact Ht|exact Et]]. rewrite C. destruct (Z.max_spec a (data s)) as [[_ X]|[_ X]]; rewrite X; [right; exists s; split; [left|]; reflexivity|left; reflexivity]. }
  destruct (G L least) as (A & B & C). split; [exact B|]. destruct C as [C|C]; [|exact C]. destruct L as [|s L]; [congruence|]. exists s. split; [left; reflexivity|].
  specialize (B s (or_introl eq_refl)). specialize (Hl s (or_introl eq_refl)). lia.
Qed.
Lemma has_filter_verts (f : simplex -> bool) l vs : has (filter f l) vs <-> exists s, In s l /\ set_eq (verts s) vs /\ f s = true.
Proof. unfold has. split; intros (s & H); exists s; rewrite filter_In in *; tauto. Qed.

Theorem C168_complex : forall order least invert threshold maxK K, (forall l, Permutation (order l) l) -> reachable K ->
  (forall s, In s (by_index K) -> least <= data s)%Z ->
  (forall u v, has (by_index K) [u; v] -> has (by_index K) [u]) ->
  (forall s, In s (by_index K) -> length (verts s) = 1 -> (data s <= threshold)%Z) ->
  exists L, communities_complex order least invert threshold maxK K = Ok L /\ reachable L /\
    forall vs, NoDup vs -> vs <> [] ->
      (has (by_index L) vs <-> length vs <= S maxK /\ (forall v, In v vs -> has (by_index K) [v]) /\
        forall u v, In u vs -> In v vs -> u <> v -> exists e, In e (by_index K) /\ set_eq (verts e) [u; v] /\ kept (by_index K) invert threshold e).
Proof.
  intros order least invert threshold maxK K Ho HR Hl He Hv.
  assert (X : exists g K1, (if invert then invertWeights (largest_weight least K) K else Ok K) = Ok K1 /\ reachable K1 /\ by_index K1 = map g (by_index K) /\ (forall s, verts (g s) = verts s) /\
    (forall s, length (verts s) = 1 -> g s = s) /\ forall s, In s (by_index K) -> length (verts s) <> 1 -> ((data (g s) <= threshold)%Z <-> kept (by_index K) invert threshold s)).
  { destruct invert.
    - destruct (invert_ok (largest_weight least K) K HR) as (K1 & E1 & R1 & I1). exists (inverted (largest_weight least K)), K1. refine (conj E1 (conj R1 (conj I1 (conj (inverted_verts _) (conj _ _))))).
      + intros s Hs. unfold inverted. rewrite (proj2 (Nat.eqb_eq _ _) Hs). reflexivity.
      + intros s Hs Ns. assert (Lg : largest (by_index K) (largest_weight least K)) by (apply largest_ok; [exact Hl|intro Y; rewrite Y in Hs; destruct Hs]).
        unfold inverted. rewrite (proj2 (Nat.eqb_neq _ _) Ns). cbn [set_data data kept]. split; [intro H; exists (largest_weight least K); auto|].
        intros (m & [M1 (t & Ht & Et)] & H). destruct Lg as [G1 (t' & Ht' & Et')]. specialize (M1 t' Ht'). lia.
    - exists (fun s => s), K. rewrite map_id. refine (conj eq_refl (conj HR (conj eq_refl (conj (fun _ => eq_refl) (conj (fun _ _ => eq_refl) _))))). intros s _ _. cbn [kept]. tauto. }
  destruct X as (g & K1 & E1 & R1 & I1 & Gv & G1 & G2). pose proof (reachable_kwf K1 R1) as W1. set (fl := filter (fun s => negb (threshold <? data s)%Z) (by_index K1)).
  destruct (of_range_new fl) as (K2 & E2 & W2 & I2).
  { intros s Hs. apply filter_In in Hs. apply (kwf_good K1 W1). apply Hs. }
  { unfold fl. pose proof (kwf_nodup K1 W1) as N. revert N. generalize (by_index K1). clear. intros l N. induction l as [|s l IH]; [constructor|]. cbn [map] in N. apply NoDup_cons_iff in N. destruct N as [N1 N2]. cbn [filter].
    destruct (negb _); [|apply IH, N2]. cbn [map]. constructor; [|apply IH, N2]. intro X. apply N1. apply in_map_iff in X. destruct X as (t & Et & Ht). apply filter_In in Ht. rewrite <- Et. apply in_map, Ht. }
  assert (R2 : reachable K2). { apply (of_range_reachable fl); [|exact E2]. intros s Hs. apply filter_In in Hs. apply (kwf_good K1 W1). apply Hs. }
  assert (Le : forall s, negb (threshold <? data s)%Z = true <-> (data s <= threshold)%Z) by (intro s; rewrite negb_true_iff, Z.ltb_ge; tauto).
  assert (H2 : forall vs, has (by_index K2) vs <-> exists s, In s (by_index K) /\ set_eq (verts s) vs /\ (data (g s) <= threshold)%Z).
  { intro vs. rewrite I2. unfold fl. rewrite has_filter_verts. split.
    - intros (t & Ht & Et & Dt). rewrite I1 in Ht. apply in_map_iff in Ht. destruct Ht as (s & <- & Hs). exists s. rewrite Gv in Et. apply Le in Dt. auto.
    - intros (s & Hs & Es & Ds). exists (g s). rewrite I1, Gv, Le. split; [apply in_map, Hs|auto]. }
  pose proof (reachable_kwf K HR) as WK.
  assert (One : forall s v, In s (by_index K) -> set_eq (verts s) [v] -> length (verts s) = 1).
  { intros s v Hs Es. assert (N : NoDup (verts s)) by (apply SSgt_NoDup; apply (kwf_good K WK s Hs)). destruct (verts s) as [|a [|b r]]; [destruct (proj2 (Es v) (or_introl eq_refl))|reflexivity|].
    exfalso. destruct (proj1 (Es a) (or_introl eq_refl)) as [<-|[]]. destruct (proj1 (Es b) (or_intror (or_introl eq_refl))) as [<-|[]]. inversion N as [|? ? N1 _]. apply N1. left. reflexivity. }
  assert (V2 : forall v, has (by_index K2) [v] <-> has (by_index K) [v]).
  { intro v. rewrite H2. split; [intros (s & Hs & Es & _); exists s; auto|]. intros (s & Hs & Es). exists s. refine (conj Hs (conj Es _)). pose proof (One s v Hs Es) as O. rewrite (G1 s O). apply Hv; assumption. }
  assert (Ed : forall u v, u <> v -> (has (by_index K2) [u; v] <-> exists e, In e (by_index K) /\ set_eq (verts e) [u; v] /\ kept (by_index K) invert threshold e)).
  { intros u v N. rewrite H2. assert (Two : forall s, set_eq (verts s) [u; v] -> length (verts s) <> 1).
    { intros s Es O. destruct (verts s) as [|a [|b r]]; try discriminate. apply N. destruct (proj2 (Es u) (or_introl eq_refl)) as [<-|[]]. destruct (proj2 (Es v) (or_intror (or_introl eq_refl))) as [<-|[]]. reflexivity. }
    split; intros (s & Hs & Es & Ds); exists s; (refine (conj Hs (conj Es _))); apply (G2 s Hs (Two s Es)); exact Ds. }
  assert (V3 : forall u v, has (by_index K2) [u; v] -> has (by_index K2) [u]).
  { intros u v H. apply V2, (He u v). apply H2 in H. destruct H as (s & Hs & Es & _). exists s. auto. }
  destruct (C25_expansion order K2 maxK Ho R2) as (L & EL & RL & _ & HL & _). destruct (C25_clique_complex order K2 maxK Ho R2 V3) as (L' & EL' & CL & HC & HV1). rewrite EL in EL'. injection EL' as <-.
  exists (k_sort data_cmp (assignMaximumWeight L 1)). pose proof (reachable_kwf L RL) as WL.
  assert (RS : reachable (assignMaximumWeight L 1)) by (apply assign_weight_reachable; intros s Hs; apply (kwf_good L WL s); apply WeightFacts.in_dim; auto).
  destruct (C26_weights L 1 RL CL) as (Hvs & _). refine (conj _ (conj (sort_reachable _ _ RS) _)).
  - unfold communities_complex. rewrite E1. cbn [bind]. unfold below_threshold. fold fl. rewrite E2. cbn [bind]. rewrite EL. reflexivity.
  - assert (P : Permutation (by_index (k_sort data_cmp (assignMaximumWeight L 1))) (by_index (assignMaximumWeight L 1))) by apply cpp_sort_perm.
    intros vs Nv Ne. rewrite (PropertiesVietorisRips.has_perm _ _ vs P), (has_verts_eq _ _ vs Hvs), (PropertiesVietorisRips.has_perm _ _ vs (Permutation_sym (kwf_perm L WL))).
    destruct vs as [|a [|b r]]; [congruence| |].
    + rewrite HV1, V2. split; [|intros (_ & H & _); apply H; left; reflexivity]. intro H. split; [cbn; lia|]. split; [intros v [<-|[]]; exact H|]. intros u v [<-|[]] [<-|[]] N. congruence.
    + rewrite HC; [|exact Nv|cbn; lia]. split.
      * intros [C D]. refine (conj D (conj _ _)).
        -- intros v Hv'. assert (Y : exists u, In u (a :: b :: r) /\ u <> v).
           { destruct (Nat.eq_dec a v) as [->|N]; [|exists a; split; [left; reflexivity|exact N]]. exists b. split; [right; left; reflexivity|]. intros ->. inversion Nv as [|? ? N1 _]. apply N1. left. reflexivity. }
           destruct Y as (u & Hu & N). apply V2, (V3 v u), C; auto.
        -- intros u v Hu Hv' N. apply Ed; [exact N|]. apply C; assumption.
      * intros (D & _ & C). split; [|exact D]. intros u v Hu Hv' N. apply Ed; [exact N|]. apply C; assumption.
Qed.

(** ** The document *)
Definition vertex_value (labels : option (nat -> option str)) (v : nat) (j : json) : Prop :=
  match labels with None => j = JNum (N.of_nat v) | Some f => exists t, f v = Some t /\ j = JStr t end.
Definition simplex_value (labels : option (nat -> option str)) (s : simplex) (j : json) : Prop := exists l, j = JArr l /\ Forall2 (vertex_value labels) (verts s) l.
Definition community_value (labels : option (nat -> option str)) (c : list simplex) (j : json) : Prop := exists l, j = JArr l /\ Forall2 (simplex_value labels) c l.
Definition level_value (labels : option (nat -> option str)) (L : list simplex) (k : nat) (m : str * json) : Prop :=
  numeral (fst m) (N.of_nat (k + 1)) /\ exists cs l, are_communities L k cs /\ snd m = JArr l /\ Forall2 (community_value labels) cs l.

Lemma numeral_plain s n : numeral s n -> jplain s.
Proof.
  assert (D : forall c d, decimal_digit c d -> c <> quote /\ c <> "\"%char /\ 32 <= nat_of_ascii c).
  { intros c d [H1 H2]. refine (conj _ (conj _ _)); [intros ->|intros ->|]; try (change (N_of_ascii quote) with 34%N in H2); try (change (N_of_ascii "\") with 92%N in H2); try lia. unfold nat_of_ascii. rewrite H2. lia. }
  induction 1 as [c d H|s v c d H IH Hd]; intros x Hx; [destruct Hx as [<-|[]]; apply (D c d H)|]. apply in_app_iff in Hx. destruct Hx as [Hx|[<-|[]]]; [apply IH, Hx|apply (D c d Hd)].
Qed.
(** texts, separated by commas *)
Lemma commas_elems l vs : Forall2 jtext l vs -> l <> [] -> jelems (commas l) vs.
Proof.
  intros F. induction F as [|t v l vs Ht F IH]; [congruence|]. intros _. destruct F as [|t' v' l vs Ht' F].
  - apply (E_one [] t v []); [blank|exact Ht|blank|]. cbn [commas app]. rewrite app_nil_r. reflexivity.
  - apply (E_cons [] t v [] (commas (t' :: l)) (v' :: vs)); [blank|exact Ht|blank|apply IH; discriminate|]. cbn [commas app]. reflexivity.
Qed.
Lemma commas_array l vs : Forall2 jtext l vs -> jtext (chars "[" ++ commas l ++ chars "]") (JArr vs).
Proof.
  intro F. destruct l as [|t l]; [inversion F; subst; apply (J_arr0 []); [blank|reflexivity]|]. apply (J_arr (commas (t :: l))); [apply commas_elems; [exact F|discriminate]|reflexivity].
Qed.
Lemma collect {A} (f : A -> outcome str) (R : A -> json -> Prop) l acc : (forall x, In x l -> exists t v, f x = Ok t /\ R x v /\ jtext t v) ->
  exists ts vs, foldM (fun acc x => let* t := f x in Ok (acc ++ [t])) l acc = Ok (acc ++ ts) /\ Forall2 R l vs /\ Forall2 jtext ts vs.
Proof.
  revert acc. induction l as [|x l IH]; intros acc H; [exists [], []; cbn [foldM]; rewrite app_nil_r; repeat split; constructor|].
  destruct (H x (or_introl eq_refl)) as (t & v & E & Hr & Ht). destruct (IH (acc ++ [t])) as (ts & vs & E' & F1 & F2); [intros; apply H; right; assumption|].
  exists (t :: ts), (v :: vs). cbn [foldM]. rewrite E. cbn [bind]. rewrite E', <- app_assoc. repeat split; constructor; assumption.
Qed.
Definition labelled (labels : option (nat -> option str)) (v : nat) : Prop := match labels with None => True | Some f => exists t, f v = Some t /\ jplain t end.

Lemma formatSimplex_ok labels s : (forall v, In v (verts s) -> labelled labels v) -> exists t j, formatSimplex labels s = Ok t /\ simplex_value labels s j /\ jtext t j.
Proof.
  intro H. set (f := fun v => match labels with None => Ok (print_nat v) | Some f => match f v with Some t => Ok ([quote] ++ t ++ [quote]) | None => Throw OutOfRange end end).
  destruct (collect f (vertex_value labels) (verts s) []) as (ts & vs & E & F1 & F2).
  - intros v Hv. specialize (H v Hv). unfold f, vertex_value. destruct labels as [g|]; cbn [labelled] in H.
    + destruct H as (t & Et & Pt). exists ([quote] ++ t ++ [quote]), (JStr t). rewrite Et. refine (conj eq_refl (conj _ (J_str t _ Pt eq_refl))). exists t. auto.
    + exists (print_nat v), (JNum (N.of_nat v)). refine (conj eq_refl (conj eq_refl (J_num _ _ (print_nat_numeral v)))).
  - exists (chars "[" ++ commas ts ++ chars "]"), (JArr vs). refine (conj _ (conj _ (commas_array ts vs F2))); [|exists vs; auto].
    assert (bind_ext : forall v (l : list str), match labels with None => Ok (l ++ [print_nat v]) | Some f => match f v with Some t => Ok (l ++ [[quote] ++ t ++ [quote]]) | None => Throw OutOfRange end end = let* t := f v in Ok (l ++ [t])).
    { intros v l. unfold f. destruct labels as [g|]; [destruct (g v)|]; reflexivity. }
    unfold formatSimplex. assert (X : forall l acc, foldM (fun l v => match labels with None => Ok (l ++ [print_nat v]) | Some f => match f v with Some t => Ok (l ++ [[quote] ++ t ++ [quote]]) | None => Throw OutOfRange end end) l acc =
      foldM (fun acc x => let* t := f x in Ok (acc ++ [t])) l acc).
    { induction l as [|v l IH]; intro acc; [reflexivity|]. cbn [foldM]. etransitivity; [apply (f_equal (fun o => bind o _) (bind_ext v acc))|]. destruct (f v); cbn [bind]; auto. }
    etransitivity; [apply (f_equal (fun o => bind o _) (X (verts s) []))|]. etransitivity; [apply (f_equal (fun o => bind o _) E)|]. reflexivity.
Qed.
Lemma formatCommunity_ok labels c : (forall s, In s c -> forall v, In v (verts s) -> labelled labels v) ->
  exists t j, formatCommunity labels c = Ok (chars "            " ++ t) /\ community_value labels c j /\ jtext t j.
Proof.
  intro H. destruct (collect (formatSimplex labels) (simplex_value labels) c []) as (ts & vs & E & F1 & F2); [intros s Hs; apply formatSimplex_ok, H, Hs|].
  exists (chars "[" ++ commas ts ++ chars "]"), (JArr vs). refine (conj _ (conj _ (commas_array ts vs F2))); [|exists vs; auto]. unfold formatCommunity. rewrite E. reflexivity.
Qed.
Lemma collect_indented labels cs acc : (forall c, In c cs -> forall s, In s c -> forall v, In v (verts s) -> labelled labels v) ->
  exists ts vs, foldM (fun l c => let* t := formatCommunity labels c in Ok (l ++ [t])) cs acc = Ok (acc ++ map (app (chars "            ")) ts) /\ Forall2 (community_value labels) cs vs /\ Forall2 jtext ts vs.
Proof.
  revert acc. induction cs as [|c cs IH]; intros acc H; [exists [], []; cbn [foldM map]; rewrite app_nil_r; repeat split; constructor|].
  destruct (formatCommunity_ok labels c (H c (or_introl eq_refl))) as (t & v & E & Hr & Ht). destruct (IH (acc ++ [chars "            " ++ t])) as (ts & vs & E' & F1 & F2); [intros d Hd; apply (H d); right; exact Hd|].
  exists (t :: ts), (v :: vs). cbn [foldM]. rewrite E. cbn [bind]. split; [etransitivity; [exact E'|]; rewrite <- app_assoc; reflexivity|]. split; constructor; assumption.
Qed.
Lemma lines_array ts vs : Forall2 jtext ts vs -> jtext (chars "[" ++ [newline] ++ community_lines (map (app (chars "            ")) ts) ++ chars "    ]") (JArr vs).
Proof.
  intro F. destruct F as [|t v ts vs Ht F].
  - apply (J_arr0 ([newline] ++ chars "    ")); [blank|reflexivity].
  - apply (J_arr ([newline] ++ community_lines (map (app (chars "            ")) (t :: ts)) ++ chars "    ")).
    2: do 4 (rewrite <- ?app_assoc; cbn [app]); reflexivity.
    revert t v Ht. induction F as [|t' v' ts vs Ht' F IH]; intros t v Ht.
    + apply (E_one ([newline] ++ chars "            ") t v ([newline] ++ chars "    ")); [blank|exact Ht|blank|]. cbn [map community_lines]. do 4 (rewrite <- ?app_assoc; cbn [app]). reflexivity.
    + apply (E_cons ([newline] ++ chars "            ") t v [] _ (v' :: vs) _ ltac:(blank) Ht ltac:(blank) (IH t' v' Ht')). cbn [map community_lines]. do 4 (rewrite <- ?app_assoc; cbn [app]). reflexivity.
Qed.

(** one round *)
Definition level_body (ts : list str) : str := chars "[" ++ [newline] ++ community_lines (map (app (chars "            ")) ts) ++ chars "    ]".
Lemma level_ok order labels K maxK out k : (forall l, Permutation (order l) l) -> reachable K -> 1 <= k -> (forall s, In s (by_index K) -> forall v, In v (verts s) -> labelled labels v) ->
  exists t j, level_text order labels K maxK out k = Ok (out ++ chars "    " ++ [quote] ++ print_nat (k + 1) ++ [quote] ++ chars ":" ++ chars " " ++ t ++ (if k <? maxK then chars "  ," else []) ++ [newline]) /\
    level_value labels (by_index K) k (print_nat (k + 1), j) /\ jtext t j.
Proof.
  intros Ho HR Hk HL. destruct (C168_communities order K k Ho HR Hk) as (cs & Ec & Hc). destruct (collect_indented labels cs []) as (ts & vs & E & F1 & F2).
  { intros c Hin s Hs. apply HL. apply (proj1 (proj2 Hc) s). apply in_concat. exists c. auto. }
  exists (level_body ts), (JArr vs). refine (conj _ (conj _ (lines_array ts vs F2))).
  - unfold level_text. rewrite Ec. cbn [bind]. rewrite E. cbn [bind app]. unfold level_body. f_equal. do 4 (rewrite <- ?app_assoc; cbn [app]). reflexivity.
  - split; [apply print_nat_numeral|]. exists cs, vs. auto.
Qed.

Theorem C168_document : forall order labels tau maxK K, (forall l, Permutation (order l) l) -> reachable K -> jplain tau ->
  (forall s, In s (by_index K) -> forall v, In v (verts s) -> match labels with None => True | Some f => exists t, f v = Some t /\ jplain t end) ->
  exists text levels, communities_text order labels tau maxK K = Ok (text ++ [newline]) /\ Forall2 (level_value labels (by_index K)) (seq 1 maxK) levels /\
    jtext text (JObj [(tau, JObj levels)]).
Proof.
  intros order labels tau maxK K Ho HR Ht HL.
  assert (G : forall n k out, 1 <= k -> k + n = S maxK -> exists body levels, foldM (level_text order labels K maxK) (seq k n) out = Ok (out ++ body) /\ Forall2 (level_value labels (by_index K)) (seq k n) levels /\
    (n = 0 /\ body = [] \/ jmembers ([newline] ++ body ++ chars "  ") levels)).
  { induction n as [|n IH]; intros k out Hk Hn; [exists [], []; cbn [seq foldM]; rewrite app_nil_r; repeat split; [constructor|left; auto]|].
    destruct (level_ok order labels K maxK out k Ho HR Hk HL) as (t & j & E & Hv & Hj). cbn [seq foldM]. rewrite E. cbn [bind].
    destruct (IH (S k) (out ++ chars "    " ++ [quote] ++ print_nat (k + 1) ++ [quote] ++ chars ":" ++ chars " " ++ t ++ (if k <? maxK then chars "  ," else []) ++ [newline]) ltac:(lia) ltac:(lia)) as (body & levels & E' & F & M).
    eexists. exists ((print_nat (k + 1), j) :: levels). split; [rewrite E', <- app_assoc; reflexivity|]. split; [constructor; assumption|]. right.
    pose proof (numeral_plain _ _ (print_nat_numeral (k + 1))) as Pk. destruct M as [[-> ->]|M].
    - inversion F; subst. assert (X : (k <? maxK) = false) by (apply Nat.ltb_ge; lia). rewrite X.
      apply (M_one ([newline] ++ chars "    ") (print_nat (k + 1)) [] (chars " ") t j ([newline] ++ chars "  ") _ ltac:(blank) Pk ltac:(blank) ltac:(blank) Hj ltac:(blank)). do 4 (rewrite <- ?app_assoc; cbn [app]). reflexivity.
    - assert (X : (k <? maxK) = true). { apply Nat.ltb_lt. destruct n; [|lia]. inversion F; subst. inversion M. } rewrite X.
      apply (M_cons ([newline] ++ chars "    ") (print_nat (k + 1)) [] (chars " ") t j (chars "  ") _ _ _ ltac:(blank) Pk ltac:(blank) ltac:(blank) Hj ltac:(blank) M). do 4 (rewrite <- ?app_assoc; cbn [app]). reflexivity. }
  destruct (G maxK 1 [] (le_n _) eq_refl) as (body & levels & E & F & M). cbn [app] in E.
  assert (J : jtext (chars "{" ++ ([newline] ++ body ++ chars "  ") ++ chars "}") (JObj levels)).
  { destruct M as [[X ->]|M]; [|apply (J_obj _ _ _ M eq_refl)]. rewrite X in F. inversion F; subst. apply (J_obj0 ([newline] ++ chars "  ")); [blank|reflexivity]. }
  eexists. exists levels. refine (conj _ (conj F _)).
  2: { eapply (J_obj _ _ _ (M_one ([newline] ++ chars "  ") tau [] (chars " ") _ _ [newline] _ ltac:(blank) Ht ltac:(blank) ltac:(blank) J ltac:(blank) eq_refl)). reflexivity. }
  unfold communities_text. rewrite E. cbn [bind]. f_equal. do 4 (rewrite <- ?app_assoc; cbn [app]). reflexivity.
Qed.

(** A vertex without a label *)
Theorem C168_labels : forall f s v, In v (verts s) -> f v = None -> formatSimplex (Some f) s = Throw OutOfRange.
Proof.
  intros f s v Hv Hf. unfold formatSimplex.
  assert (G : forall l acc, In v l -> foldM (fun l v => match f v with Some t => Ok (l ++ [[quote] ++ t ++ [quote]]) | None => Throw OutOfRange end) l acc = Throw OutOfRange).
  { induction l as [|x l IH]; intros acc H; [destruct H|]. cbn [foldM]. destruct H as [->|H]; [rewrite Hf; reflexivity|]. destruct (f x); [cbn [bind]; apply IH, H|reflexivity]. }
  rewrite (G (verts s) [] Hv). reflexivity.
Qed.

(** ** Examples *)
(** two triangles that share an edge, and a triangle that shares a vertex with them *)
Definition C168_graph : complex := mk [PushBack [0] 0; PushBack [1] 0; PushBack [2] 0; PushBack [3] 0; PushBack [4] 0; PushBack [5] 0;
  PushBack [0; 1] 1; PushBack [0; 2] 1; PushBack [1; 2] 2; PushBack [1; 3] 2; PushBack [2; 3] 3; PushBack [3; 4] 3; PushBack [3; 5] 4; PushBack [4; 5] 9].
Example C168_example : exists L cs, communities_complex (fun l => l) (-100) false 5 2 C168_graph = Ok L /\ communities (fun l => l) L 2 = Ok cs /\ map (map verts) cs = [[[2; 1; 0]; [3; 2; 1]]] /\
  (exists L' cs', communities_complex (fun l => l) (-100) true 8 2 C168_graph = Ok L' /\ communities (fun l => l) L' 1 = Ok cs' /\ map (map verts) cs' = [[[1; 0]; [2; 0]; [2; 1]; [3; 1]; [3; 2]; [4; 3]; [5; 3]; [5; 4]]] /\
     exists cs2, communities (fun l => l) L' 2 = Ok cs2 /\ map (map verts) cs2 = [[[5; 4; 3]]; [[2; 1; 0]; [3; 2; 1]]]).
Proof.
  refine (ex_intro _ _ (ex_intro _ _ (conj _ (conj _ (conj _ (ex_intro _ _ (ex_intro _ _ (conj _ (conj _ (conj _ (ex_intro _ _ (conj _ _))))))))))));
  vm_compute; reflexivity.
Qed.
Example C168_text_example : communities_to_json (fun l => l) (-100) false (Some (fun v => if v <? 9 then Some (chars "n" ++ print_nat v) else None)) 1 (chars "1") 2 C168_graph =
  Ok (chars "{" ++ [newline] ++ chars "  ""1"": {" ++ [newline] ++ chars "    ""2"": [" ++ [newline] ++ chars "            [[""n1"",""n0""],[""n2"",""n0""]]" ++ [newline] ++ chars "    ]  ," ++ [newline] ++
      chars "    ""3"": [" ++ [newline] ++ chars "    ]" ++ [newline] ++ chars "  }" ++ [newline] ++ chars "}" ++ [newline]) /\
  communities_to_json (fun l => l) (-100) false (Some (fun v => None)) 1 (chars "1") 2 C168_graph = Throw OutOfRange.
Proof. split; vm_compute; reflexivity. Qed.

(** Edges whose weights do not exceed the threshold need not be used: vertices have weight zero and are
    subject to the threshold, too *)
Theorem C168_threshold_refuted : ~ (forall order least threshold maxK K, (forall l, Permutation (order l) l) -> reachable K -> closed (by_index K) -> (forall s, In s (by_index K) -> least <= data s)%Z ->
  exists L, communities_complex order least false threshold maxK K = Ok L /\
    forall e, In e (by_index K) -> length (verts e) = 2 -> 1 <= maxK -> (data e <= threshold)%Z -> has (by_index L) (verts e)).
Proof.
  intro H. destruct (H (fun l => l) (-100)%Z (-1)%Z 1 (mk [PushBack [0] 0; PushBack [1] 0; PushBack [0; 1] (-3)])) as (L & E & C); [intro; apply Permutation_refl|apply mk_reachable|apply closed_check; [apply mk_reachable|vm_compute; reflexivity]|intros s [<-|[<-|[<-|[]]]]; cbn; lia|].
  assert (E' : communities_complex (fun l => l) (-100) false (-1) 1 (mk [PushBack [0] 0; PushBack [1] 0; PushBack [0; 1] (-3)]) = Ok k_empty) by (vm_compute; reflexivity). rewrite E' in E. injection E as <-.
  destruct (C (Simplex [1; 0] (-3))) as (s & [] & _); [right; right; left; reflexivity|reflexivity|lia|cbn; lia].
Qed.

Print Assumptions C168_communities.
Print Assumptions C168_complex.
Print Assumptions C168_document.
Print Assumptions C168_labels.
Print Assumptions C168_threshold_refuted.
