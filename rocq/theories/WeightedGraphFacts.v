(** * Complexes made of vertices and edges, sorted by data. *)
From Coq Require Import List Arith Bool ZArith Lia Sorted Permutation.
From Verif Require Import Base BaseFacts Simplex SimplexFacts SpecComplex Complex ComplexFacts FiltrationFacts History Subcomplex SubcomplexFacts PairingFacts RipsFacts PropertiesComplex PropertiesRips PropertiesDowker.
Import ListNotations.
Local Open Scope nat_scope.

(** vertices with their data, edges [u < v] with their data *)
Definition graph_simplices (vertices : list (nat * Z)) (edges : list (nat * nat * Z)) : list simplex :=
  map (fun p => Simplex [fst p] (snd p)) vertices ++ map (fun e => Simplex [snd (fst e); fst (fst e)] (snd e)) edges.
Definition graph_ok (vertices : list (nat * Z)) (edges : list (nat * nat * Z)) : Prop :=
  NoDup (map fst vertices) /\ NoDup (map fst edges) /\
  (forall u v d, In (u, v, d) edges -> u < v /\ In u (map fst vertices) /\ In v (map fst vertices)).

Lemma graph_In V E s : In s (graph_simplices V E) <-> (exists v d, In (v, d) V /\ s = Simplex [v] d) \/ (exists u v d, In (u, v, d) E /\ s = Simplex [v; u] d).
Proof.
  unfold graph_simplices. rewrite in_app_iff, !in_map_iff. split.
  - intros [([v d] & <- & H)|([[u v] d] & <- & H)]; cbn [fst snd]; [left; eauto|right; eauto 6].
  - intros [(v & d & H & ->)|(u & v & d & H & ->)]; [left; exists (v, d); auto|right; exists (u, v, d); auto].
Qed.
Lemma graph_good V E s : graph_ok V E -> In s (graph_simplices V E) -> good s.
Proof.
  intros (_ & _ & H) Hs. apply graph_In in Hs. destruct Hs as [(v & d & _ & ->)|(u & v & d & He & ->)].
  - split; [constructor; constructor|discriminate].
  - destruct (H u v d He) as (L & _). split; [|discriminate]. unfold wf. cbn [verts]. constructor; [constructor; constructor|]. constructor; [lia|constructor].
Qed.
Lemma NoDup_map_inj {A B} (f : A -> B) l : (forall a b, In a l -> In b l -> f a = f b -> a = b) -> NoDup l -> NoDup (map f l).
Proof.
  intros Hf H. induction H as [|a l Ha H IH]; cbn [map]; [constructor|]. constructor.
  - intro X. apply in_map_iff in X. destruct X as (b & E & Hb). apply Ha. rewrite <- (Hf b a); simpl; auto.
  - apply IH. intros; apply Hf; simpl; auto.
Qed.
Lemma graph_nodup V E : graph_ok V E -> NoDup (map verts (graph_simplices V E)).
Proof.
  intros (H1 & H2 & _). unfold graph_simplices. rewrite map_app, !map_map. cbn [verts]. apply NoDup_app_intro.
  - rewrite <- (map_map fst (fun v => [v])). apply NoDup_map_inj; [intros a b _ _ E'; congruence|exact H1].
  - rewrite <- (map_map fst (fun e => [snd e; fst e])). apply NoDup_map_inj; [|exact H2]. intros [a b] [c d] _ _ E'. cbn [fst snd] in E'. congruence.
  - intros x X Y. apply in_map_iff in X, Y. destruct X as (? & <- & _), Y as (? & Y & _). discriminate.
Qed.

Lemma pair_has V E vs : (has (graph_simplices V E) vs <-> (exists v, In v (map fst V) /\ set_eq vs [v]) \/ (exists u v d, In (u, v, d) E /\ set_eq vs [u; v])).
Proof.
  unfold has. split.
  - intros (s & Hs & Hv). apply graph_In in Hs. destruct Hs as [(v & d & H & ->)|(u & v & d & H & ->)]; cbn [verts] in Hv.
    + left. exists v. split; [apply in_map_iff; exists (v, d); auto|]. intro x. symmetry. apply Hv.
    + right. exists u, v, d. split; [exact H|]. intro x. rewrite <- (Hv x). simpl. tauto.
  - intros [(v & H & Hv)|(u & v & d & H & Hv)].
    + apply in_map_iff in H. destruct H as ([v' d] & <- & H). exists (Simplex [v'] d). split; [apply graph_In; left; eauto|]. intro x. symmetry. apply Hv.
    + exists (Simplex [v; u] d). split; [apply graph_In; right; eauto 6|]. intro x. rewrite (Hv x). cbn [verts]. simpl. tauto.
Qed.

Lemma has_perm L L' vs : Permutation L L' -> has L vs -> has L' vs.
Proof. intros P (s & Hs & E). exists s. split; [apply (Permutation_in _ P); exact Hs|exact E]. Qed.

Theorem weighted_graph V E L : graph_ok V E -> Permutation L (graph_simplices V E) ->
  exists K0, k_of_range L = Ok K0 /\ let K := k_sort data_cmp K0 in
    reachable K /\ closed (by_index K) /\ by_data (by_index K) /\
    (forall vs, has (by_index K) vs <-> (exists v, In v (map fst V) /\ set_eq vs [v]) \/ (exists u v d, In (u, v, d) E /\ set_eq vs [u; v])) /\
    (forall s, In s (by_index K) -> (exists v d, In (v, d) V /\ s = Simplex [v] d) \/ (exists u v d, In (u, v, d) E /\ s = Simplex [v; u] d)) /\
    Permutation (by_index K) L /\
    ((forall u v d w, In (u, v, d) E -> In (u, w) V \/ In (v, w) V -> (w <= d)%Z) -> monotone (by_index K) /\ filtration_order (by_index K)).
Proof.
  intros G P. destruct (of_range_new L) as (K0 & EK & KK & IK).
  - intros s Hs. apply (graph_good V E s G). apply (Permutation_in _ P). exact Hs.
  - apply (Permutation_NoDup (l := map verts (graph_simplices V E))); [apply Permutation_map; symmetry; exact P|apply graph_nodup; exact G].
  - exists K0. split; [exact EK|]. cbv zeta.
    assert (R0 : reachable K0) by (apply (of_range_reachable L); [intros s Hs; apply (graph_good V E s G); apply (Permutation_in _ P); exact Hs|exact EK]).
    assert (R : reachable (k_sort data_cmp K0)) by (apply sort_reachable; exact R0).
    assert (PK : Permutation (by_index (k_sort data_cmp K0)) L) by (rewrite <- IK; apply C03_sort_permutes; exact R0).
    assert (PG : Permutation (by_index (k_sort data_cmp K0)) (graph_simplices V E)) by (rewrite PK; exact P).
    assert (HI : forall s, In s (by_index (k_sort data_cmp K0)) <-> (exists v d, In (v, d) V /\ s = Simplex [v] d) \/ (exists u v d, In (u, v, d) E /\ s = Simplex [v; u] d)).
    { intro s. rewrite <- graph_In. split; apply Permutation_in; [exact PG|symmetry; exact PG]. }
    refine (conj R (conj _ (conj _ (conj _ (conj _ (conj PK _)))))).
    + intros s us Hs Hn Hi. apply (has_perm (graph_simplices V E)); [symmetry; exact PG|]. apply pair_has. apply HI in Hs. destruct Hs as [(v & d & H & ->)|(u & v & d & H & ->)]; cbn [verts] in Hi.
      * left. exists v. split; [apply in_map_iff; exists (v, d); auto|]. destruct us as [|x us]; [easy|]. assert (x = v) by (destruct (Hi x (or_introl eq_refl)) as [<-|[]]; reflexivity). subst x.
        intro y. split; [intro Y; apply Hi; exact Y|intros [<-|[]]; simpl; auto].
      * destruct G as (_ & _ & G). destruct (G u v d H) as (_ & Gu & Gv). destruct (in_dec Nat.eq_dec u us) as [Iu|Iu], (in_dec Nat.eq_dec v us) as [Iv|Iv].
        -- right. exists u, v, d. split; [exact H|]. intro y. split; [intro Y; specialize (Hi y Y); simpl in *; tauto|intros [<-|[<-|[]]]; assumption].
        -- left. exists u. split; [exact Gu|]. intro y. split; [intro Y|intros [<-|[]]; assumption]. destruct (Hi y Y) as [<-|[<-|[]]]; [contradiction|simpl; auto].
        -- left. exists v. split; [exact Gv|]. intro y. split; [intro Y|intros [<-|[]]; assumption]. destruct (Hi y Y) as [<-|[<-|[]]]; [simpl; auto|contradiction].
        -- exfalso. destruct us as [|x us]; [easy|]. destruct (Hi x (or_introl eq_refl)) as [<-|[<-|[]]]; simpl in *; tauto.
    + unfold by_data. apply sorted_by_value; [apply data_cmp_swo|]. intros s t. unfold data_cmp.
      destruct (Z.eqb_spec (data t) (data s)); [lia|]. rewrite Z.ltb_ge. lia.
    + intro vs. rewrite <- pair_has. split; apply has_perm; [exact PG|symmetry; exact PG].
    + intros s Hs. apply HI. exact Hs.
    + intro Hw. assert (M : monotone (by_index (k_sort data_cmp K0))).
      { intros s t Hs Ht Hf. apply HI in Hs, Ht. destruct G as (G1 & G2 & G3).
        assert (U : forall v d d', In (v, d) V -> In (v, d') V -> d = d').
        { clear -G1. induction V as [|[a x] V IH]; [intros ? ? ? []|]. cbn [map fst] in G1. inversion G1 as [|? ? N G1']; subst.
          intros v d d' [X|X] [Y|Y]; [congruence| | |eauto]; exfalso; apply N; apply in_map_iff.
          - injection X as -> ->. exists (v, d'). auto.
          - injection Y as -> ->. exists (v, d). auto. }
        assert (UE : forall v d d', In (v, d) E -> In (v, d') E -> d = d').
        { clear -G2. induction E as [|[a x] E IH]; [intros ? ? ? []|]. cbn [map fst] in G2. inversion G2 as [|? ? N G2']; subst.
          intros v d d' [X|X] [Y|Y]; [congruence| | |eauto]; exfalso; apply N; apply in_map_iff.
          - injection X as -> ->. exists (v, d'). auto.
          - injection Y as -> ->. exists (v, d). auto. }
        destruct Hs as [(v & d & H & ->)|(u & v & d & H & ->)], Ht as [(v' & d' & H' & ->)|(u' & v' & d' & H' & ->)]; cbn [verts data] in *.
        - assert (v' = v) by (destruct (Hf v' (or_introl eq_refl)) as [<-|[]]; reflexivity). subst v'. rewrite (U v d' d H' H). lia.
        - exfalso. destruct (G3 u' v' d' H') as (L1 & _). destruct (Hf v') as [X|[]]; [simpl; auto|]. destruct (Hf u') as [Y|[]]; [simpl; auto|]. lia.
        - apply (Hw u v d d' H). destruct (Hf v' (or_introl eq_refl)) as [<-|[<-|[]]]; auto.
        - destruct (G3 u' v' d' H') as (L1 & _). destruct (G3 u v d H) as (L2 & _).
          assert (u' = u /\ v' = v) as [-> ->]. { destruct (Hf v') as [X|[X|[]]]; [simpl; auto| |]; (destruct (Hf u') as [Y|[Y|[]]]; [simpl; auto| |]); lia. }
          rewrite (UE (u, v) d' d H' H). lia. }
      split; [exact M|]. apply (sorted_filtration K0); [apply reachable_kwf; exact R|exact M].
Qed.
