(** * Property C174: spines have the homology of the complexes which they are spines of. *)
From Coq Require Import List Arith Bool ZArith Lia Sorted Permutation Relations.
From Verif Require Import PropertiesComponents Base BaseFacts Simplex SimplexFacts SpecComplex Complex ComplexFacts Subcomplex SubcomplexFacts History PropertiesComplex
  Matrix SpecMatrix ReductionFacts SpecHomology HomologyFacts PropertiesHomology SpecDiagram Diagram DiagramFacts PropertiesDiagram
  SpecCollapse Spine SpineFacts PropertiesSpine SpecSimplicial SimplicialFacts.
Import ListNotations.

(** Betti numbers exist and are unique *)
Theorem C174_defined : forall K d, reachable K -> closed (by_index K) -> exists n, simplicial_betti (by_index K) d n /\ forall m, simplicial_betti (by_index K) d m -> m = n.
Proof.
  intros K d HR HC. destruct (betti_facts K (reachable_kwf K HR) HC) as (_ & E & U). destruct (E d) as (n & H). exists n. split; [exact H|]. intros m Hm. apply (U d); assumption.
Qed.
(** they are those of the boundary matrix which the library builds *)
Theorem C174_matrix : forall K, reachable K -> closed (by_index K) -> filtration_order (by_index K) -> exists M, makeBoundaryMatrix K 0 = Ok M /\
  forall d n, simplicial_betti (by_index K) d n <-> betti (cols M) (dims M) (k_size K) d n.
Proof.
  intros K HR HC HF. destruct (betti_link K HR HC HF) as (M & EM & Hz & Hb & _). exists M. split; [exact EM|]. intros d n. split; intros (z & b & H1 & H2 & E); exists z, b; (split; [apply Hz; exact H1|split; [apply Hb; exact H2|exact E]]).
Qed.
(** the diagrams count them *)
Theorem C174_diagrams : forall inf order a K dual, (forall l, Permutation (order l) l) -> reachable K -> closed (by_index K) -> filtration_order (by_index K) ->
  (forall s, In s (by_index K) -> (data s < inf)%Z) ->
  exists ds, calculatePersistenceDiagrams inf order a K dual true = Ok ds /\ forall d, simplicial_betti (by_index K) d (d_betti inf (Diagram d (points_of ds d))).
Proof.
  intros inf order a K dual Ho HR HC HF Hi. destruct (C55_betti inf order a K dual true Ho HR HC HF Hi) as (M & ds & EM & Ed & H). exists ds. split; [exact Ed|].
  destruct (C174_matrix K HR HC HF) as (M' & EM' & H'). rewrite EM in EM'. injection EM' as <-. intro d. apply H', H. auto.
Qed.

Lemma spine_betti K L : reachable K -> closed (by_index K) -> reachable L -> is_spine K L -> forall d n, simplicial_betti (by_index K) d n <-> simplicial_betti (by_index L) d n.
Proof.
  intros HR HC HRL (Hc & HCL & _ & _) d n. pose proof (collapses_betti _ _ Hc K eq_refl (reachable_kwf K HR) HC) as B. split; [|apply B]. intro H.
  destruct (C174_defined L d HRL HCL) as (m & Hm & _). destruct (C174_defined K d HR HC) as (k & _ & U). rewrite (U n H), <- (U m (B d m Hm)). exact Hm.
Qed.
Theorem C174_spine : forall pick K, reachable K -> closed (by_index K) -> exists L, spine pick K = Ok L /\ reachable L /\ closed (by_index L) /\
  forall d n, simplicial_betti (by_index K) d n <-> simplicial_betti (by_index L) d n.
Proof.
  intros pick K HR HC. destruct (C31_spine pick K HR HC) as (L & E & HRL & HS). exists L. split; [exact E|]. split; [exact HRL|]. split; [apply HS|]. apply spine_betti; assumption.
Qed.
Theorem C174_dumb_spine : forall pick K, reachable K -> closed (by_index K) -> exists L, dumb_spine pick K = Ok L /\ reachable L /\ closed (by_index L) /\
  forall d n, simplicial_betti (by_index K) d n <-> simplicial_betti (by_index L) d n.
Proof.
  intros pick K HR HC. destruct (C31_dumb_spine pick K HR HC) as (L & E & HRL & HS). exists L. split; [exact E|]. split; [exact HRL|]. split; [apply HS|]. apply spine_betti; assumption.
Qed.

(** ** In terms of diagrams *)
Lemma filtration_remove A x B : filtration_order (A ++ x :: B) -> filtration_order (A ++ B).
Proof.
  set (f := fun i => if i <? length A then i else S i). assert (G : forall i s, nth_error (A ++ B) i = Some s -> nth_error (A ++ x :: B) (f i) = Some s).
  { intros i s H. unfold f. destruct (Nat.ltb_spec i (length A)) as [I|I]; [rewrite nth_error_app1 in * by exact I; exact H|]. rewrite nth_error_app2 in * by lia. replace (S i - length A) with (S (i - length A)) by lia. exact H. }
  intros HF i j s t Hi Hj P. pose proof (HF _ _ _ _ (G i s Hi) (G j t Hj) P) as X. unfold f in X. destruct (Nat.ltb_spec i (length A)), (Nat.ltb_spec j (length A)); lia.
Qed.
Lemma filtration_collapse L L' : elementary_collapse L L' -> filtration_order L -> filtration_order L'.
Proof.
  intros (s & t & A & B & C & _ & -> & [-> | ->]) H; apply filtration_remove in H; rewrite app_assoc in H; apply filtration_remove in H; rewrite <- app_assoc in H; exact H.
Qed.
Lemma collapses_keep L L' : collapses L L' -> (filtration_order L -> filtration_order L') /\ incl L' L.
Proof.
  induction 1 as [|L1 L2 L3 Hs _ [IH1 IH2]]; [split; [auto|apply incl_refl]|]. split; [intro H; apply IH1; eapply filtration_collapse; eauto|].
  eapply incl_tran; [exact IH2|]. destruct Hs as (s & t & A & B & C & _ & -> & [-> | ->]); intros x Hx; repeat rewrite ?in_app_iff in *; simpl; rewrite in_app_iff; simpl; tauto.
Qed.
Theorem C174_persistence : forall inf order a pick K dual, (forall l, Permutation (order l) l) -> reachable K -> closed (by_index K) -> filtration_order (by_index K) ->
  (forall s, In s (by_index K) -> (data s < inf)%Z) ->
  forall L, spine pick K = Ok L \/ dumb_spine pick K = Ok L ->
  exists ds es, calculatePersistenceDiagrams inf order a K dual true = Ok ds /\ calculatePersistenceDiagrams inf order a L dual true = Ok es /\
    forall d, d_betti inf (Diagram d (points_of es d)) = d_betti inf (Diagram d (points_of ds d)).
Proof.
  intros inf order a pick K dual Ho HR HC HF Hi L HL.
  assert (HS : reachable L /\ is_spine K L).
  { destruct HL as [HL|HL]; [destruct (C31_spine pick K HR HC) as (L' & E & R & S)|destruct (C31_dumb_spine pick K HR HC) as (L' & E & R & S)]; rewrite HL in E; injection E as <-; auto. }
  destruct HS as [HRL HS]. pose proof HS as (Hc & HCL & _). destruct (collapses_keep _ _ Hc) as [HF' HI].
  destruct (C174_diagrams inf order a K dual Ho HR HC HF Hi) as (ds & Ed & Bd). destruct (C174_diagrams inf order a L dual Ho HRL HCL (HF' HF)) as (es & Ee & Be); [intros s Hs; apply Hi, HI, Hs|].
  exists ds, es. split; [exact Ed|]. split; [exact Ee|]. intro d. destruct (C174_defined K d HR HC) as (n & _ & U). rewrite (U _ (Bd d)). apply U. apply (spine_betti K L HR HC HRL HS d). apply Be.
Qed.

(** ** The house has one component and one hole, and so has its spine *)
Example C174_house : exists L ds es, spine (fun n => n) house = Ok L /\ length (by_index house) = 12 /\ length (by_index L) = 10 /\
  calculatePersistenceDiagrams 100 (fun l => l) AStandard house false true = Ok ds /\ calculatePersistenceDiagrams 100 (fun l => l) AStandard L false true = Ok es /\
  map (fun d => d_betti 100 (Diagram d (points_of ds d))) [0; 1; 2] = [1; 1; 0] /\ map (fun d => d_betti 100 (Diagram d (points_of es d))) [0; 1; 2] = [1; 1; 0].
Proof. do 3 eexists. split; [vm_compute; reflexivity|]. split; [vm_compute; reflexivity|]. split; [vm_compute; reflexivity|]. split; [vm_compute; reflexivity|]. split; [vm_compute; reflexivity|]. split; vm_compute; reflexivity. Qed.
Lemma house_closed : closed (by_index house).
Proof. apply closed_check; [apply mk_reachable|vm_compute; reflexivity]. Qed.
Example C174_house_betti : simplicial_betti (by_index house) 1 1 /\ ~ simplicial_betti (by_index house) 1 2.
Proof.
  assert (F : filtration_order (by_index house)) by (apply filtration_check; vm_compute; reflexivity).
  destruct (C174_diagrams 100 (fun l => l) AStandard house false) as (ds & E & B); [intro; apply Permutation_refl|apply mk_reachable|apply house_closed|exact F|vm_compute by_index; intros s Hs; repeat (destruct Hs as [<-|Hs]; [reflexivity|]); destruct Hs|].
  vm_compute in E. injection E as <-. specialize (B 1). vm_compute d_betti in B. split; [exact B|]. intro H. destruct (C174_defined house 1 (mk_reachable _) house_closed) as (n & _ & U). pose proof (U _ B). pose proof (U _ H). lia.
Qed.

Print Assumptions C174_defined.
Print Assumptions C174_matrix.
Print Assumptions C174_diagrams.
Print Assumptions C174_spine.
Print Assumptions C174_dumb_spine.
Print Assumptions C174_persistence.
