(** * C73: barycentric subdivision *)

From Coq Require Import List Arith Bool ZArith Lia Permutation Sorted.
From Verif Require Import Base BaseFacts Simplex SimplexFacts SpecComplex Complex ComplexFacts ClosureFacts FiltrationFacts History Subcomplex SubcomplexFacts
  Quotient PropertiesComplex PropertiesQuotient Intersections PropertiesIntersections FloydFacts SpecBarycentric Barycentric BarycentricFacts.
Import ListNotations.

Lemma last_opt_max l v : StronglySorted lt l -> last_opt l = Some v -> forall u, In u l -> u <= v.
Proof.
  intros H E u Hu. apply last_opt_split in E. destruct E as (l' & ->). apply StronglySorted_app in H. destruct H as (_ & _ & H). apply in_app_iff in Hu. destruct Hu as [Hu|[<-|[]]]; [|lia].
  specialize (H u v Hu (or_introl eq_refl)). lia.
Qed.

Lemma last_opt_In {A} (l : list A) v : last_opt l = Some v -> In v l.
Proof. intro E. apply last_opt_split in E. destruct E as (l' & ->). apply in_app_iff. simpl. auto. Qed.

Lemma insert_pairs ps : forall L, reachable L -> (forall p x, In p ps -> In x (snd p) -> good x) ->
  exists L', foldM (fun L (p : simplex * list simplex) => insert_into L (snd p)) ps L = Ok L' /\ reachable L' /\
    (forall x, In x (by_index L') -> In x (by_index L) \/ exists p, In p ps /\ In x (snd p)) /\
    forall x, In x (by_index L) \/ (exists p, In p ps /\ In x (snd p)) -> In (verts x) (map verts (by_index L')).
Proof.
  induction ps as [|p ps IH]; intros L R G; cbn [foldM].
  - exists L. split; [reflexivity|]. split; [exact R|]. split; [auto|]. intros x [H|(p & [] & _)]. apply in_map. exact H.
  - destruct (insert_into_any (snd p) L R) as (La & Ea & Ra & A1 & A2); [intros x Hx; apply (G p x); simpl; auto|]. rewrite Ea. cbn [bind].
    destruct (IH La Ra) as (Lb & Eb & Rb & B1 & B2); [intros q x Hq; apply G; simpl; auto|]. exists Lb. split; [exact Eb|]. split; [exact Rb|]. split.
    + intros x Hx. destruct (B1 x Hx) as [Y|(q & Hq & Y)]; [|right; exists q; simpl; auto]. destruct (A1 x Y) as [Z|Z]; [auto|]. right. exists p. simpl. auto.
    + intros x Hx. assert (M : In (verts x) (map verts (by_index La)) -> In (verts x) (map verts (by_index Lb))).
      { intro Q. apply in_map_iff in Q. destruct Q as (y & <- & Hy). apply B2. auto. }
      destruct Hx as [Hx|(q & [<-|Hq] & Hx)]; [apply M, A2; auto|apply M, A2; auto|]. apply B2. right. exists q. auto.
Qed.

(** The simplices of the subdivision are exactly the chains of simplices of a closed
    complex: vertex sets [map b F], where [b] numbers the simplices; the original
    vertices keep their numbers, all other simplices are numbered consecutively, in
    order of their dimension, from the first number that is larger than all vertices. *)
Theorem C73_subdivision : forall order functor K, (forall m, Permutation (order m) m) -> reachable K -> closed (by_index K) -> by_index K <> [] ->
  exists L (b : simplex -> nat) N, subdivide order functor K = Ok L /\ reachable L /\
    (* the numbers *)
    (forall s v, In s (by_index K) -> verts s = [v] -> b s = v /\ v < N) /\ (exists s v, In s (by_index K) /\ verts s = [v] /\ N = v + 1) /\
    (forall i s, nth_error (filter (fun s => 1 <? length (verts s)) (by_dim K)) i = Some s -> b s = N + i) /\
    (forall s t, In s (by_index K) -> In t (by_index K) -> b s = b t -> s = t) /\
    (* the simplices *)
    (forall x, In x (by_index L) -> exists F, chain (by_index K) F /\ verts x = map b F /\ data x = chain_weight functor F) /\
    (forall F, chain (by_index K) F -> exists x, In x (by_index L) /\ verts x = map b F).
Proof.
  intros order functor K Ho RK CK NE. pose proof (reachable_kwf K RK) as WK. destruct (vertices_spec K WK) as [VS VI]. unfold subdivide.
  destruct (last_opt (k_vertices K)) as [w|] eqn:EV.
  2:{ exfalso. assert (EN : k_vertices K = []). { destruct (k_vertices K) as [|a r] eqn:Q; [reflexivity|]. clear - EV. exfalso. revert a EV. induction r as [|c r IH]; intros a EV; [discriminate|]. apply (IH c). exact EV. }
      destruct (by_index K) as [|s l] eqn:EK; [easy|]. destruct (kwf_good K WK s) as [Ws Ns]; [rewrite EK; simpl; auto|]. destruct (verts s) as [|u vs] eqn:Es; [easy|].
      destruct (CK s [u]) as (t & Ht & Et); [simpl; auto|discriminate|intros z [<-|[]]; rewrite Es; simpl; auto|].
      assert (In u (k_vertices K)); [|rewrite EN in H; destruct H]. apply VI. exists t. split; [exact Ht|]. change [u] with (verts (Simplex [u] 0)). apply wf_ext; [apply (kwf_good K WK); rewrite EK; exact Ht|unfold wf; repeat constructor|exact Et]. }
  set (N := w + 1). assert (HN : forall s v, In s (by_index K) -> verts s = [v] -> v < N).
  { intros s v Hs Ev. assert (In v (k_vertices K)) by (apply VI; exists s; auto). pose proof (last_opt_max _ _ VS EV v H). unfold N. lia. }
  assert (OB : okB K (by_dim K)). { apply (closedB_closed K WK) in CK. intros t f Ht Hf. apply (CK t f); [apply (dim_In K WK); exact Ht|exact Hf]. }
  destruct (loop_ok functor K WK N HN (by_dim K) [] ltac:(rewrite app_nil_r; reflexivity) OB) as (m & L0 & E & (Em & Hm) & R0 & H1 & H2). rewrite E. cbn [bind].
  destruct (insert_pairs (order m) L0 R0) as (L & EL & RL & A1 & A2).
  { intros [t c] x Hp Hx. apply (Permutation_in _ (Ho m)) in Hp. destruct (Hm t c Hp) as [A _]. destruct (A x Hx) as (F & _ & W & V & _). split; [exact W|]. rewrite V. discriminate. }
  rewrite EL. exists L, (bc K N), N. split; [reflexivity|]. split; [exact RL|]. refine (conj _ (conj _ (conj _ (conj _ (conj _ _))))).
  - intros s v Hs Ev. split; [apply bc_vertex; exact Ev|apply (HN s v Hs Ev)].
  - pose proof (last_opt_In _ _ EV) as Q. apply VI in Q. destruct Q as (s & Hs & Es). exists s, w. auto.
  - intros i s Hs. assert (Hs' := Hs). apply nth_error_In in Hs'. apply filter_In in Hs'. destruct Hs' as [Hd Bs]. destruct (in_split _ _ Hd) as (l1 & l2 & ED). rewrite (bc_big K WK N l1 s l2 ED Bs). f_equal.
    pose proof (dim_NoDup K WK) as ND. assert (ND' : NoDup (map verts (filter big (by_dim K)))) by (apply NoDup_map_filter; exact ND).
    rewrite NoDup_nth_error in ND'. apply ND'.
    + rewrite map_length, ED, filter_app, app_length. cbn [filter]. replace (big s) with true by (symmetry; exact Bs). cbn [length]. lia.
    + rewrite !nth_error_map. change (nth_error (filter big (by_dim K)) i = Some s) in Hs. rewrite Hs. rewrite ED, filter_app. cbn [filter]. replace (big s) with true by (symmetry; exact Bs).
      rewrite nth_error_app2 by lia. rewrite Nat.sub_diag. reflexivity.
  - apply (bc_inj K WK N HN).
  - intros x Hx. destruct (A1 x Hx) as [Y|([t c] & Hp & Y)].
    + destruct (H1 x Y) as (t & F & _ & C & _ & _ & V & D). exists (t :: F). auto.
    + apply (Permutation_in _ (Ho m)) in Hp. destruct (Hm t c Hp) as [A _]. destruct (A x Y) as (F & [C _] & _ & V & D). exists (t :: F). auto.
  - intros F C. destruct F as [|t F]; [destruct C as [C _]; easy|]. assert (Tk : In t (by_dim K)) by (apply (dim_In K WK); apply C; simpl; auto).
    assert (Q : In (map (bc K N) (t :: F)) (map verts (by_index L))).
    { pose proof (chain_length K WK t F C) as Lc. destruct (Nat.eq_dec (length (t :: F)) (length (verts t))) as [Eq|Ne].
      - rewrite <- Em in Tk. apply in_map_iff in Tk. destruct Tk as ([t' c] & Et & Hp). cbn [fst] in Et. subst t'. destruct (Hm t c Hp) as [_ B]. destruct (B F) as (x & Hx & Vx).
        { split; [exact C|]. intros s G [= <- <-]. exact Eq. }
        rewrite <- Vx. apply A2. right. exists (t, c). split; [apply (Permutation_in _ (Permutation_sym (Ho m))); exact Hp|exact Hx].
      - assert (Lt : length (t :: F) < length (verts t)) by lia. specialize (H2 t F Tk C Lt). apply in_map_iff in H2. destruct H2 as (x & <- & Hx). apply A2. auto. }
    apply in_map_iff in Q. destruct Q as (x & Vx & Hx). exists x. auto.
Qed.

(** A complex that misses a face of one of its simplices is rejected, if it has a
    vertex; without vertices, the result is empty. *)
Theorem C73_not_closed : forall order functor K, (forall m, Permutation (order m) m) -> reachable K ->
  (k_vertices K = [] -> subdivide order functor K = Ok k_empty) /\
  (k_vertices K <> [] -> ~ closed (by_index K) -> subdivide order functor K = Throw RuntimeError).
Proof.
  intros order functor K Ho RK. pose proof (reachable_kwf K RK) as WK. destruct (vertices_spec K WK) as [VS VI]. unfold subdivide. split; [intros ->; reflexivity|].
  intros NV NC. destruct (last_opt (k_vertices K)) as [w|] eqn:EV.
  2:{ exfalso. apply NV. destruct (k_vertices K) as [|a r]; [reflexivity|]. clear - EV. exfalso. revert a EV. induction r as [|c r IH]; intros a EV; [discriminate|]. apply (IH c). exact EV. }
  rewrite (loop_missing functor K WK (w + 1)); [reflexivity| |].
  - intros s v Hs Ev. assert (In v (k_vertices K)) by (apply VI; exists s; auto). pose proof (last_opt_max _ _ VS EV v H). lia.
  - intro OB. apply NC. apply (closedB_closed K WK). intros t f Ht Hf. apply (OB t f); [apply (dim_In K WK); exact Ht|exact Hf].
Qed.

(** The subdivision is a complex; with the default functor, monotone weights stay so. *)
Theorem C73_closed : forall order functor K L, (forall m, Permutation (order m) m) -> reachable K -> closed (by_index K) ->
  subdivide order functor K = Ok L -> closed (by_index L) /\
  ((forall k, functor k = 1%Z) -> monotone (by_index K) -> monotone (by_index L)).
Proof.
  intros order functor K L Ho RK CK EL. destruct (by_index K) as [|k0 l0] eqn:EK.
  - pose proof (reachable_kwf K RK) as WK. destruct (vertices_spec K WK) as [_ VI]. assert (EV : k_vertices K = []).
    { destruct (k_vertices K) as [|v r]; [reflexivity|]. exfalso. destruct (proj1 (VI v)) as (s & Hs & _); [simpl; auto|]. rewrite EK in Hs. destruct Hs. }
    rewrite (proj1 (C73_not_closed order functor K Ho RK) EV) in EL. injection EL as <-. split; [intros s vs []|intros _ _ s t []].
  - rewrite <- EK in CK. destruct (C73_subdivision order functor K Ho RK CK) as (L' & b & N & E' & RL & B1 & _ & B2 & BI & S1 & S2); [rewrite EK; discriminate|].
    rewrite E' in EL. injection EL as ->. pose proof (reachable_kwf L RL) as WL. pose proof (reachable_kwf K RK) as WK.
    assert (SubC : forall F vs, chain (by_index K) F -> vs <> [] -> subset vs (map b F) -> exists G, chain (by_index K) G /\ incl G F /\ set_eq (map b G) vs).
    { intros F vs (C1 & C2 & C3) Nv Sub. exists (filter (fun u => mem (b u) vs) F). assert (SE : set_eq (map b (filter (fun u => mem (b u) vs) F)) vs).
      { intro v. split.
        - intro H. apply in_map_iff in H. destruct H as (u & <- & Hu). apply filter_In in Hu. apply mem_In. apply Hu.
        - intro H. pose proof (Sub v H) as Q. apply in_map_iff in Q. destruct Q as (u & <- & Hu). apply in_map, filter_In. split; [exact Hu|]. apply mem_In. exact H. }
      refine (conj (conj _ (conj _ _)) (conj _ SE)).
      - intro Z. rewrite Z in SE. destruct vs as [|v vs]; [easy|]. destruct (proj2 (SE v) (or_introl eq_refl)).
      - intros u Hu. apply filter_In in Hu. apply C2, Hu.
      - apply StronglySorted_filter. exact C3.
      - intros u Hu. apply filter_In in Hu. apply Hu. }
    split.
    + intros x vs Hx Nv Sub. destruct (S1 x Hx) as (F & C & V & _). rewrite V in Sub. destruct (SubC F vs C Nv Sub) as (G & CG & _ & SE). destruct (S2 G CG) as (y & Hy & Vy). exists y. split; [exact Hy|]. rewrite Vy. exact SE.
    + intros F1 Mono s t Hs Ht Sub. destruct (S1 s Hs) as (F & C & V & D). destruct (S1 t Ht) as (G & CG & VG & DG).
      assert (Top : forall H, chain (by_index K) H -> exists h H', H = h :: H' /\ In h (by_index K) /\ chain_weight functor H = data h /\ forall u, In u H -> u = h \/ proper_face u h).
      { intros H (C1 & C2 & C3). destruct H as [|h H]; [easy|]. exists h, H. refine (conj eq_refl (conj (C2 h (or_introl eq_refl)) (conj _ _))).
        - destruct H; cbn [chain_weight]; [destruct (length (verts h) =? 1)|]; rewrite ?F1, ?Z.mul_1_r; reflexivity.
        - intros u [<-|Hu]; [auto|]. right. inversion C3 as [|? ? _ X]; subst. rewrite Forall_forall in X. apply X. exact Hu. }
      destruct (Top F C) as (f & F' & -> & Hf & Wf & Tf). destruct (Top G CG) as (g & G' & -> & Hg & Wg & _). rewrite D, DG, Wf, Wg.
      assert (Q : In (b g) (verts s)) by (apply Sub; rewrite VG; simpl; auto). rewrite V in Q. apply in_map_iff in Q. destruct Q as (u & Eu & Hu).
      assert (u = g). { apply BI; auto. apply C; exact Hu. } subst u. destruct (Tf g Hu) as [->|P]; [lia|]. rewrite <- EK in Mono. apply Mono; auto. apply P.
Qed.

(** FINDING: the documentation says the functor is called with the dimension of the
    simplex.  It is called with the number of vertices, except for the new vertices,
    for which it is called with 0: never with 1, so edges get the factor for
    dimension 2. *)
Theorem C73_dimension_refuted : exists K L x, reachable K /\ closed (by_index K) /\
  subdivide (fun m => m) (fun d => if d =? 1 then 5%Z else 7%Z) K = Ok L /\
  In x (by_index L) /\ length (verts x) = 2 /\ data x = 7%Z /\ forall s, In s (by_index K) -> data s = 1%Z.
Proof.
  exists (mk [PushBack [0] 1; PushBack [1] 1; PushBack [0; 1] 1]). eexists. exists (simplex_of [2; 0] 7).
  refine (conj (mk_reachable _) (conj _ (conj _ (conj _ (conj _ (conj _ _)))))).
  - apply closed_check; [apply mk_reachable|]. vm_compute. reflexivity.
  - vm_compute. reflexivity.
  - vm_compute. tauto.
  - reflexivity.
  - reflexivity.
  - intros s Hs. vm_compute in Hs. intuition (subst; reflexivity).
Qed.

Example C73_example : exists L, subdivide (@rev _) empty_functor full_triangle = Ok L /\
  k_size L = 25 /\ length (k_range L 0) = 7 /\ length (k_range L 1) = 12 /\ length (k_range L 2) = 6.
Proof. eexists. split; [vm_compute; reflexivity|]. vm_compute. auto. Qed.

Print Assumptions C73_subdivision.
Print Assumptions C73_not_closed.
Print Assumptions C73_closed.
Print Assumptions C73_dimension_refuted.
