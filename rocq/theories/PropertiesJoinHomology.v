(** * Property C176: the homology of skeletons, cones and suspensions. *)
From Coq Require Import List Arith Bool ZArith Lia Sorted Permutation.
From Verif Require Import PropertiesComponents Base BaseFacts Simplex SimplexFacts SpecComplex Complex ComplexFacts Subcomplex SubcomplexFacts History PropertiesComplex
  Matrix SpecMatrix ReductionFacts SpecHomology HomologyFacts PropertiesHomology SpecDiagram Diagram DiagramFacts PropertiesDiagram Quotient PropertiesQuotient SpecSimplicial SimplicialFacts PropertiesSpineHomology JoinFacts.
Import ListNotations.

(** ** Skeletons *)
Theorem C176_skeleton : forall k K d n, reachable K -> d < k -> simplicial_betti (by_index (skeleton k K)) d n <-> simplicial_betti (by_index K) d n.
Proof.
  intros k K d n HR Hd. destruct (C42_skeleton k K HR) as [E _].
  assert (EW : map verts (by_index (skeleton k K)) = filter (fun s => length s <=? S k) (map verts (by_index K))).
  { rewrite E. clear E. induction (by_index K) as [|s l IH]; [reflexivity|]. cbn [filter map]. destruct (length (verts s) <=? S k); cbn [map]; rewrite IH; reflexivity. }
  split; intros (z & b & Hz & Hb & Q); exists z, b; (split; [eapply p_dim_ext; [|exact Hz]|split; [eapply p_dim_ext; [|exact Hb]|exact Q]]); intro x.
  - apply (skel_cycles _ _ k EW). lia.
  - apply (skel_boundaries _ _ k EW). exact Hd.
  - symmetry. apply (skel_cycles _ _ k EW). lia.
  - symmetry. apply (skel_boundaries _ _ k EW). exact Hd.
Qed.

(** ** Cones and suspensions *)
Lemma complex_dims K : reachable K -> closed (by_index K) -> forall d, exists z b, p_dim (s_cycles (map verts (by_index K)) d) z /\ p_dim (s_boundaries (map verts (by_index K)) d) b.
Proof. intros HR HC d. destruct (C174_defined K d HR HC) as (n & (z & b & Hz & Hb & _) & _). eauto. Qed.
Lemma complex_faces K : reachable K -> forall s, In s (map verts (by_index K)) -> s <> [] /\ StronglySorted gt s.
Proof. intros HR s Hs. apply in_map_iff in Hs. destruct Hs as (t & <- & Ht). destruct (kwf_good K (reachable_kwf K HR) t Ht) as [Hw Hn]. split; assumption. Qed.
Lemma apex_above L c s : reachable L -> In (c :: s) (map verts (by_index L)) -> forall u, In u s -> u < c.
Proof. intros HR H u Hu. destruct (complex_faces L HR _ H) as [_ S]. inversion S as [|x l Sl F]; subst. rewrite Forall_forall in F. apply F in Hu. unfold gt in Hu. exact Hu. Qed.
Theorem C176_cone : forall f K, reachable K -> closed (by_index K) -> by_index K <> [] ->
  exists L, cone f K = Ok L /\ reachable L /\ closed (by_index L) /\ simplicial_betti (by_index L) 0 1 /\ forall d, simplicial_betti (by_index L) (S d) 0.
Proof.
  intros f K HR HC Hne. destruct (C30_cone f K HR HC Hne) as (L & c & EL & HRL & E & HCL & _). exists L. split; [exact EL|]. split; [exact HRL|]. split; [exact HCL|].
  assert (EW : map verts (by_index L) = map verts (by_index K) ++ flat_map (fun a => [a] :: map (cons a) (map verts (by_index K))) [c]).
  { rewrite E, map_app. cbn [map flat_map]. rewrite app_nil_r. f_equal. cbn [simplex_vertex verts]. f_equal. rewrite !map_map. reflexivity. }
  assert (HA : forall a s u, In a [c] -> In s (map verts (by_index K)) -> In u s -> u < a).
  { intros a s u [<-|[]] Hs Hu. apply (apex_above L c s HRL); [|exact Hu]. rewrite EW. apply in_or_app. right. cbn [flat_map]. rewrite app_nil_r. right. apply in_map. exact Hs. }
  pose proof (proj1 (betti_facts L (reachable_kwf L HRL) HCL)) as HZ.
  assert (G : forall d, simplicial_betti (by_index L) d (if d =? 0 then 1 else 0)).
  { intro d. destruct (complex_dims L HRL HCL d) as (z & b & Hz & Hb). exists z, b. split; [exact Hz|]. split; [exact Hb|].
    apply (cone_dims (map verts (by_index K)) (map verts (by_index L)) c); [rewrite EW; apply Permutation_refl|apply kwf_nodup, reachable_kwf; exact HR|apply complex_faces; exact HR|exact HA|exact HZ|exact Hb|exact Hz]. }
  split; [apply (G 0)|]. intro d. apply (G (S d)).
Qed.

Lemma joins_perm (A : Type) (g h : A -> list nat) (l : list A) : Permutation (flat_map (fun s => [g s; h s]) l) (map g l ++ map h l).
Proof.
  induction l as [|s l IH]; [apply Permutation_refl|]. cbn [flat_map map app]. apply perm_skip. apply Permutation_cons_app. exact IH.
Qed.
Lemma map_flat_map A B C (h : B -> C) (g : A -> list B) l : map h (flat_map g l) = flat_map (fun a => map h (g a)) l.
Proof. induction l as [|a l IH]; [reflexivity|]. cbn [flat_map]. rewrite map_app, IH. reflexivity. Qed.
Lemma has_vertex K v : reachable K -> has (by_index K) [v] -> In [v] (map verts (by_index K)).
Proof.
  intros HR (t & Ht & Et). apply in_map_iff. exists t. split; [|exact Ht]. destruct (complex_faces K HR (verts t) (in_map verts _ _ Ht)) as [N S].
  assert (I : forall u, In u (verts t) -> u = v) by (intros u Hu; apply Et in Hu; destruct Hu as [->|[]]; reflexivity).
  destruct (verts t) as [|x [|y l]]; [easy|rewrite (I x (or_introl eq_refl)); reflexivity|]. inversion S as [|? ? _ F]; subst. inversion F as [|? ? G _]; subst. rewrite (I x (or_introl eq_refl)), (I y (or_intror (or_introl eq_refl))) in G. unfold gt in G. lia.
Qed.
Theorem C176_suspension : forall f K, reachable K -> closed (by_index K) -> by_index K <> [] ->
  exists L, suspension f K = Ok L /\ reachable L /\ closed (by_index L) /\ by_index L <> [] /\ simplicial_betti (by_index L) 0 1 /\
    (forall n, simplicial_betti (by_index L) 1 n <-> simplicial_betti (by_index K) 0 (S n)) /\
    forall d n, simplicial_betti (by_index L) (S (S d)) n <-> simplicial_betti (by_index K) (S d) n.
Proof.
  intros f K HR HC Hne. destruct (C30_suspension f K HR HC Hne) as (L & c & EL & HRL & E & HCL & _). exists L. split; [exact EL|]. split; [exact HRL|]. split; [exact HCL|].
  split; [rewrite E; intro N; apply app_eq_nil in N; destruct N; easy|].
  set (V := map verts (by_index K)). set (W := map verts (by_index L)).
  assert (HP : Permutation W (V ++ flat_map (fun a => [a] :: map (cons a) V) [c; c + 1])).
  { unfold W. rewrite E, map_app. apply Permutation_app_head. cbn [map flat_map]. rewrite app_nil_r. cbn [simplex_vertex verts app]. apply perm_skip. rewrite map_flat_map. cbn [map verts].
    etransitivity; [apply perm_skip; apply (joins_perm _ (fun s => c :: verts s) (fun s => c + 1 :: verts s))|]. unfold V. rewrite !map_map. apply Permutation_middle. }
  assert (HA : forall a s u, In a [c; c + 1] -> In s V -> In u s -> u < a).
  { intros a s u Ha Hs Hu. apply (apex_above L a s HRL); [|exact Hu]. apply (Permutation_in _ (Permutation_sym HP)). apply in_or_app. right. apply in_flat_map. exists a. split; [exact Ha|]. right. apply in_map. exact Hs. }
  pose proof (proj1 (betti_facts L (reachable_kwf L HRL) HCL)) as HZ. pose proof (kwf_nodup K (reachable_kwf K HR)) as NV. pose proof (complex_faces K HR) as HV.
  assert (Nc : c <> c + 1) by lia. destruct (closed_top K HR HC Hne) as (v0 & _ & H0 & _). apply (has_vertex K v0 HR) in H0.
  assert (Un : forall M d n m, reachable M -> closed (by_index M) -> simplicial_betti (by_index M) d n -> simplicial_betti (by_index M) d m -> n = m).
  { intros M d n m R C Hn Hm. destruct (C174_defined M d R C) as (k & _ & U). rewrite (U n Hn), (U m Hm). reflexivity. }
  split; [|split].
  - destruct (complex_dims L HRL HCL 0) as (z & b & Hz & Hb). exists z, b. split; [exact Hz|]. split; [exact Hb|]. apply (susp_connected V W c (c + 1) v0); assumption.
  - destruct (complex_dims K HR HC 0) as (z & b & Hz & Hb). destruct (p_dim_chain V 1 NV) as (k & Hk). destruct (complex_dims L HRL HCL 1) as (w & b' & Hw & _).
    pose proof (susp_dim_boundaries V W c (c + 1) HP Nc NV HV HA HZ 0 b k Hb Hk) as Bw. pose proof (susp_dim_low V W c (c + 1) v0 HP Nc NV HV HA HZ H0 z k w Hz Hk Hw) as Q. intro n. split; intro G.
    + assert (G' : simplicial_betti (by_index L) 1 (w - (b + k))). { destruct G as (zz & bb & Gz & Gb & ->). exists w, (b + k). split; [exact Hw|]. split; [exact Bw|]. assert (bb = b + k). { apply (p_dim_unique W (s_boundaries W 1)); [|exact Gb|exact Bw]. intros x s (y & _ & Ey) Hs. rewrite (Ey s) in Hs. apply (s_bd_support W y s Hs). } assert (n + bb = w) by (apply (p_dim_unique W (s_cycles W 1)); [intros x s; apply s_cycles_support|exact Gz|exact Hw]). lia. }
      destruct G' as (zz & bb & Gz & Gb & Gq). assert (zz = w) by (apply (p_dim_unique W (s_cycles W 1)); [intros x s; apply s_cycles_support|exact Gz|exact Hw]). assert (bb = b + k). { apply (p_dim_unique W (s_boundaries W 1)); [|exact Gb|exact Bw]. intros x s (y & _ & Ey) Hs. rewrite (Ey s) in Hs. apply (s_bd_support W y s Hs). }
      assert (n = w - (b + k)) by (apply (Un L 1); [exact HRL|exact HCL|exact G|exists w, (b + k); split; [exact Hw|]; split; [exact Bw|lia]]). exists z, b. split; [exact Hz|]. split; [exact Hb|]. lia.
    + assert (S n + b = z). { destruct G as (zz & bb & Gz & Gb & Gq). assert (zz = z) by (apply (p_dim_unique V (s_cycles V 0)); [intros x s; apply s_cycles_support|exact Gz|exact Hz]). assert (bb = b). { apply (p_dim_unique V (s_boundaries V 0)); [|exact Gb|exact Hb]. intros x s (y & _ & Ey) Hs. rewrite (Ey s) in Hs. apply (s_bd_support V y s Hs). } lia. }
      exists w, (b + k). split; [exact Hw|]. split; [exact Bw|]. lia.
  - intros d. destruct (complex_dims K HR HC (S d)) as (z & b & Hz & Hb). destruct (p_dim_chain V (S (S d)) NV) as (k & Hk).
    pose proof (susp_dim_boundaries V W c (c + 1) HP Nc NV HV HA HZ (S d) b k Hb Hk) as Bw. pose proof (susp_dim_high V W c (c + 1) HP Nc NV HV HA HZ d z k Hz Hk) as Bz. intro n.
    assert (GK : forall m, simplicial_betti (by_index K) (S d) m -> z = m + b). { intros m (zz & bb & Gz & Gb & Gq). assert (zz = z) by (apply (p_dim_unique V (s_cycles V (S d))); [intros x s; apply s_cycles_support|exact Gz|exact Hz]). assert (bb = b). { apply (p_dim_unique V (s_boundaries V (S d))); [|exact Gb|exact Hb]. intros x s (y & _ & Ey) Hs. rewrite (Ey s) in Hs. apply (s_bd_support V y s Hs). } lia. }
    assert (GL : forall m, simplicial_betti (by_index L) (S (S d)) m -> z = m + b). { intros m (zz & bb & Gz & Gb & Gq). assert (zz = z + k) by (apply (p_dim_unique W (s_cycles W (S (S d)))); [intros x s; apply s_cycles_support|exact Gz|exact Bz]). assert (bb = b + k). { apply (p_dim_unique W (s_boundaries W (S (S d)))); [|exact Gb|exact Bw]. intros x s (y & _ & Ey) Hs. rewrite (Ey s) in Hs. apply (s_bd_support W y s Hs). } lia. }
    split; intro G; [apply GL in G; exists z, b; auto|apply GK in G; exists (z + k), (b + k); split; [exact Bz|split; [exact Bw|lia]]].
Qed.

(** ** Spheres: suspending two points [n] times *)
Definition two_points : complex := mk [InsertRange [([0], 0%Z); ([1], 0%Z)]].
Fixpoint sphere (f : simplex -> Z) (n : nat) : outcome complex := match n with 0 => Ok two_points | S n => let* K := sphere f n in suspension f K end.
Lemma two_points_closed : closed (by_index two_points).
Proof. apply closed_check; [apply mk_reachable|vm_compute; reflexivity]. Qed.
Lemma two_points_betti : forall d, simplicial_betti (by_index two_points) d (if d =? 0 then 2 else 0).
Proof.
  destruct (C174_diagrams 100 (fun l => l) AStandard two_points false) as (ds & E & B); [intro; apply Permutation_refl|apply mk_reachable|apply two_points_closed|apply filtration_check; vm_compute; reflexivity|vm_compute by_index; intros s Hs; repeat (destruct Hs as [<-|Hs]; [vm_compute; reflexivity|]); destruct Hs|].
  vm_compute in E. injection E as <-. intro d. specialize (B d). destruct d as [|d]; [exact B|]. exact B.
Qed.
Theorem C176_sphere : forall f n, exists L, sphere f n = Ok L /\ reachable L /\ closed (by_index L) /\
  forall d, simplicial_betti (by_index L) d ((if d =? 0 then 1 else 0) + (if d =? n then 1 else 0)).
Proof.
  intros f n. assert (G : exists L, sphere f n = Ok L /\ reachable L /\ closed (by_index L) /\ by_index L <> [] /\ forall d, simplicial_betti (by_index L) d ((if d =? 0 then 1 else 0) + (if d =? n then 1 else 0))).
  { induction n as [|n (K & EK & HR & HC & Hne & B)].
    - exists two_points. split; [reflexivity|]. split; [apply mk_reachable|]. split; [apply two_points_closed|]. split; [vm_compute; discriminate|]. intro d. pose proof (two_points_betti d) as T. destruct (d =? 0); exact T.
    - destruct (C176_suspension f K HR HC Hne) as (L & EL & HRL & HCL & HneL & B0 & B1 & B2). exists L. split; [cbn [sphere]; rewrite EK; exact EL|]. split; [exact HRL|]. split; [exact HCL|]. split; [exact HneL|].
      intros [|[|d]]; [exact B0| |apply B2; apply (B (S d))]. apply B1. specialize (B 0). destruct n as [|n]; exact B. }
  destruct G as (L & H1 & H2 & H3 & _ & H4). exists L. auto.
Qed.

(** ** Cases *)
Example C176_circle : exists L, suspension0 two_points = Ok L /\ map verts (by_index L) = [[0]; [1]; [2]; [3]; [2; 0]; [3; 0]; [2; 1]; [3; 1]] /\ simplicial_betti (by_index L) 1 1 /\ ~ simplicial_betti (by_index L) 1 0.
Proof.
  destruct (C176_sphere (fun _ => 0%Z) 1) as (L & E & HR & HC & B). exists L. split; [exact E|]. split; [vm_compute in E; injection E as <-; reflexivity|]. split; [apply (B 1)|]. intro H. destruct (C174_defined L 1 HR HC) as (n & _ & U). pose proof (U _ (B 1)) as U1. pose proof (U _ H) as U2. cbn in U1. lia.
Qed.
(** a cone over the circle closes its hole *)
Example C176_disk : exists L M, suspension0 two_points = Ok L /\ cone0 L = Ok M /\ length (by_index M) = 17 /\ simplicial_betti (by_index L) 1 1 /\ simplicial_betti (by_index M) 1 0 /\
  simplicial_betti (by_index (skeleton 1 M)) 0 1.
Proof.
  destruct (C176_sphere (fun _ => 0%Z) 1) as (L & E & HR & HC & B). assert (Hne : by_index L <> []) by (vm_compute in E; injection E as <-; discriminate).
  destruct (C176_cone (fun _ => 0%Z) L HR HC Hne) as (M & EM & HRM & HCM & B0 & B1). exists L, M. split; [exact E|]. split; [exact EM|]. split; [vm_compute in E; injection E as <-; vm_compute in EM; injection EM as <-; reflexivity|]. split; [apply (B 1)|]. split; [apply B1|]. apply C176_skeleton; [exact HRM|auto|exact B0].
Qed.
(** the skeleton of the same dimension does not keep the homology *)
Theorem C176_skeleton_bound_refuted : ~ forall k K d n, reachable K -> closed (by_index K) -> d <= k -> simplicial_betti (by_index (skeleton k K)) d n <-> simplicial_betti (by_index K) d n.
Proof.
  intro H. set (K := mk [InsertRange [([0], 0%Z); ([1], 0%Z); ([0; 1], 0%Z)]]). assert (HC : closed (by_index K)) by (apply closed_check; [apply mk_reachable|vm_compute; reflexivity]).
  assert (HR : reachable K) by apply mk_reachable.
  assert (E : map verts (by_index (skeleton 0 K)) = map verts (by_index two_points)) by (vm_compute; reflexivity).
  pose proof (two_points_betti 0) as T. unfold simplicial_betti in T. rewrite <- E in T. apply (H 0 K 0 2 HR HC (Nat.le_refl 0)) in T.
  destruct (C174_diagrams 100 (fun l => l) AStandard K false) as (ds & Ed & B); [intro; apply Permutation_refl|exact HR|exact HC|apply filtration_check; vm_compute; reflexivity|vm_compute by_index; intros s Hs; repeat (destruct Hs as [<-|Hs]; [vm_compute; reflexivity|]); destruct Hs|].
  vm_compute in Ed. injection Ed as <-. specialize (B 0). vm_compute d_betti in B. destruct (C174_defined K 0 HR HC) as (n & _ & U). pose proof (U _ B) as U1. pose proof (U _ T) as U2. lia.
Qed.

Print Assumptions C176_skeleton.
Print Assumptions C176_cone.
Print Assumptions C176_suspension.
Print Assumptions C176_sphere.
Print Assumptions C176_skeleton_bound_refuted.
