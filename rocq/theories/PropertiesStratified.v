(** * Property C144: random stratified graphs and their filtrations. *)
From Coq Require Import List Arith Bool ZArith Lia Permutation Sorted.
From Verif Require Import Base BaseFacts Simplex SimplexFacts SpecComplex Complex ComplexFacts FiltrationFacts History SubcomplexFacts
  PropertiesComplex RipsFacts PropertiesRips EnumerateFacts Diagram StratifiedGraph.
Import ListNotations.
Local Open Scope nat_scope.

(** the stratum [i] of vertices that are numbered stratum by stratum *)
Definition prefix (strata : list nat) (i : nat) : nat := list_sum (firstn i strata).
Definition in_stratum (strata : list nat) (i v : nat) : Prop := prefix strata i <= v < prefix strata i + nth i strata 0.
Fixpoint products (strata : list nat) : nat :=
  match strata with s :: ((t :: _) as rest) => s * t + products rest | _ => 0 end.

Lemma vertex_small z n : z = Z.of_nat n -> (Z.of_nat n < 65536)%Z -> vertex_of z = n.
Proof. intros -> H. unfold vertex_of. rewrite Z.mod_small by lia. apply Nat2Z.id. Qed.

Definition pairs_of (o s t : nat) : list (nat * nat) := flat_map (fun j => map (fun k => (o + j, o + s + k)) (seq 0 t)) (seq 0 s).

Lemma flat_map_ext_in {A B} (f g : A -> list B) : forall l, (forall x, In x l -> f x = g x) -> flat_map f l = flat_map g l.
Proof. induction l as [|x l IH]; intro H; [reflexivity|]. cbn [flat_map]. rewrite H, IH; simpl; auto. intros; apply H; simpl; auto. Qed.

Lemma stratum_edges_pairs o s t : (Z.of_nat (o + s + t) < 65536)%Z -> stratum_edges (o + s) s t = pairs_of o s t.
Proof.
  intro H. unfold stratum_edges, pairs_of. apply flat_map_ext_in. intros j Hj. apply in_seq in Hj. apply map_ext_in. intros k Hk. apply in_seq in Hk.
  f_equal; apply vertex_small; lia.
Qed.

Lemma in_pairs o s t u v : In (u, v) (pairs_of o s t) <-> (o <= u < o + s) /\ (o + s <= v < o + s + t).
Proof.
  unfold pairs_of. rewrite in_flat_map. split.
  - intros (j & Hj & H). apply in_seq in Hj. apply in_map_iff in H. destruct H as (k & E & Hk). apply in_seq in Hk. injection E as <- <-. lia.
  - intros [Hu Hv]. exists (u - o). split; [apply in_seq; lia|]. apply in_map_iff. exists (v - (o + s)). split; [f_equal; lia|apply in_seq; lia].
Qed.

Lemma flat_map_length_const {A B} (f : A -> list B) n : forall l, (forall x, In x l -> length (f x) = n) -> length (flat_map f l) = length l * n.
Proof. induction l as [|x l IH]; intro H; [reflexivity|]. cbn [flat_map length]. rewrite app_length, IH, H; simpl; auto. intros; apply H; simpl; auto. Qed.
Lemma pairs_length o s t : length (pairs_of o s t) = s * t.
Proof. unfold pairs_of. rewrite (flat_map_length_const _ t), seq_length; [reflexivity|]. intros. rewrite map_length, seq_length. reflexivity. Qed.

Lemma pairs_NoDup o s t : NoDup (pairs_of o s t).
Proof.
  unfold pairs_of. apply NoDup_flat_map.
  - apply seq_NoDup.
  - intros j _. apply NoDup_map_inj; [apply seq_NoDup|]. intros x y _ _ E. injection E as E. lia.
  - intros x y z _ _ Hx Hy. apply in_map_iff in Hx, Hy. destruct Hx as (a & Ea & _). destruct Hy as (b & Eb & _). rewrite <- Ea in Eb. injection Eb as E _. lia.
Qed.

Lemma prefix_S s strata i : prefix (s :: strata) (S i) = s + prefix strata i.
Proof. reflexivity. Qed.

Lemma edges_spec : forall strata o, (Z.of_nat (o + list_sum strata) < 65536)%Z ->
  length (all_edges o strata) = products strata /\ NoDup (all_edges o strata) /\
  forall u v, In (u, v) (all_edges o strata) <-> o <= u /\ o <= v /\ exists i, S i < length strata /\ in_stratum strata i (u - o) /\ in_stratum strata (S i) (v - o).
Proof.
  induction strata as [|s strata IH]; intros o H.
  - refine (conj eq_refl (conj _ _)); [constructor|]. intros u v. split; [intros []|]. intros (_ & _ & i & Hi & _). cbn in Hi. lia.
  - destruct strata as [|t rest].
    + refine (conj eq_refl (conj _ _)); [constructor|]. intros u v. split; [intros []|]. intros (_ & _ & i & Hi & _). cbn in Hi. lia.
    + change (list_sum (s :: t :: rest)) with (s + (t + list_sum rest)) in H.
      assert (E : all_edges o (s :: t :: rest) = pairs_of o s t ++ all_edges (o + s) (t :: rest)).
      { cbn [all_edges]. rewrite (vertex_small _ (o + s)) by lia. rewrite stratum_edges_pairs by lia. reflexivity. }
      rewrite E. destruct (IH (o + s)) as (L & N & I). { change (list_sum (t :: rest)) with (t + list_sum rest). lia. }
      refine (conj _ (conj _ _)).
      * rewrite app_length, pairs_length, L. reflexivity.
      * apply NoDup_app_disjoint; [apply pairs_NoDup|exact N|]. intros [u v] H1 H2. apply in_pairs in H1. apply I in H2. lia.
      * intros u v. rewrite in_app_iff, in_pairs, I. split.
        -- intros [(Hu & Hv)|(Hu & Hv & i & Hi & A & B)].
           ++ refine (conj _ (conj _ _)); [lia|lia|]. exists 0. cbn [length]. unfold in_stratum, prefix. cbn [firstn nth list_sum fold_right]. lia.
           ++ refine (conj _ (conj _ _)); [lia|lia|]. exists (S i). cbn [length] in *. unfold in_stratum in *. rewrite !prefix_S. rewrite !prefix_S in B. cbn [nth] in *. lia.
        -- intros (Hu & Hv & i & Hi & A & B). destruct i as [|i].
           ++ left. unfold in_stratum, prefix in A, B. cbn [firstn nth list_sum fold_right] in A, B. lia.
           ++ right. unfold in_stratum in A, B. rewrite !prefix_S in A. rewrite !prefix_S in B. cbn [nth] in A, B.
              refine (conj _ (conj _ _)); [lia|lia|]. exists i. cbn [length] in *. unfold in_stratum. rewrite !prefix_S. cbn [nth]. lia.
Qed.

Lemma stratum_bound : forall strata i v, in_stratum strata i v -> v < list_sum strata.
Proof.
  induction strata as [|s strata IH]; intros i v H.
  - unfold in_stratum, prefix in H. destruct i; cbn in H; lia.
  - change (list_sum (s :: strata)) with (s + list_sum strata). destruct i as [|i].
    + unfold in_stratum, prefix in H. cbn [firstn nth list_sum fold_right] in H. lia.
    + unfold in_stratum in H. rewrite prefix_S in H. cbn [nth] in H.
      assert (G : in_stratum strata i (v - s)) by (unfold in_stratum; lia). apply IH in G. lia.
Qed.

Lemma stratum_before strata i u v : in_stratum strata i u -> in_stratum strata (S i) v -> u < v.
Proof.
  unfold in_stratum. intros Hu Hv. assert (E : prefix strata (S i) = prefix strata i + nth i strata 0).
  { clear. unfold prefix. revert i. induction strata as [|s l IH]; intros [|i]; try reflexivity; cbn [firstn nth list_sum fold_right] in *; [lia|].
    unfold list_sum in *. cbn [fold_right]. rewrite IH. lia. }
  lia.
Qed.

Lemma edge_verts u v d : u < v -> simplex_of [u; v] d = Simplex [v; u] d.
Proof.
  intro H. unfold simplex_of. f_equal.
  assert (E : (u <? v) = true) by (apply Nat.ltb_lt; auto). assert (E2 : (v =? u) = false) by (apply Nat.eqb_neq; lia).
  assert (S1 : cpp_sort greater [u; v] = [v; u]). { unfold cpp_sort. cbn [fold_right insert_sorted]. unfold greater. rewrite E. reflexivity. }
  rewrite S1. unfold cpp_unique. cbn. rewrite E2. reflexivity.
Qed.

Definition stratified_edges (draw : nat -> Z) (edges : list (nat * nat)) : list simplex :=
  map (fun '(n, (u, v)) => simplex_of [u; v] (draw n)) (combine (seq 0 (length edges)) edges).

Lemma numbered draw : forall (edges : list (nat * nat)) a k, nth_error (map (fun '(n, (u, v)) => simplex_of [u; v] (draw n)) (combine (seq a (length edges)) edges)) k =
  match nth_error edges k with Some (u, v) => Some (simplex_of [u; v] (draw (a + k))) | None => None end.
Proof.
  induction edges as [|[u v] edges IH]; intros a k; [destruct k; reflexivity|]. cbn [length seq combine map]. destruct k as [|k]; cbn [nth_error].
  - rewrite Nat.add_0_r. reflexivity.
  - rewrite IH. replace (S a + k) with (a + S k) by lia. reflexivity.
Qed.

Lemma numbered_verts draw edges : (forall u v, In (u, v) edges -> u < v) ->
  map verts (stratified_edges draw edges) = map (fun e => [snd e; fst e]) edges.
Proof.
  unfold stratified_edges. generalize 0. induction edges as [|[u v] edges IH]; intros a H; [reflexivity|]. cbn [length seq combine map].
  rewrite (IH (S a)) by (intros; apply H; simpl; auto). rewrite edge_verts by (apply H; simpl; auto). reflexivity.
Qed.

Lemma in_numbered draw edges s : In s (stratified_edges draw edges) -> exists u v n, In (u, v) edges /\ s = simplex_of [u; v] (draw n).
Proof.
  unfold stratified_edges. intro H. apply in_map_iff in H. destruct H as ([n [u v]] & <- & H). apply in_combine_r in H. exists u, v, n. auto.
Qed.

(** ** C144 *)
Theorem C144_graph : forall draw strata, 2 <= length strata -> (Z.of_nat (list_sum strata) < 65536)%Z ->
  exists K, makeRandomStratifiedGraph draw strata = Ok K /\ reachable K /\ closed (by_index K) /\ filtration_order (by_index K) /\
    (forall vs, In vs (map verts (by_index K)) <->
       (exists v, vs = [v] /\ v < list_sum strata) \/
       (exists i u v, vs = [v; u] /\ S i < length strata /\ in_stratum strata i u /\ in_stratum strata (S i) v)) /\
    k_size K = list_sum strata + products strata /\
    (forall k s, nth_error (by_index K) k = Some s ->
       data s = if k <? list_sum strata then 0%Z else draw (k - list_sum strata)).
Proof.
  intros draw strata Hl Hs. unfold makeRandomStratifiedGraph.
  destruct (Nat.leb_spec (length strata) 1) as [C|_]; [lia|].
  destruct (edges_spec strata 0 Hs) as (EL & EN & EI). fold (stratified_edges draw (all_edges 0 strata)).
  set (edges := all_edges 0 strata) in *.
  assert (EI' : forall u v, In (u, v) edges <-> exists i, S i < length strata /\ in_stratum strata i u /\ in_stratum strata (S i) v).
  { intros u v. rewrite EI, !Nat.sub_0_r. split; [intros (_ & _ & H); exact H|]. intro H. repeat split; auto; lia. }
  assert (Elt : forall u v, In (u, v) edges -> u < v).
  { intros u v H. apply EI' in H. destruct H as (i & _ & A & B). eapply stratum_before; eauto. }
  assert (EV : stratified_vertices strata = map (fun i => simplex_vertex i 0) (seq 0 (list_sum strata))).
  { unfold stratified_vertices. apply map_ext_in. intros i Hi. apply in_seq in Hi. rewrite (vertex_small _ i) by lia. reflexivity. }
  rewrite EV. set (n := list_sum strata) in *.
  set (l := map (fun i => simplex_vertex i 0) (seq 0 n) ++ stratified_edges draw edges).
  assert (Hv : map verts l = map (fun i => [i]) (seq 0 n) ++ map (fun e => [snd e; fst e]) edges).
  { unfold l. rewrite map_app, map_map, numbered_verts by auto. reflexivity. }
  assert (Hw : forall s, In s l -> good s).
  { intros s H. apply in_app_or in H. destruct H as [H|H].
    - apply in_map_iff in H. destruct H as (i & <- & _). split; [|discriminate]. unfold wf. cbn. repeat constructor.
    - apply in_numbered in H. destruct H as (u & v & k & H & ->). split; [apply simplex_of_wf|]. rewrite edge_verts by auto. discriminate. }
  destruct (of_range_new l Hw) as (K & E & HK & HI).
  { rewrite Hv. apply NoDup_app_disjoint.
    - apply NoDup_map_inj; [apply seq_NoDup|]. intros x y _ _ Q. injection Q as Q. exact Q.
    - apply NoDup_map_inj; [exact EN|]. intros [a b] [c d] _ _ Q. cbn in Q. injection Q as -> ->. reflexivity.
    - intros vs H1 H2. apply in_map_iff in H1, H2. destruct H1 as (i & <- & _). destruct H2 as (e & Q & _). discriminate. }
  assert (In_vs : forall vs, In vs (map verts (by_index K)) <->
       (exists v, vs = [v] /\ v < n) \/
       (exists i u v, vs = [v; u] /\ S i < length strata /\ in_stratum strata i u /\ in_stratum strata (S i) v)).
  { intro vs. rewrite HI, Hv, in_app_iff. split.
    - intros [H|H]; apply in_map_iff in H.
      + destruct H as (i & <- & H). apply in_seq in H. left. exists i. split; [reflexivity|lia].
      + destruct H as ([u v] & <- & H). apply EI' in H. destruct H as (i & H). right. exists i, u, v. cbn [fst snd]. tauto.
    - intros [(v & -> & H)|(i & u & v & -> & H)].
      + left. apply in_map_iff. exists v. split; [reflexivity|apply in_seq; lia].
      + right. apply in_map_iff. exists (u, v). split; [reflexivity|]. apply EI'. exists i. exact H. }
  assert (Edge : forall i u v, in_stratum strata i u -> in_stratum strata (S i) v -> u < n /\ v < n).
  { intros i u v Hu Hv'. split; eapply stratum_bound; eauto. }
  exists K. refine (conj E (conj _ (conj _ (conj _ (conj In_vs (conj _ _)))))).
  - eapply of_range_reachable; [|exact E]. intros s H. apply (Hw s H).
  - intros s vs Hin Hne Hsub.
    assert (V : forall v, v < n -> has (by_index K) [v]).
    { intros v H. assert (Q : In [v] (map verts (by_index K))) by (apply In_vs; left; eauto). apply in_map_iff in Q. destruct Q as (t & Et & Ht). exists t. split; [auto|]. rewrite Et. intro; tauto. }
    assert (Single : forall v, In v vs -> (forall x, In x vs -> x = v) -> v < n -> has (by_index K) vs).
    { intros v Hin' Hall Hlt. destruct (V v Hlt) as (t & Ht & Hset). exists t. split; [auto|]. intro x. rewrite (Hset x). simpl. split; [intros [<-|[]]; auto|]. intro Hx. left. symmetry. auto. }
    pose proof (in_map verts _ _ Hin) as Q. apply In_vs in Q. destruct Q as [(v & Ev & H)|(i & u & v & Ev & Hi & Hu & Hv')].
    + rewrite Ev in Hsub. destruct vs as [|x vs]; [easy|]. assert (x = v) by (specialize (Hsub x (or_introl eq_refl)); simpl in Hsub; intuition). subst x.
      apply (Single v); [simpl; auto| |auto]. intros y Hy. specialize (Hsub y Hy). simpl in Hsub. intuition.
    + destruct (Edge i u v Hu Hv') as [Bu Bv]. rewrite Ev in Hsub.
      destruct (in_dec Nat.eq_dec u vs) as [Iu|Iu]; destruct (in_dec Nat.eq_dec v vs) as [Iv|Iv].
      * exists s. split; [auto|]. rewrite Ev. intro x. split; [|apply Hsub]. intros [<-|[<-|[]]]; auto.
      * apply (Single u); auto. intros x Hx. destruct (Hsub x Hx) as [<-|[<-|[]]]; [contradiction|reflexivity].
      * apply (Single v); auto. intros x Hx. destruct (Hsub x Hx) as [<-|[<-|[]]]; [reflexivity|contradiction].
      * destruct vs as [|x vs]; [easy|]. destruct (Hsub x (or_introl eq_refl)) as [<-|[<-|[]]]; exfalso; [apply Iv|apply Iu]; simpl; auto.
  - intros a b s t Ha Hb [Hsub Hns]. rewrite HI in Ha, Hb. unfold l in Ha, Hb.
    destruct (Nat.lt_ge_cases b n) as [Lb|Lb]; destruct (Nat.lt_ge_cases a n) as [La|La]; try lia.
    + rewrite nth_error_app1 in Ha by (rewrite map_length, seq_length; auto). rewrite nth_error_app1 in Hb by (rewrite map_length, seq_length; auto).
      apply nth_error_In, in_map_iff in Ha. apply nth_error_In, in_map_iff in Hb. destruct Ha as (x & <- & _). destruct Hb as (y & <- & _).
      cbn in Hsub, Hns. exfalso. apply Hns. intros z [<-|[]]. destruct (Hsub y (or_introl eq_refl)) as [<-|[]]. left. reflexivity.
    + exfalso. rewrite nth_error_app1 in Ha by (rewrite map_length, seq_length; auto). rewrite nth_error_app2 in Hb by (rewrite map_length, seq_length; auto).
      apply nth_error_In, in_map_iff in Ha. apply nth_error_In, in_numbered in Hb. destruct Ha as (x & <- & _). destruct Hb as (u & v & k & Hk & ->).
      rewrite edge_verts in Hsub by auto. cbn in Hsub. pose proof (Elt u v Hk) as Huv. pose proof (Hsub u ltac:(simpl; auto)) as Q1. pose proof (Hsub v ltac:(simpl; auto)) as Q2. cbn in Q1, Q2. clear - Q1 Q2 Huv. intuition lia.
    + exfalso. rewrite nth_error_app2 in Ha by (rewrite map_length, seq_length; auto). rewrite nth_error_app2 in Hb by (rewrite map_length, seq_length; auto).
      apply nth_error_In, in_numbered in Ha. apply nth_error_In, in_numbered in Hb. destruct Ha as (u & v & k & Hk & ->). destruct Hb as (u' & v' & k' & Hk' & ->).
      rewrite !edge_verts in Hsub by auto. rewrite !edge_verts in Hns by auto. cbn in Hsub, Hns. pose proof (Elt u v Hk). pose proof (Elt u' v' Hk').
      pose proof (Hsub u' ltac:(simpl; auto)) as Q1. pose proof (Hsub v' ltac:(simpl; auto)) as Q2. cbn in Q1, Q2.
      apply Hns. intros z Hz. cbn in Hz |- *. assert (u' = u /\ v' = v) as [-> ->] by (clear - Q1 Q2 H H0; intuition lia). exact Hz.
  - unfold k_size. rewrite HI. unfold l. rewrite app_length, map_length, seq_length. f_equal. rewrite <- EL. unfold stratified_edges. rewrite map_length, combine_length, seq_length. lia.
  - intros k s H. rewrite HI in H. unfold l in H. destruct (Nat.ltb_spec k n) as [Lk|Lk].
    + rewrite nth_error_app1 in H by (rewrite map_length, seq_length; auto). apply nth_error_In, in_map_iff in H. destruct H as (x & <- & _). reflexivity.
    + rewrite nth_error_app2 in H by (rewrite map_length, seq_length; auto). rewrite map_length, seq_length in H. unfold stratified_edges in H. rewrite numbered in H.
      destruct (nth_error edges (k - n)) as [[u v]|] eqn:Q; [|discriminate]. injection H as <-. reflexivity.
Qed.

Theorem C144_few_strata : forall draw strata, length strata <= 1 -> makeRandomStratifiedGraph draw strata = Throw RuntimeError.
Proof. intros draw strata H. unfold makeRandomStratifiedGraph. destruct (Nat.leb_spec (length strata) 1); [reflexivity|lia]. Qed.

(** vertices are numbers of 16 bits: larger graphs are not made as requested *)
Theorem C144_many_vertices_refuted : forall draw strata K s v, makeRandomStratifiedGraph draw strata = Ok K ->
  In s (by_index K) -> In v (verts s) -> (Z.of_nat v < 65536)%Z.
Proof.
  intros draw strata K s v E Hs Hv. unfold makeRandomStratifiedGraph in E. destruct (length strata <=? 1); [discriminate|].
  assert (B : forall z, (Z.of_nat (vertex_of z) < 65536)%Z).
  { intro z. unfold vertex_of. pose proof (Z.mod_pos_bound z 65536 ltac:(lia)). rewrite Z2Nat.id; lia. }
  assert (BE : forall strata o u v, In (u, v) (all_edges o strata) -> (Z.of_nat u < 65536 /\ Z.of_nat v < 65536)%Z).
  { clear - B. induction strata as [|s strata IH]; intros o u v H; [destruct H|]. destruct strata as [|t rest]; [destruct H|].
    cbn [all_edges] in H. apply in_app_or in H. destruct H as [H|H]; [|apply IH in H; exact H].
    unfold stratum_edges in H. apply in_flat_map in H. destruct H as (j & _ & H). apply in_map_iff in H. destruct H as (k & E & _). injection E as <- <-. split; apply B. }
  fold (stratified_edges draw (all_edges 0 strata)) in E.
  set (l := stratified_vertices strata ++ stratified_edges draw (all_edges 0 strata)) in *.
  assert (Hin : In s l).
  { revert E Hs. unfold k_of_range. destruct (k_insert k_empty l) as [K' r] eqn:EI. destruct r; try discriminate. intros E Hs. injection E as <-.
    assert (G : forall l K K' r, k_insert K l = (K', r) -> forall s, In s (by_index K') -> In s (by_index K) \/ In s l).
    { clear. induction l as [|t l IH]; intros K K' r E s H; cbn [k_insert] in E; [injection E as <- _; auto|].
      assert (P : forall s, In s (by_index (fst (k_push_back K t))) -> In s (by_index K) \/ s = t).
      { intros x Hx. unfold k_push_back in Hx. destruct (k_contains K t); cbn [fst] in Hx; [auto|]. destruct (s_dimension t); cbn [fst by_index] in Hx; auto; apply in_app_or in Hx; destruct Hx as [Hx|[<-|[]]]; auto. }
      destruct (k_push_back K t) as [K1 r1]; cbn [fst] in P. destruct r1; [apply (IH _ _ _ E) in H; destruct H as [H|H]; [apply P in H; destruct H as [H|H]; [auto|right; left; auto]|right; right; auto]| | |];
        injection E as <- _; apply P in H; destruct H as [H|H]; auto; right; left; auto. }
    destruct (G _ _ _ _ EI s Hs) as [[]|H]. exact H. }
  unfold l in Hin. apply in_app_or in Hin. destruct Hin as [H|H].
  - unfold stratified_vertices in H. apply in_map_iff in H. destruct H as (i & <- & _). destruct Hv as [<-|[]]. apply B.
  - apply in_numbered in H. destruct H as (a & b & k & H & ->). apply BE in H.
    assert (Q : In v [a; b]) by (apply simplex_of_In in Hv; exact Hv). destruct Q as [<-|[<-|[]]]; tauto.
Qed.

Definition three_strata : complex := mk [PushBack [0] 0; PushBack [1] 0; PushBack [2] 0; PushBack [0; 1] 5; PushBack [1; 2] 6].
Example C144_graph_example :
  makeRandomStratifiedGraph (fun n => Z.of_nat n + 5)%Z [1; 1; 1] = Ok three_strata /\
  (let* K := makeRandomStratifiedGraph (fun n => Z.of_nat n)%Z [2; 3] in Ok (map verts (by_index K))) =
  Ok [[0]; [1]; [2]; [3]; [4]; [2; 0]; [3; 0]; [4; 0]; [2; 1]; [3; 1]; [4; 1]].
Proof. split; reflexivity. Qed.

(** strata are connected to the next one only, though every stratum should be
    connected to every other one *)
Theorem C144_every_other_refuted : exists draw K, makeRandomStratifiedGraph draw [1; 1; 1] = Ok K /\
  in_stratum [1; 1; 1] 0 0 /\ in_stratum [1; 1; 1] 2 2 /\ ~ In [2; 0] (map verts (by_index K)).
Proof.
  exists (fun _ => 1%Z). eexists. split; [reflexivity|]. refine (conj _ (conj _ _)); [cbv; lia|cbv; lia|].
  cbn. intro H. repeat (destruct H as [H|H]; [discriminate|]). exact H.
Qed.

(** ** upper and lower filtrations *)
Definition sign_kept (upper : bool) (d : Z) : Prop := if upper then (0 < d)%Z else (d < 0)%Z.
Definition selected (upper : bool) (s : simplex) : list simplex :=
  if length (verts s) =? 1 then [Simplex (verts s) 0]
  else if upper then (if (0 <? data s)%Z then [s] else []) else (if (data s <? 0)%Z then [s] else []).

Lemma selected_step upper s : good s ->
  (if negb (no_part (reset_vertex (keep_sign upper s))) then [reset_vertex (keep_sign upper s)] else []) = selected upper s.
Proof.
  intros [Hw Hn]. assert (V : verts (keep_sign upper s) = verts s).
  { unfold keep_sign. destruct (_ || _); [reflexivity|]. apply simplex_of_id, Hw. }
  unfold selected, no_part, reset_vertex, sdim. rewrite V.
  destruct (verts s) as [|v [|u l]] eqn:E; [easy| |].
  - cbn. reflexivity.
  - cbn [length Nat.eqb Nat.sub]. rewrite V. cbn [length Nat.eqb Nat.sub negb andb]. unfold keep_sign. destruct upper; cbn [andb negb orb]; rewrite ?orb_false_r.
    + destruct (Z.ltb_spec 0 (data s)); [|reflexivity]. destruct (Z.eqb_spec (data s) 0); [lia|reflexivity].
    + destruct (Z.ltb_spec (data s) 0); [|reflexivity]. destruct (Z.eqb_spec (data s) 0); [lia|reflexivity].
Qed.

Lemma selected_all upper : forall l, (forall s, In s l -> good s) ->
  filter (fun s => negb (no_part s)) (map reset_vertex (map (keep_sign upper) l)) = flat_map (selected upper) l.
Proof.
  induction l as [|s l IH]; intro H; [reflexivity|]. cbn [map filter flat_map]. rewrite IH by (intros; apply H; simpl; auto).
  rewrite <- (selected_step upper s) by (apply H; simpl; auto). destruct (negb _); reflexivity.
Qed.

Lemma selected_in upper l s : In s (flat_map (selected upper) l) <->
  exists t, In t l /\ verts t = verts s /\
    if length (verts t) =? 1 then data s = 0%Z else s = t /\ sign_kept upper (data t).
Proof.
  rewrite in_flat_map. split.
  - intros (t & Ht & H). exists t. unfold selected in H. destruct (Nat.eqb_spec (length (verts t)) 1).
    + destruct H as [<-|[]]. auto.
    + unfold sign_kept. destruct upper; [destruct (Z.ltb_spec 0 (data t))|destruct (Z.ltb_spec (data t) 0)]; try destruct H as [<-|[]]; auto; destruct H.
  - intros (t & Ht & Hv & H). exists t. split; [auto|]. unfold selected. destruct (Nat.eqb_spec (length (verts t)) 1).
    + left. rewrite Hv. destruct s; cbn in *. rewrite H. reflexivity.
    + destruct H as [-> H]. unfold sign_kept in H. destruct upper; [destruct (Z.ltb_spec 0 (data t))|destruct (Z.ltb_spec (data t) 0)]; try lia; simpl; auto.
Qed.

Lemma selected_verts upper l : NoDup (map verts l) -> NoDup (map verts (flat_map (selected upper) l)).
Proof.
  induction l as [|s l IH]; intro H; [constructor|]. cbn [map] in H. apply NoDup_cons_iff in H. destruct H as [Hn H]. cbn [flat_map]. rewrite map_app.
  apply NoDup_app_disjoint; [|auto|].
  - unfold selected. destruct (_ =? 1); [repeat constructor; simpl; tauto|]. destruct upper; destruct (_ <? _)%Z; repeat constructor; simpl; tauto.
  - intros vs H1 H2. assert (E : vs = verts s).
    { unfold selected in H1. destruct (_ =? 1); [destruct H1 as [<-|[]]; reflexivity|]. destruct upper; destruct (_ <? _)%Z; try destruct H1 as [<-|[]]; try reflexivity; destruct H1. }
    subst vs. apply in_map_iff in H2. destruct H2 as (x & Ex & Hx). apply selected_in in Hx. destruct Hx as (t & Ht & Hv & _).
    apply Hn. rewrite <- Ex, <- Hv. apply in_map. exact Ht.
Qed.

(** the vertices, with weight zero, and the other simplices with a weight of the
    required sign, in their order *)
Theorem C144_filtration : forall K upper, reachable K ->
  exists L, makeFiltration K upper = Ok L /\ reachable L /\ by_index L = flat_map (selected upper) (by_index K).
Proof.
  intros K upper HR. pose proof (reachable_kwf K HR) as HK. unfold makeFiltration. rewrite (selected_all upper) by apply (kwf_good K HK).
  assert (Hg : forall s, In s (flat_map (selected upper) (by_index K)) -> good s).
  { intros s H. apply selected_in in H. destruct H as (t & Ht & Hv & _). destruct (kwf_good K HK t Ht) as [A B]. split; [unfold wf in *; rewrite <- Hv; auto|rewrite <- Hv; auto]. }
  destruct (of_range_new (flat_map (selected upper) (by_index K)) Hg) as (L & E & HL & HI); [apply selected_verts, kwf_nodup, HK|].
  exists L. refine (conj E (conj _ HI)). eapply of_range_reachable; [|exact E]. intros s H. apply (Hg s H).
Qed.

Lemma same_image {A B} (f : A -> B) : forall l x y, NoDup (map f l) -> In x l -> In y l -> f x = f y -> x = y.
Proof.
  induction l as [|a l IH]; intros x y ND Hx Hy E; [destruct Hx|]. cbn [map] in ND. apply NoDup_cons_iff in ND. destruct ND as [Hn ND].
  destruct Hx as [<-|Hx]; destruct Hy as [<-|Hy]; auto; exfalso; apply Hn; [rewrite E|rewrite <- E]; apply in_map; auto.
Qed.

Lemma subset_length vs ws : StronglySorted gt vs -> subset vs ws -> length vs <= length ws.
Proof.
  intros H. apply NoDup_incl_length. clear - H. induction H as [|x l Hl IH Ha]; constructor; auto. intro Hx. rewrite Forall_forall in Ha. specialize (Ha x Hx). lia.
Qed.

(** the lower filtration of a graph is in filtration order, by decreasing weights *)
Theorem C144_lower : forall K, reachable K -> (forall s, In s (by_index K) -> length (verts s) <= 2) ->
  exists L, makeLowerFiltration K = Ok L /\
    Permutation (by_index L) (flat_map (selected false) (by_index K)) /\ filtration_order (by_index L) /\
    forall i j s t, i < j -> nth_error (by_index L) i = Some s -> nth_error (by_index L) j = Some t -> (data t <= data s)%Z.
Proof.
  intros K HR HG. destruct (C144_filtration K false HR) as (L & E & HL & HI). unfold makeLowerFiltration. rewrite E. cbn [bind].
  exists (k_sort data_cmp_greater L). split; [reflexivity|].
  destruct (C08_data_filtration_descending L HL) as (P & F & S1).
  - pose proof (reachable_kwf L HL) as HkL. intros s t Hs Ht Hsub. pose proof Hs as Hs'. pose proof Ht as Ht'. rewrite HI in Hs, Ht.
    apply selected_in in Hs, Ht. destruct Hs as (s' & Is & Vs & Hs). destruct Ht as (t' & It & Vt & Ht).
    assert (A1 : forall x y, In x (by_index L) -> In y (by_index L) -> verts x = verts y -> x = y).
    { intros x y Hx Hy Exy. apply (same_image verts (by_index L)); auto. apply kwf_nodup, HkL. }
    destruct (kwf_good L HkL t Ht') as [Wt Nt]. destruct (kwf_good L HkL s Hs') as [Ws Ns]. pose proof (subset_length _ _ Wt Hsub) as LL.
    destruct (Nat.eqb_spec (length (verts t')) 1) as [L1|L1].
    + destruct (length (verts s') =? 1); [lia|]. destruct Hs as [-> Hs]. unfold sign_kept in Hs. lia.
    + destruct Ht as [-> Ht]. pose proof (HG _ It) as G1. destruct (verts t') as [|x [|y [|z l]]] eqn:Et; cbn in G1, L1; try lia; [easy|].
      pose proof (HG _ Is) as G2. rewrite Vs in G2. destruct (verts s) as [|x' [|y' [|z' l']]] eqn:Es; cbn [length] in LL, G2; try lia.
      assert (Q : verts s = verts t').
      { rewrite Es, Et. pose proof (Hsub x ltac:(simpl; auto)) as Q1. pose proof (Hsub y ltac:(simpl; auto)) as Q2. cbn in Q1, Q2.
        unfold wf in Wt, Ws. rewrite Et in Wt. rewrite Es in Ws. apply StronglySorted_inv in Wt. apply StronglySorted_inv in Ws. destruct Wt as [_ Wt]. destruct Ws as [_ Ws].
        apply Forall_inv in Wt. apply Forall_inv in Ws. assert (x = x' /\ y = y') as [-> ->] by (clear - Q1 Q2 Wt Ws; intuition lia). reflexivity. }
      rewrite (A1 s t' Hs' Ht' Q). lia.
  - rewrite HI in P. auto.
Qed.

Definition signed_graph : complex := mk [PushBack [0] 7; PushBack [1] 8; PushBack [2] 9; PushBack [0; 1] 4; PushBack [1; 2] (-3); PushBack [0; 2] (2)].
Example C144_filtration_example :
  (let* L := makeLowerFiltration signed_graph in Ok (by_index L)) = Ok [Simplex [0] 0; Simplex [1] 0; Simplex [2] 0; Simplex [2; 1] (-3)] /\
  (let* L := makeUpperFiltration signed_graph in Ok (by_index L)) = Ok [Simplex [0] 0; Simplex [1] 0; Simplex [2] 0; Simplex [1; 0] 4; Simplex [2; 0] 2].
Proof. split; reflexivity. Qed.

(** the upper filtration is not sorted: the sorted complex is discarded *)
Theorem C144_upper : forall K, reachable K ->
  exists L, makeUpperFiltration K = Ok L /\ by_index L = flat_map (selected true) (by_index K).
Proof.
  intros K HR. destruct (C144_filtration K true HR) as (L & E & _ & HI). unfold makeUpperFiltration. rewrite E. cbn [bind]. eauto.
Qed.

Theorem C144_upper_refuted : exists L, makeUpperFiltration signed_graph = Ok L /\
  ~ (forall i j s t, i < j -> nth_error (by_index L) i = Some s -> nth_error (by_index L) j = Some t -> (data s <= data t)%Z).
Proof.
  eexists. split; [reflexivity|]. intro H. specialize (H 3 4 _ _ ltac:(lia) eq_refl eq_refl). cbn in H. lia.
Qed.

(** ** merging two diagrams *)
Lemma add_points : forall l D, fold_left d_add l D = Diagram (dgm_dim D) (points D ++ l).
Proof. induction l as [|p l IH]; intros [d q]; cbn [fold_left]; [cbn; rewrite app_nil_r; reflexivity|]. rewrite IH. unfold d_add. cbn [dgm_dim points]. rewrite <- app_assoc. reflexivity. Qed.

Theorem C144_merge : forall D E, dgm_dim D = 0 -> dgm_dim E = 0 -> merge_diagrams D E = Ok (Diagram 0 (points D ++ points E)).
Proof. intros D E H _. unfold merge_diagrams. rewrite H. cbn [dgm_dim empty_diagram Nat.eqb negb]. rewrite add_points. reflexivity. Qed.

(** other dimensions than zero are refused, but different ones may be accepted *)
Theorem C144_merge_refuted : 
  (forall D E, dgm_dim D <> 0 -> merge_diagrams D E = Throw RuntimeError) /\
  (forall D E, dgm_dim D = 0 -> dgm_dim E <> 0 -> merge_diagrams D E = Ok (Diagram 0 (points D ++ points E))).
Proof.
  split; intros D E H; [|intros _]; unfold merge_diagrams; cbn [dgm_dim empty_diagram].
  - destruct (Nat.eqb_spec (dgm_dim D) 0); [contradiction|reflexivity].
  - rewrite H. cbn [Nat.eqb negb]. rewrite add_points. reflexivity.
Qed.

Example C144_merge_example :
  merge_diagrams (Diagram 0 [(1, 2)])%Z (Diagram 0 [(3, 4)])%Z = Ok (Diagram 0 [(1, 2); (3, 4)])%Z /\
  merge_diagrams (Diagram 1 [(1, 2)])%Z (Diagram 1 [(3, 4)])%Z = Throw RuntimeError /\
  merge_diagrams (Diagram 0 [(1, 2)])%Z (Diagram 1 [(3, 4)])%Z = Ok (Diagram 0 [(1, 2); (3, 4)])%Z.
Proof. repeat split; reflexivity. Qed.

Print Assumptions C144_graph.
Print Assumptions C144_few_strata.
Print Assumptions C144_many_vertices_refuted.
Print Assumptions C144_every_other_refuted.
Print Assumptions C144_filtration.
Print Assumptions C144_lower.
Print Assumptions C144_upper.
Print Assumptions C144_upper_refuted.
Print Assumptions C144_merge.
Print Assumptions C144_merge_refuted.
