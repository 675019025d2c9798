(** * Multi-scale skeletons (C172) *)
From Coq Require Import Reals List Arith Bool ZArith QArith Lia Lra Sorted Relations Permutation.
From Verif Require Import Base BaseFacts Simplex SimplexFacts SpecComplex Complex ComplexFacts Subcomplex SubcomplexFacts PairingFacts PropertiesVietorisRips History PropertiesComplex
  SpecComponents DualFacts SpecLaplacian Laplacian PropertiesLaplacian BetaSkeleton SpecBeta PropertiesBeta HeatKernel PropertiesHeat MultiScale.
Import ListNotations.
Local Open Scope nat_scope.

(** ** Scales *)
(** [s] is an edge at [v] *)
Definition touches (v : nat) (s : simplex) : bool := (length (verts s) =? 2) && existsb (Nat.eqb v) (verts s).
Definition sumZ (l : list Z) : Z := fold_right Z.add 0%Z l.
Lemma sumZ_app a b : sumZ (a ++ b) = (sumZ a + sumZ b)%Z.
Proof. unfold sumZ. induction a as [|x a IH]; cbn; [reflexivity|]. rewrite IH. lia. Qed.

Section Scales.
  Variable K : complex.
  Hypothesis HR : reachable K.
  Hypothesis HE : edges_have_ends K.
  Let vs := k_vertices K.
  Let n := length vs.
  Definition counted (l : list simplex) (st : list Z * list Z) : Prop :=
    length (fst st) = n /\ length (snd st) = n /\ forall i, i < n ->
      nth i (fst st) 0%Z = Z.of_nat (length (filter (touches (nth i vs 0)) l)) /\
      nth i (snd st) 0%Z = sumZ (map data (filter (touches (nth i vs 0)) l)).

  Lemma get_nth {A} (l : list A) i d : i < length l -> get_ l i = Ok (nth i l d).
  Proof. intro H. unfold get_. rewrite (nth_error_nth' l d H). reflexivity. Qed.

  Lemma step_counted pre s st : In s (by_index K) -> counted pre st -> exists st', scale_step K st s = Ok st' /\ counted (pre ++ [s]) st'.
  Proof.
    intros Hs (L1 & L2 & H). destruct st as [degree sums]. cbn [fst snd] in *. unfold scale_step.
    pose proof (reachable_kwf K HR) as HK. destruct (kwf_good K HK s Hs) as [Hwf Hne].
    assert (ND : NoDup vs) by (apply vertices_NoDup; exact HK).
    destruct (Nat.eqb_spec (sdim s) 1) as [E|E]; cbn [negb].
    - unfold sdim in E. assert (Hl : length (verts s) = 2) by (destruct (verts s); [congruence|cbn in *; lia]).
      destruct (verts s) as [|u [|v [|]]] eqn:Ev; try discriminate Hl.
      assert (Huv : u <> v). { unfold wf in Hwf. rewrite Ev in Hwf. apply SSgt_NoDup in Hwf. inversion Hwf as [|? ? N _]; subst. intros ->. apply N. left. reflexivity. }
      destruct (vertex_index_ok K u) as (i & Ei & Li & Ni); [apply (HE s u Hs); rewrite Ev; [reflexivity|left; reflexivity]|].
      destruct (vertex_index_ok K v) as (j & Ej & Lj & Nj); [apply (HE s v Hs); rewrite Ev; [reflexivity|right; left; reflexivity]|].
      fold vs in Li, Lj, Ni, Nj. fold n in Li, Lj.
      assert (Hij : i <> j) by (intros ->; congruence).
      unfold s_nth, at_. rewrite Ev. cbn [nth_error bind]. rewrite Ei. cbn [bind]. rewrite Ej. cbn [bind].
      rewrite (get_nth degree i 0%Z) by lia. cbn [bind]. rewrite (get_nth _ j 0%Z) by (rewrite upd_length; lia). cbn [bind].
      rewrite (get_nth sums i 0%Z) by lia. cbn [bind]. rewrite (get_nth _ j 0%Z) by (rewrite upd_length; lia). cbn [bind].
      eexists. split; [reflexivity|]. unfold counted. cbn [fst snd]. rewrite !upd_length. split; [exact L1|]. split; [exact L2|].
      intros k Hk. destruct (H k Hk) as [H1 H2]. rewrite filter_app, app_length, map_app, sumZ_app, <- H2.
      assert (T : touches (nth k vs 0) s = (k =? i) || (k =? j)).
      { unfold touches. rewrite Ev. cbn [length Nat.eqb andb existsb]. rewrite orb_false_r.
        assert (G : forall a w, a < n -> nth a vs 0 = w -> (nth k vs 0 =? w) = (k =? a)).
        { intros a w La <-. destruct (Nat.eqb_spec k a) as [->|Hne']; [apply Nat.eqb_refl|]. apply Nat.eqb_neq. intro X. apply Hne'. apply (proj1 (NoDup_nth vs 0) ND); assumption. }
        rewrite (G i u Li Ni), (G j v Lj Nj). reflexivity. }
      cbn [filter]. rewrite T. rewrite !DualFacts.nth_upd, !upd_length, L1, L2. destruct (Nat.ltb_spec i n); [|lia]. destruct (Nat.ltb_spec j n); [|lia]. rewrite !andb_true_r.
      destruct (Nat.eqb_spec k i) as [Ki|Ki]; destruct (Nat.eqb_spec k j) as [Kj|Kj]; try congruence; cbn [orb andb length map sumZ fold_right].
      + subst k. split; [rewrite H1; lia|rewrite Z.add_0_r; reflexivity].
      + subst k. destruct (Nat.eqb_spec j i); [congruence|]. split; [rewrite H1; lia|rewrite Z.add_0_r; reflexivity].
      + split; [rewrite H1; lia|rewrite Z.add_0_r; reflexivity].
    - eexists. split; [reflexivity|]. unfold counted. cbn [fst snd]. split; [exact L1|]. split; [exact L2|]. intros k Hk. destruct (H k Hk) as [H1 H2].
      assert (T : touches (nth k vs 0) s = false). { unfold touches. apply andb_false_iff. left. apply Nat.eqb_neq. intro X. apply E. unfold sdim. rewrite X. reflexivity. }
      rewrite filter_app. cbn [filter]. rewrite T, app_nil_r. auto.
  Qed.

  Lemma steps_counted : forall l pre st, incl l (by_index K) -> counted pre st -> exists st', foldM (scale_step K) l st = Ok st' /\ counted (pre ++ l) st'.
  Proof.
    induction l as [|s l IH]; intros pre st Hl Hc; [exists st; rewrite app_nil_r; auto|]. destruct (step_counted pre s st (Hl s (or_introl eq_refl)) Hc) as (st1 & E1 & C1). cbn [foldM]. rewrite E1. cbn [bind].
    destruct (IH (pre ++ [s]) st1 (fun x H => Hl x (or_intror H)) C1) as (st2 & E2 & C2). exists st2. split; [exact E2|]. rewrite <- app_assoc in C2. exact C2.
  Qed.
End Scales.

(** The scale of a vertex is the mean weight of its edges, and not finite without edges. *)
Theorem C172_scales : forall K, reachable K -> edges_have_ends K -> exists scales, estimateScales K = Ok scales /\ length scales = length (k_vertices K) /\
  forall i v, nth_error (k_vertices K) i = Some v -> let es := filter (touches v) (by_index K) in
    nth_error scales i = Some (if length es =? 0 then None else Some (IZR (sumZ (map data es)) / INR (length es))%R).
Proof.
  intros K HR HE. set (n := length (k_vertices K)).
  destruct (steps_counted K HR HE (by_index K) [] (repeat 0%Z n, repeat 0%Z n)) as ([degree sums] & E & L1 & L2 & H).
  { intros s Hs. exact Hs. }
  { unfold counted. cbn [fst snd filter length map sumZ fold_right]. rewrite !repeat_length. split; [reflexivity|]. split; [reflexivity|]. intros i Hi. rewrite !nth_repeat. split; reflexivity. }
  cbn [app fst snd] in *. fold n in L1, L2, H.
  set (g := fun i => divR (IZR (nth i sums 0%Z)) (IZR (nth i degree 0%Z))).
  assert (G : forall l acc, (forall i, In i l -> i < n) -> foldM (fun scales i => let* s := get_ sums i in let* d := get_ degree i in Ok (scales ++ [divR (IZR s) (IZR d)])) l acc = Ok (acc ++ map g l)).
  { induction l as [|i l IH]; intros acc Hl; [cbn; rewrite app_nil_r; reflexivity|]. cbn [foldM]. assert (Hi : i < n) by (apply Hl; left; reflexivity). rewrite (get_nth sums i 0%Z) by lia. cbn [bind]. rewrite (get_nth degree i 0%Z) by lia. cbn [bind].
    rewrite IH by (intros k Hk; apply Hl; right; exact Hk). rewrite <- app_assoc. reflexivity. }
  exists (map g (seq 0 n)). split; [|split].
  - unfold estimateScales. fold n. rewrite E. cbn [bind]. rewrite G by (intros i Hi; apply in_seq in Hi; lia). reflexivity.
  - rewrite map_length, seq_length. reflexivity.
  - intros i v Hv. set (es := filter (touches v) (by_index K)). assert (Hi : i < n) by (apply nth_error_Some; fold n; congruence). assert (Ev : nth i (k_vertices K) 0 = v) by (apply nth_error_nth; exact Hv).
    destruct (H i Hi) as [H1 H2]. rewrite Ev in H1, H2. fold es in H1, H2.
    assert (Es : nth_error (seq 0 n) i = Some i) by (rewrite (nth_error_nth' _ 0) by (rewrite seq_length; exact Hi); rewrite seq_nth by exact Hi; reflexivity).
    rewrite nth_error_map, Es. cbn [option_map]. f_equal. unfold g. rewrite H1, H2. unfold divR. rewrite <- INR_IZR_INZ. destruct (Nat.eqb_spec (length es) 0) as [Z0|Z0].
    + rewrite Z0. cbn [INR]. destruct (Req_EM_T 0 0); [reflexivity|congruence].
    + destruct (Req_EM_T (INR (length es)) 0) as [X|X]; [|reflexivity]. exfalso. apply Z0. apply INR_eq. exact X.
Qed.

(** ** Output *)
(** no other point is in the ball whose diameter is the segment between the points [i] and [j] *)
Definition gabriel (d : nat) (X : list (list Z)) (i j : nat) : Prop := i < length X /\ j < length X /\ i <> j /\
  forall r, r < length X -> r <> i -> r <> j ->
    (sqd d (nth i X []) (nth j X []) < sqd d (nth i X []) (nth r X []) + sqd d (nth j X []) (nth r X []))%Z.

Lemma gabriel_edge d X i j : gabriel d X i j <-> beta_edge d (sqd d) 1 X i j \/ beta_edge d (sqd d) 1 X j i.
Proof.
  rewrite !C102_gabriel. unfold gabriel. split.
  - intros (Hi & Hj & Hne & H). destruct (Nat.lt_total i j) as [L|[L|L]]; [left|contradiction|right]; (split; [lia|]); intros r Hr N1 N2; [apply H; assumption|].
    rewrite (sqd_sym d (nth j X []) (nth i X [])). specialize (H r Hr N2 N1). lia.
  - intros [[L H]|[L H]]; (split; [lia|split; [lia|split; [lia|]]]); intros r Hr N1 N2; [apply H; assumption|].
    rewrite (sqd_sym d (nth i X []) (nth j X [])). specialize (H r Hr N2 N1). lia.
Qed.

(** the skeleton, with distances as weights *)
Definition is_skeleton (root : Z -> Z) (d : nat) (X : list (list Z)) (K : complex) (es : list (nat * nat)) : Prop :=
  by_index K = map (fun i => Simplex [i] 0%Z) (seq 0 (length X)) ++ map (fun e => Simplex [snd e; fst e] (root (sqd d (nth (fst e) X []) (nth (snd e) X [])))) es /\
  StronglySorted edge_before es /\ forall i j, In (i, j) es <-> beta_edge d (sqd d) 1 X i j.
Lemma skeleton_exists root d X : Forall (fun p => length p = d) X ->
  exists K es, buildBetaSkeletonNaive euclidean_sq X 1 = Ok K /\ reachable (with_distances root K) /\ is_skeleton root d X (with_distances root K) es.
Proof.
  intro HX. destruct (C101_skeleton d euclidean_sq 1 X HX) as (K & es & EK & RK & HK). apply C102_euclidean in HK; [|exact HX]. exists K, es. split; [exact EK|]. destruct HK as (E & S & I). unfold with_distances.
  pose proof (reachable_kwf K RK) as WK. set (f := fun s => if sdim s =? 1 then set_data s (root (data s)) else s). assert (Vf : forall s, verts (f s) = verts s) by (intro s; unfold f; destruct (sdim s =? 1); reflexivity).
  assert (HG : forall s, In s (map f (by_index K)) -> good s). { intros s Hs. apply in_map_iff in Hs. destruct Hs as (t & <- & Ht). destruct (kwf_good K WK t Ht) as [A B]. split; [unfold wf; rewrite Vf; exact A|rewrite Vf; exact B]. }
  assert (HN : NoDup (map verts (map f (by_index K)))). { rewrite map_map. rewrite (map_ext _ verts) by exact Vf. apply kwf_nodup. exact WK. }
  destruct (push_all_new (map f (by_index K)) k_empty) as [P1 P2]; [apply empty_kwf|exact HG|exact HN|]. split.
  - assert (R : forall l K, reachable K -> (forall s, In s l -> good s) -> reachable (push_all K l)).
    { clear. induction l as [|s l IH]; intros K RK H; [exact RK|]. unfold push_all. cbn [fold_left]. fold (push_all (fst (k_push_back K s)) l). apply IH; [|intros; apply H; simpl; auto].
      apply push_reachable; [exact RK|]. apply H. simpl; auto. }
    apply R; [apply empty_reachable|exact HG].
  - refine (conj _ (conj S I)). rewrite P2. cbn [by_index k_empty app]. rewrite E, map_app, !map_map. reflexivity.
Qed.

Section Skeleton.
  Variables (root : Z -> Z) (d : nat) (X : list (list Z)) (K : complex) (es : list (nat * nat)).
  Hypothesis HX : Forall (fun p => length p = d) X.
  Hypothesis HR : reachable K.
  Hypothesis HK : is_skeleton root d X K es.
  Hypothesis Hroot : forall x, (0 <= x)%Z -> (0 <= root x)%Z.
  Let edge (e : nat * nat) := Simplex [snd e; fst e] (root (sqd d (nth (fst e) X []) (nth (snd e) X []))).

  Lemma skeleton_in s : In s (by_index K) <-> (exists i, i < length X /\ s = Simplex [i] 0%Z) \/ exists e, In e es /\ s = edge e.
  Proof.
    destruct HK as (E & _). rewrite E, in_app_iff, !in_map_iff. split.
    - intros [(i & <- & H)|(e & <- & H)]; [left; exists i; apply in_seq in H; split; [lia|reflexivity]|right; exists e; auto].
    - intros [(i & H & ->)|(e & H & ->)]; [left; exists i; split; [reflexivity|apply in_seq; lia]|right; exists e; auto].
  Qed.
  Lemma skeleton_edge i j : In (i, j) es -> i < j < length X.
  Proof. intro H. apply (proj2 (proj2 HK)) in H. apply H. Qed.
  Lemma skeleton_vertices : k_vertices K = seq 0 (length X).
  Proof.
    destruct (vertices_spec K (reachable_kwf _ HR)) as [S V]. apply SSlt_ext; [exact S|apply RepFacts.seq_sorted|]. intro v. rewrite V, in_seq. split.
    - intros (s & Hs & Hv). apply skeleton_in in Hs. destruct Hs as [(i & Hi & ->)|([i j] & He & ->)]; [|discriminate Hv]. injection Hv as <-. lia.
    - intros [_ H]. exists (Simplex [v] 0%Z). split; [apply skeleton_in; left; exists v; split; [lia|reflexivity]|reflexivity].
  Qed.
  Lemma skeleton_ends : edges_have_ends K.
  Proof.
    intros s v Hs _ Hv. rewrite skeleton_vertices. apply in_seq. apply skeleton_in in Hs. destruct Hs as [(i & Hi & ->)|([i j] & He & ->)]; cbn in Hv; [destruct Hv as [<-|[]]; lia|]. apply skeleton_edge in He. destruct Hv as [<-|[<-|[]]]; lia.
  Qed.
  Lemma skeleton_nonneg : nonneg_edges K.
  Proof. intros s Hs _. apply skeleton_in in Hs. destruct Hs as [(i & Hi & ->)|(e & He & ->)]; [apply Z.le_refl|apply Hroot, sqd_nonneg]. Qed.

  Let at_v (v : nat) (e : nat * nat) := (v =? snd e) || (v =? fst e).
  Let other (v : nat) (e : nat * nat) := if v =? fst e then snd e else fst e.
  Lemma touching v : filter (touches v) (by_index K) = map edge (filter (at_v v) es).
  Proof.
    destruct HK as (E & _). rewrite E, filter_app.
    assert (F : forall l, filter (touches v) (map (fun i => Simplex [i] 0%Z) l) = []). { induction l as [|a l IH]; [reflexivity|]. cbn [map filter]. change (touches v (Simplex [a] 0%Z)) with false. exact IH. }
    rewrite F. cbn [app]. fold edge. clear E F. generalize es as m. induction m as [|e l IH]; [reflexivity|]. cbn [map filter]. assert (T : touches v (edge e) = at_v v e). { unfold touches, at_v, edge. cbn [verts length Nat.eqb existsb andb]. rewrite orb_false_r. reflexivity. }
    rewrite T. destruct (at_v v e); cbn [map]; [f_equal|]; exact IH.
  Qed.
  Lemma neighbours v : v < length X -> exists nb, NoDup nb /\ (forall j, In j nb <-> gabriel d X v j) /\
    length (filter (touches v) (by_index K)) = length nb /\ map data (filter (touches v) (by_index K)) = map (fun j => root (sqd d (nth v X []) (nth j X []))) nb.
  Proof.
    intro Hv. exists (map (other v) (filter (at_v v) es)). rewrite touching, !map_length, !map_map. destruct HK as (_ & S & I). split; [|split; [|split; [reflexivity|]]].
    - apply edge_before_irrefl in S.
      assert (J : forall l, incl l es -> NoDup l -> NoDup (map (other v) (filter (at_v v) l))).
      { induction l as [|[a b] l IH]; intros Hl ND; [constructor|]. inversion ND as [|? ? N1 N2]; subst. specialize (IH (fun x H => Hl x (or_intror H)) N2). cbn [filter]. destruct (at_v v (a, b)) eqn:A; [|exact IH]. cbn [map]. constructor; [|exact IH].
        intro Hin. apply in_map_iff in Hin. destruct Hin as ([a' b'] & Ho & Hf). apply filter_In in Hf. destruct Hf as [Hf A']. apply N1. pose proof (skeleton_edge a b (Hl _ (or_introl eq_refl))). pose proof (skeleton_edge a' b' (Hl _ (or_intror Hf))).
        unfold at_v in A, A'. cbn [fst snd] in A, A'. unfold other in Ho. cbn [fst snd] in Ho. apply orb_prop in A, A'. rewrite !Nat.eqb_eq in A, A'. destruct (Nat.eqb_spec v a), (Nat.eqb_spec v a'); replace a with a' by lia; replace b with b' by lia; exact Hf. }
      apply J; [apply incl_refl|exact S].
    - intro j. rewrite gabriel_edge, <- !I, in_map_iff. unfold other, at_v. split.
      + intros ([a b] & Ho & Hf). apply filter_In in Hf. cbn [fst snd] in *. destruct Hf as [Hf A]. apply orb_prop in A. rewrite !Nat.eqb_eq in A. destruct (Nat.eqb_spec v a); subst; [left; exact Hf|]. destruct A as [->|A]; [right; exact Hf|congruence].
      + intros [H|H]; [exists (v, j)|exists (j, v)]; rewrite filter_In; cbn [fst snd]; rewrite !Nat.eqb_refl; cbn [orb]; rewrite ?orb_true_r; (split; [|split; [exact H|reflexivity]]); [reflexivity|].
        apply skeleton_edge in H. destruct (Nat.eqb_spec v j); [lia|reflexivity].
    - apply map_ext_in. intros [a b] H. apply filter_In in H. destruct H as [_ A]. unfold at_v in A. unfold edge, other. cbn [fst snd data] in *. apply orb_prop in A. rewrite !Nat.eqb_eq in A. destruct (Nat.eqb_spec v a) as [->|N]; [reflexivity|]. destruct A as [->|A]; [rewrite sqd_sym; reflexivity|congruence].
  Qed.
  (** A nearest point is a neighbour. *)
  Lemma has_neighbour v : NoDup X -> 2 <= length X -> v < length X -> exists j, gabriel d X v j.
  Proof.
    intros ND H2 Hv. set (f := fun j => sqd d (nth v X []) (nth j X [])).
    assert (M : forall l : list nat, l <> [] -> exists j, In j l /\ forall r, In r l -> (f j <= f r)%Z).
    { induction l as [|a l IH]; intro Hl; [contradiction|]. destruct l as [|b l]; [exists a; split; [left; reflexivity|intros r [->|[]]; lia]|].
      destruct (IH ltac:(discriminate)) as (j & Hj & Hm). destruct (Z.le_gt_cases (f a) (f j)) as [L|L]; [exists a; split; [left; reflexivity|]|exists j; split; [right; exact Hj|]]; intros r [<-|Hr]; try lia; specialize (Hm r Hr); lia. }
    destruct (M (filter (fun j => negb (j =? v)) (seq 0 (length X)))) as (j & Hj & Hm).
    { intro E. set (w := if v =? 0 then 1 else 0). assert (Hw : In w (filter (fun j => negb (j =? v)) (seq 0 (length X)))); [|rewrite E in Hw; destruct Hw].
      apply filter_In. unfold w. destruct (Nat.eqb_spec v 0) as [->|N]; (split; [apply in_seq; lia|]); [reflexivity|]. apply negb_true_iff, Nat.eqb_neq. congruence. }
    apply filter_In in Hj. destruct Hj as [Hj Nj]. apply in_seq in Hj. apply negb_true_iff, Nat.eqb_neq in Nj. exists j. split; [exact Hv|]. split; [lia|]. split; [congruence|].
    intros r Hr N1 N2. assert (Hle : (f j <= f r)%Z). { apply Hm. apply filter_In. split; [apply in_seq; lia|]. apply negb_true_iff, Nat.eqb_neq. congruence. }
    unfold f in Hle. pose proof (sqd_nonneg d (nth j X []) (nth r X [])) as P. assert (P' : sqd d (nth j X []) (nth r X []) <> 0%Z); [|lia].
    intro Z0. rewrite Forall_forall in HX. apply sqd_zero in Z0; [|apply HX, nth_In; lia|apply HX, nth_In; lia]. apply (proj1 (NoDup_nth X []) ND) in Z0; lia.
  Qed.
End Skeleton.

Lemma blocks_map {A B C} (f : A -> B -> outcome C) (g : A -> B -> C) bs : forall ts acc, (forall t b, In b bs -> f t b = Ok (g t b)) ->
  foldM (fun blocks t => let* block := foldM (fun lines b => let* l := f t b in Ok (lines ++ [l])) bs [] in Ok (blocks ++ [block])) ts acc = Ok (acc ++ map (fun t => map (g t) bs) ts).
Proof.
  assert (L : forall t l acc, (forall b, In b l -> f t b = Ok (g t b)) -> foldM (fun lines b => let* x := f t b in Ok (lines ++ [x])) l acc = Ok (acc ++ map (g t) l)).
  { intros t. induction l as [|b l IH]; intros acc H; [cbn; rewrite app_nil_r; reflexivity|]. cbn [foldM]. rewrite (H b) by (left; reflexivity). cbn [bind]. rewrite IH by (intros b' Hb; apply H; right; exact Hb). rewrite <- app_assoc. reflexivity. }
  induction ts as [|t ts IH]; intros acc H; [cbn; rewrite app_nil_r; reflexivity|]. cbn [foldM]. rewrite L by (intros b Hb; apply H; exact Hb). cbn [bind app]. rewrite IH by exact H. rewrite <- app_assoc. reflexivity.
Qed.

(** Both outputs list the same values, which start with the mean distance to the neighbours, change with
    the solution of the heat equation of the skeleton, and never increase. *)
Theorem C172_output : forall root solver d X, (forall x, (0 <= x)%Z -> (0 <= root x)%Z) -> (forall x, (0 < x)%Z -> (0 < root x)%Z) -> 2 <= d -> Forall (fun p => length p = d) X -> NoDup X -> 2 <= length X ->
  (forall K, buildBetaSkeletonNaive euclidean_sq X 1 = Ok K -> decomposes solver (with_distances root K)) ->
  exists value : nat -> R -> R,
    let ts := [0; 1 / 1000; 1 / 100; 1 / 10; 1 / 2; 1; 9]%R in
    multi_scale_skeleton root solver X = Ok
      (map (fun t => map (fun i => (i, Some (value i t))) (seq 0 (length X))) ts,
       map (fun t => map (fun i => (nth 0 (nth i X []) 0%Z, nth 1 (nth i X []) 0%Z, Some (value i t))) (seq 0 (length X))) ts) /\
    (exists K L (H : nat -> nat -> R -> R), buildBetaSkeletonNaive euclidean_sq X 1 = Ok K /\ weightedLaplacianMatrix (with_distances root K) = Ok L /\
      forall i j, i < length X -> j < length X -> H i j 0%R = (if i =? j then 1 else 0)%R /\
        (forall t, derivable_pt_lim (fun x => H i j x) t (- sumR (length X) (fun m => IZR (ent L i m) * H m j t))%R) /\
        forall t, value i t = (value i 0 * H i i t)%R) /\
    forall i, i < length X ->
      (exists nb, nb <> [] /\ NoDup nb /\ (forall j, In j nb <-> gabriel d X i j) /\
        value i 0%R = (IZR (sumZ (map (fun j => root (sqd d (nth i X []) (nth j X []))) nb)) / INR (length nb))%R) /\
      forall s t, (0 <= s)%R -> (s <= t)%R -> (0 < value i t <= value i s)%R.
Proof.
  intros root solver d X Hr0 Hr1 Hd HX ND H2 HD. destruct (skeleton_exists root d X HX) as (K' & es & EK & RK & HK).
  specialize (HD K' EK). set (K := with_distances root K') in *. pose proof (skeleton_ends root d X K es RK HK) as HE. pose proof (skeleton_nonneg root d X K es HK Hr0) as HN. pose proof (skeleton_vertices root d X K es RK HK) as HV.
  destruct (C172_scales K RK HE) as (scales & ES & LS & VS). rewrite HV, seq_length in LS. rewrite HV in VS.
  destruct (C106_heat solver K RK HE HD) as (L & h & H & EL & EH & _ & HA & H0 & HD' & _). rewrite HV, seq_length in HA, H0, HD'.
  destruct (C106_spectrum solver K RK HE HN HD) as (h' & EH' & _ & _ & _ & MO). rewrite EH in EH'. injection EH' as <-. rewrite HV, seq_length in MO.
  set (mean := fun i => let l := filter (touches i) (by_index K) in (IZR (sumZ (map data l)) / INR (length l))%R).
  assert (NB : forall i, i < length X -> exists nb, nb <> [] /\ NoDup nb /\ (forall j, In j nb <-> gabriel d X i j) /\ length (filter (touches i) (by_index K)) = length nb /\ map data (filter (touches i) (by_index K)) = map (fun j => root (sqd d (nth i X []) (nth j X []))) nb).
  { intros i Hi. destruct (neighbours root d X K es HK i Hi) as (nb & N1 & N2 & N3 & N4). exists nb. split; [|auto]. destruct (has_neighbour d X HX i ND H2 Hi) as (j & Hj). apply N2 in Hj. intros ->. destruct Hj. }
  assert (SC : forall i, i < length X -> nth_error scales i = Some (Some (mean i))).
  { intros i Hi. rewrite (VS i i) by (rewrite (nth_error_nth' _ 0) by (rewrite seq_length; exact Hi); rewrite seq_nth by exact Hi; reflexivity). destruct (NB i Hi) as (nb & N0 & _ & _ & N3 & _). destruct (Nat.eqb_spec (length (filter (touches i) (by_index K))) 0) as [Z0|Z0]; [|reflexivity].
    rewrite N3 in Z0. destruct nb; [congruence|discriminate]. }
  assert (LI : forall t i, i < length X -> scale_line h scales t i = Ok (i, Some (mean i * H i i t)%R)).
  { intros t i Hi. unfold scale_line, at_. rewrite (SC i Hi). cbn [bind]. rewrite (HA i t Hi). reflexivity. }
  exists (fun i t => (mean i * H i i t)%R). intros ts. split; [|split].
  - unfold multi_scale_skeleton. rewrite EK. cbn [bind]. fold K. cbv zeta. rewrite ES. cbn [bind]. rewrite EH. cbn [bind]. unfold scale_blocks.
    rewrite (blocks_map (scale_line h scales) (fun t i => (i, Some (mean i * H i i t)%R))) by (intros t i Hi; apply LI; apply in_seq in Hi; lia). cbn [bind app]. unfold plot_blocks.
    assert (P : forall a b, a = b -> foldM (fun blocks t => let* block := foldM (fun lines i => let* p := get_ X i in let* x := get_ p 0 in let* y := get_ p 1 in let* l := scale_line h scales t i in Ok (lines ++ [(x, y, snd l)])) (seq 0 (length scales)) [] in Ok (blocks ++ [block])) times a =
      foldM (fun blocks t => let* block := foldM (fun lines i => let* l := (let* p := get_ X i in let* x := get_ p 0 in let* y := get_ p 1 in let* l := scale_line h scales t i in Ok (x, y, snd l)) in Ok (lines ++ [l])) (seq 0 (length scales)) [] in Ok (blocks ++ [block])) times b).
    { assert (G : forall t l acc, foldM (fun lines i => let* p := get_ X i in let* x := get_ p 0 in let* y := get_ p 1 in let* l := scale_line h scales t i in Ok (lines ++ [(x, y, snd l)])) l acc = foldM (fun lines i => let* l := (let* p := get_ X i in let* x := get_ p 0 in let* y := get_ p 1 in let* l := scale_line h scales t i in Ok (x, y, snd l)) in Ok (lines ++ [l])) l acc).
      { intros t. induction l as [|i l IH]; intro acc; [reflexivity|]. cbn [foldM]. destruct (get_ X i) as [p| | |]; cbn [bind]; try reflexivity. destruct (get_ p 0) as [x| | |]; cbn [bind]; try reflexivity. destruct (get_ p 1) as [y| | |]; cbn [bind]; try reflexivity. destruct (scale_line h scales t i) as [z| | |]; cbn [bind]; try reflexivity. apply IH. }
      intros a b <-. revert a. induction times as [|t l IH]; intro a; [reflexivity|]. cbn [foldM]. rewrite G. destruct (foldM _ (seq 0 (length scales)) []) as [z| | |]; cbn [bind]; try reflexivity. apply IH. }
    rewrite (P [] [] eq_refl). rewrite (blocks_map _ (fun t i => (nth 0 (nth i X []) 0%Z, nth 1 (nth i X []) 0%Z, Some (mean i * H i i t)%R))).
    + cbn [bind app]. rewrite LS. reflexivity.
    + intros t i Hi. apply in_seq in Hi. rewrite LS in Hi. assert (Lp : length (nth i X []) = d) by (rewrite Forall_forall in HX; apply HX, nth_In; lia). rewrite (get_nth X i []) by lia. cbn [bind]. rewrite (get_nth _ 0 0%Z) by lia. cbn [bind]. rewrite (get_nth _ 1 0%Z) by lia. cbn [bind]. rewrite LI by lia. reflexivity.
  - exists K', L, H. split; [exact EK|]. split; [exact EL|]. intros i j Hi Hj. split; [apply H0; assumption|]. split; [intro t; apply HD'; assumption|]. intro t. rewrite (H0 i i Hi Hi), Nat.eqb_refl. ring.
  - intros i Hi. destruct (NB i Hi) as (nb & N0 & N1 & N2 & N3 & N4). assert (Em : mean i = (IZR (sumZ (map (fun j => root (sqd d (nth i X []) (nth j X []))) nb)) / INR (length nb))%R) by (unfold mean; cbv zeta; rewrite N3, N4; reflexivity).
    split; [exists nb; split; [exact N0|split; [exact N1|split; [exact N2|]]]|].
    + rewrite (H0 i i Hi Hi), Nat.eqb_refl, Em. ring.
    + assert (Pm : (0 < mean i)%R).
      { rewrite Em. apply Rdiv_lt_0_compat; [|apply lt_0_INR; destruct nb; [congruence|cbn; lia]]. apply IZR_lt.
        assert (Q : forall l, (forall j, In j l -> In j nb) -> l <> [] -> (0 < sumZ (map (fun j => root (sqd d (nth i X []) (nth j X []))) l))%Z).
        { assert (P : forall j, In j nb -> (0 < root (sqd d (nth i X []) (nth j X [])))%Z).
          { intros j Hj. apply Hr1. apply N2 in Hj. destruct Hj as (_ & Lj & Nj & _). pose proof (sqd_nonneg d (nth i X []) (nth j X [])) as P. assert (P' : sqd d (nth i X []) (nth j X []) <> 0%Z); [|lia].
            intro Z0. rewrite Forall_forall in HX. apply sqd_zero in Z0; [|apply HX, nth_In; lia|apply HX, nth_In; lia]. apply (proj1 (NoDup_nth X []) ND) in Z0; lia. }
          induction l as [|a l IH]; intros Hl Ne; [contradiction|]. cbn [map]. change (sumZ (?x :: ?y)) with (x + sumZ y)%Z. unfold sumZ. cbn [fold_right]. fold (sumZ (map (fun j => root (sqd d (nth i X []) (nth j X []))) l)). specialize (P a (Hl a (or_introl eq_refl))). destruct l as [|b l]; [cbn; lia|]. specialize (IH (fun j H => Hl j (or_intror H)) ltac:(discriminate)). lia. }
        apply Q; auto. }
      intros s t Hs Ht. destruct (MO i s t Hi Hs Ht) as (x & y & Ex & Ey & Py & Pyx & _). rewrite (HA i s Hi) in Ex. rewrite (HA i t Hi) in Ey. injection Ex as <-. injection Ey as <-. split; [apply Rmult_lt_0_compat; assumption|apply Rmult_le_compat_l; lra].
Qed.

(** FINDING: the file for plotting reads the second coordinate of points that have only one. *)
Theorem C172_line_refuted : forall root solver d X, d < 2 -> Forall (fun p => length p = d) X -> X <> [] ->
  (forall K, buildBetaSkeletonNaive euclidean_sq X 1 = Ok K -> decomposes solver (with_distances root K)) -> multi_scale_skeleton root solver X = UB.
Proof.
  intros root solver d X Hd HX NX HD. destruct (skeleton_exists root d X HX) as (K' & es & EK & RK & HK).
  specialize (HD K' EK). set (K := with_distances root K') in *. pose proof (skeleton_ends root d X K es RK HK) as HE. pose proof (skeleton_vertices root d X K es RK HK) as HV.
  destruct (C172_scales K RK HE) as (scales & ES & LS & _). rewrite HV, seq_length in LS.
  destruct (C106_heat solver K RK HE HD) as (L & h & H & EL & EH & _ & HA & _). rewrite HV, seq_length in HA.
  unfold multi_scale_skeleton. rewrite EK. cbn [bind]. fold K. cbv zeta. rewrite ES. cbn [bind]. rewrite EH. cbn [bind]. unfold scale_blocks.
  rewrite (blocks_map (scale_line h scales) (fun t i => (i, option_map (fun s => (s * H i i t)%R) (nth i scales None)))).
  - cbn [bind]. unfold plot_blocks. rewrite LS. destruct X as [|p X]; [contradiction|]. inversion HX as [|? ? Lp _]; subst. unfold times. cbn [length seq foldM]. unfold get_ at 1. cbn [nth_error bind].
    destruct p as [|x [|y p]]; [reflexivity|reflexivity|cbn in Hd; lia].
  - intros t i Hi. apply in_seq in Hi. unfold scale_line, at_. rewrite (nth_error_nth' scales None) by lia. cbn [bind]. rewrite HA by lia. reflexivity.
Qed.

(** FINDING: equal points may have no edges, so that 0 is divided by 0. *)
Theorem C172_repeated_refuted : forall root, exists X K, Forall (fun p => length p = 2) X /\ buildBetaSkeletonNaive euclidean_sq X 1 = Ok K /\ length X = 3 /\ estimateScales (with_distances root K) = Ok [None; None; None].
Proof.
  intro root. assert (HX : Forall (fun p : list Z => length p = 2) [[0; 0]; [0; 0]; [0; 0]]%Z) by (repeat constructor).
  exists [[0; 0]; [0; 0]; [0; 0]]%Z. destruct (skeleton_exists root 2 _ HX) as (K & es & EK & RK & HK). exists K. refine (conj HX (conj EK (conj eq_refl _))).
  destruct (C172_scales _ RK (skeleton_ends _ _ _ _ es RK HK)) as (scales & ES & LS & VS). rewrite (skeleton_vertices _ _ _ _ es RK HK) in LS, VS. cbn [length seq] in LS, VS.
  assert (EB : by_index (with_distances root K) = [Simplex [0] 0%Z; Simplex [1] 0%Z; Simplex [2] 0%Z]). { vm_compute in EK. injection EK as <-. vm_compute. reflexivity. }
  rewrite ES. rewrite EB in VS. pose proof (VS 0 0 eq_refl) as V0. pose proof (VS 1 1 eq_refl) as V1. pose proof (VS 2 2 eq_refl) as V2.
  cbn [filter touches verts length Nat.eqb andb] in V0, V1, V2. destruct scales as [|a [|b [|c [|]]]]; try discriminate LS. cbn [nth_error] in V0, V1, V2. congruence.
Qed.

(** Two points at distance 1: the values are [(1 + exp (- 2 t)) / 2]. *)
Example C172_example :
  let a := (/ sqrt 2)%R in
  let solver := fun _ : dense => ([0; 2], [[a; a]; [a; - a]])%R in
  let X := [[3; 0]; [4; 0]]%Z in
  let value := fun t => Some ((1 + exp (- t * 2)) / 2)%R in
  (forall K, buildBetaSkeletonNaive euclidean_sq X 1 = Ok K -> decomposes solver (with_distances Z.sqrt K)) /\
  multi_scale_skeleton Z.sqrt solver X = Ok (map (fun t => [(0, value t); (1, value t)]) times, map (fun t => [(3%Z, 0%Z, value t); (4%Z, 0%Z, value t)]) times).
Proof.
  intros a solver X value. assert (S2 : (sqrt 2 * sqrt 2 = 2)%R) by (apply sqrt_sqrt; lra). assert (P2 : (0 < sqrt 2)%R) by (apply sqrt_lt_R0; lra).
  assert (A : (a * a = / 2)%R). { unfold a. rewrite <- Rinv_mult. rewrite S2. reflexivity. }
  assert (D : spectral 2 [[1; -1]; [-1; 1]]%Z [0; 2]%R [[a; a]; [a; - a]]%R).
  { refine (conj eq_refl (conj eq_refl (conj _ (conj _ (conj _ (conj _ _)))))).
    - intros u [<-|[<-|[]]]; reflexivity.
    - intros k i Hk Hi. do 2 (destruct k as [|k]; [do 2 (destruct i as [|i]; [unfold sumR, ent; cbn [seq map fold_right nth]; lra|]); lia|]). lia.
    - intros k l Hk Hl. do 2 (destruct k as [|k]; [do 2 (destruct l as [|l]; [unfold sumR, delta; cbn [seq map fold_right nth Nat.eqb]; lra|]); lia|]). lia.
    - intros k l Hk Hl. do 2 (destruct k as [|k]; [do 2 (destruct l as [|l]; [unfold sumR, delta; cbn [seq map fold_right nth Nat.eqb]; lra|]); lia|]). lia.
    - intros k l Hkl Hl. do 2 (destruct k as [|k]; [do 2 (destruct l as [|l]; [try lia; cbn [nth]; lra|]); lia|]). lia. }
  assert (HX : Forall (fun p : list Z => length p = 2) X) by (repeat constructor).
  destruct (skeleton_exists Z.sqrt 2 X HX) as (K' & es & EK & RK & HK). set (K := with_distances Z.sqrt K') in *.
  destruct (C172_scales _ RK (skeleton_ends _ _ _ _ es RK HK)) as (scales & ES & LS & VS). rewrite (skeleton_vertices _ _ _ _ es RK HK) in LS, VS. cbn [length seq X] in LS, VS.
  pose proof EK as EK'. vm_compute in EK'. injection EK' as EK'.
  assert (EB : by_index K = [Simplex [0] 0%Z; Simplex [1] 0%Z; Simplex [1; 0] 1%Z]) by (unfold K; rewrite <- EK'; vm_compute; reflexivity).
  assert (EL : weightedLaplacianMatrix K = Ok [[1; -1]; [-1; 1]]%Z) by (unfold K; rewrite <- EK'; vm_compute; reflexivity).
  split; [intros K'' E'; rewrite EK in E'; injection E' as <-; intros L E; fold K in E |- *; rewrite EL in E; injection E as <-; rewrite (skeleton_vertices _ _ _ _ es RK HK); exact D|].
  pose proof (VS 0 0 eq_refl) as V0. pose proof (VS 1 1 eq_refl) as V1. rewrite EB in V0, V1. cbn [filter touches verts length Nat.eqb andb existsb orb map data sumZ fold_right] in V0, V1. destruct scales as [|x [|y [|]]]; try discriminate LS. cbn [nth_error] in V0, V1. injection V0 as ->. injection V1 as ->.
  set (h := Heat false [0; 2]%R [[a; a]; [a; - a]]%R). assert (EH : h_make solver K = Ok h) by (unfold h_make; rewrite EL; reflexivity).
  assert (HA : forall t i, i < 2 -> h_auto h i t = Ok ((1 + exp (- t * 2)) / 2)%R).
  { intros t i Hi. unfold h. rewrite (h_auto_ok 2 _ _ _ false D) by exact Hi. f_equal. unfold heat_value, sumR. do 2 (destruct i as [|i]; [cbn [seq map fold_right nth]; replace (- t * 0)%R with 0%R by ring; rewrite exp_0; replace (- a * - a)%R with (a * a)%R by ring; rewrite ?Rmult_assoc, ?A; try replace (- a * - a)%R with (a * a)%R by ring; rewrite ?A; lra|]). lia. }
  match type of ES with _ = Ok ?l => set (scales := l) in * end.
  assert (LI : forall t i, i < 2 -> scale_line h scales t i = Ok (i, value t)).
  { intros t i Hi. unfold scale_line, at_, scales. do 2 (destruct i as [|i]; [cbn [nth_error bind]; rewrite HA by lia; cbn [bind option_map]; unfold value; do 3 f_equal; cbn; lra|]). lia. }
  unfold multi_scale_skeleton. rewrite EK. cbn [bind]. fold K. cbv zeta. rewrite ES. cbn [bind]. rewrite EH. cbn [bind]. unfold scale_blocks, plot_blocks, times. change (length scales) with 2. clearbody scales value h.
  repeat (cbn [seq foldM bind X]; first [rewrite LI by lia|unfold get_ at 1; cbn [nth_error bind]]). reflexivity.
Qed.
Print Assumptions C172_scales.
Print Assumptions C172_output.
