(** * The analysis of functions. *)
From Coq Require Import Reals List Arith Bool ZArith Lia Lra Permutation Sorted Relations.
From Verif Require Import Base BaseFacts Matrix SpecMatrix PairingFacts RepFacts DualFacts PropertiesMatrix
  Simplex SimplexFacts SpecComplex Complex ComplexFacts ClosureFacts FiltrationFacts History SubcomplexFacts PropertiesComplex
  SpecDiagram Diagram DiagramFacts HomologyFacts PropertiesDiagram Function PropertiesFunction PropertiesDowker PropertiesLevels
  FunctionAnalysis.
Import ListNotations.
Local Close Scope R_scope.

(** ** specification *)
Definition between (i j k : nat) : Prop := Nat.min i j <= k <= Nat.max i j.
(** [r] contains exactly one position with [lo] for every maximal interval of positions with [hi] that has such a
    position: the length of [r] is the number of these intervals *)
Definition interval_representatives (lo hi : Z -> Prop) (values : list Z) (r : list nat) : Prop :=
  let v i := nth i values 0%Z in
  NoDup r /\ (forall u, In u r -> u < length values /\ lo (v u)) /\
  (forall w, w < length values -> lo (v w) -> exists u, In u r /\ forall k, between u w k -> hi (v k)) /\
  forall u w, In u r -> In w r -> (forall k, between u w k -> hi (v k)) -> u = w.
Definition smallest (values : list Z) (m : Z) : Prop := In m values /\ forall x, In x values -> (m <= x)%Z.
Definition largest (values : list Z) (m : Z) : Prop := In m values /\ forall x, In x values -> (x <= m)%Z.
(** the diagram of a function: every value creates one point, and for two levels the points that are created before
    the first one and destroyed after the second one are counted by intervals *)
Definition diagram_of (sublevel : bool) (values : list Z) (D : list point) : Prop :=
  Permutation (map fst D) values /\
  forall lo hi, smallest values lo -> largest values hi ->
    if sublevel then
      (forall q, In q D -> (fst q <= snd q <= hi)%Z) /\
      forall x y, (x <= y < hi)%Z -> exists r, interval_representatives (fun z => (z <= x)%Z) (fun z => (z <= y)%Z) values r /\
        length r = length (filter (fun q => (fst q <=? x)%Z && (y <? snd q)%Z) D)
    else
      (forall q, In q D -> (lo <= snd q <= fst q)%Z) /\
      forall x y, (lo < y <= x)%Z -> exists r, interval_representatives (fun z => (x <= z)%Z) (fun z => (y <= z)%Z) values r /\
        length r = length (filter (fun q => (x <=? fst q)%Z && (snd q <? y)%Z) D).

(** ** the complex *)
Lemma closed_permutation L L' : Permutation L L' -> closed L -> closed L'.
Proof.
  intros P H s vs Hs Hne Hsub. apply (Permutation_in _ (Permutation_sym P)) in Hs. destruct (H s vs Hs Hne Hsub) as (t & Ht & Et).
  exists t. split; [apply (Permutation_in _ P); exact Ht|exact Et].
Qed.

Definition join (sublevel : bool) : Z -> Z -> Z := if sublevel then Z.max else Z.min.

Lemma analysis_perm sub values : Permutation (by_index (analysis_complex sub values)) (path_simplices (join sub) values).
Proof.
  unfold analysis_complex, join. destruct sub; unfold k_sort; cbn [by_index]; rewrite cpp_sort_perm;
    destruct (C56_complex Z.max values) as (E & _), (C56_complex Z.min values) as (E' & _); rewrite ?E, ?E'; reflexivity.
Qed.

Lemma analysis_facts sub values : let K := analysis_complex sub values in
  reachable K /\ closed (by_index K) /\ filtration_order (by_index K) /\
  (if sub then ascending_data (by_index K) else descending_data (by_index K)).
Proof.
  intro K. assert (HR : reachable K).
  { unfold K, analysis_complex. destruct sub; apply sort_reachable; apply C56_complex. }
  refine (conj HR (conj _ _)).
  { eapply closed_permutation; [apply Permutation_sym, analysis_perm|]. destruct (C56_complex (join sub) values) as (E & C & _). rewrite <- E. exact C. }
  unfold K, analysis_complex. destruct sub; split.
  - destruct (C56_complex Z.max values) as (_ & _ & M & R). apply filtration_data; [apply reachable_kwf; exact R|]. apply M. lia.
  - intros i j s t Hij Hs Ht. unfold k_sort in Hs, Ht. cbn [by_index] in Hs, Ht. eapply (sorted_by_value data_cmp data); [apply data_cmp_swo| |exact Hij|exact Hs|exact Ht].
    clear. intros s t H. unfold data_cmp in H. destruct (Z.eqb_spec (data t) (data s)); [lia|]. apply Z.ltb_ge in H. lia.
  - destruct (C56_complex Z.min values) as (E & _ & _ & R). apply filtration_data_greater; [apply reachable_kwf; exact R|].
    rewrite E. intros s t Hs Ht Hsub. unfold subset in Hsub. apply in_app_or in Hs, Ht.
    destruct Hs as [Hs|Hs], Ht as [Ht|Ht]; apply in_map_iff in Hs, Ht; destruct Hs as (i & <- & Hi), Ht as (j & <- & Hj); cbn [verts data] in *.
    + destruct (Hsub j) as [->|[]]; simpl; auto. lia.
    + exfalso. destruct (Hsub j) as [E1|[]]; simpl; auto. destruct (Hsub (S j)) as [E2|[]]; simpl; auto. lia.
    + destruct (Hsub j) as [<-|[<-|[]]]; simpl; auto; lia.
    + destruct (Hsub j) as [E1|[E1|[]]]; simpl; auto; destruct (Hsub (S j)) as [E2|[E2|[]]]; simpl; auto; try lia. subst j. lia.
  - intros i j s t Hij Hs Ht. unfold k_sort in Hs, Ht. cbn [by_index] in Hs, Ht.
    assert (X : (- data s <= - data t)%Z); [|lia].
    eapply (sorted_by_value data_cmp_greater (fun s => (- data s)%Z)); [apply data_cmp_greater_swo| |exact Hij|exact Hs|exact Ht].
    clear. intros s t H. unfold data_cmp_greater in H. destruct (Z.eqb_spec (data t) (data s)); [lia|]. apply Z.ltb_ge in H. lia.
Qed.

(** vertices and edges *)
Lemma path_vertex f values lev u : has (filter (fun s => lev (data s)) (path_simplices f values)) [u] <->
  u < length values /\ lev (nth u values 0%Z) = true.
Proof.
  split.
  - intros (s & Hs & Es). apply filter_In in Hs. destruct Hs as [Hs Hl]. apply in_app_or in Hs. destruct Hs as [Hs|Hs]; apply in_map_iff in Hs; destruct Hs as (i & <- & Hi); cbn [verts data] in *; apply in_seq in Hi.
    + destruct (proj1 (Es i) (or_introl eq_refl)) as [<-|[]]. split; [lia|exact Hl].
    + exfalso. destruct (proj1 (Es i) (or_intror (or_introl eq_refl))) as [E1|[]]. destruct (proj1 (Es (S i)) (or_introl eq_refl)) as [E2|[]]. lia.
  - intros [Hu Hl]. exists (Simplex [u] (nth u values 0%Z)). split; [|intro; reflexivity]. apply filter_In. split; [|exact Hl].
    apply in_or_app. left. apply in_map_iff. exists u. split; [reflexivity|apply in_seq; lia].
Qed.

Lemma path_edge f values lev u w : (forall a b, lev (f a b) = lev a && lev b) ->
  has (filter (fun s => lev (data s)) (path_simplices f values)) [u; w] <->
  (u = w \/ u = S w \/ w = S u) /\ u < length values /\ w < length values /\ lev (nth u values 0%Z) = true /\ lev (nth w values 0%Z) = true.
Proof.
  intro Hf. split.
  - intros (s & Hs & Es). apply filter_In in Hs. destruct Hs as [Hs Hl]. apply in_app_or in Hs. destruct Hs as [Hs|Hs]; apply in_map_iff in Hs; destruct Hs as (i & <- & Hi); cbn [verts data] in *; apply in_seq in Hi.
    + destruct (proj2 (Es u) (or_introl eq_refl)) as [<-|[]]. destruct (proj2 (Es w) (or_intror (or_introl eq_refl))) as [<-|[]].
      refine (conj (or_introl eq_refl) (conj _ (conj _ (conj Hl Hl)))); lia.
    + rewrite Hf in Hl. apply andb_prop in Hl. destruct Hl as [L1 L2].
      destruct (proj2 (Es u) (or_introl eq_refl)) as [E1|[E1|[]]]; destruct (proj2 (Es w) (or_intror (or_introl eq_refl))) as [E2|[E2|[]]]; subst;
        refine (conj _ (conj _ (conj _ (conj _ _)))); auto; lia.
  - intros (H & Hu & Hw & Lu & Lw). destruct H as [<-|H].
    + exists (Simplex [u] (nth u values 0%Z)). split; [|intro; simpl; tauto]. apply filter_In. split; [|exact Lu].
      apply in_or_app. left. apply in_map_iff. exists u. split; [reflexivity|apply in_seq; lia].
    + set (k := Nat.min u w). exists (Simplex [S k; k] (f (nth k values 0%Z) (nth (S k) values 0%Z))). split.
      * apply filter_In. cbn [data]. rewrite Hf. split; [|destruct H; subst; unfold k; rewrite ?Nat.min_l, ?Nat.min_r by lia; rewrite Lu, Lw; reflexivity].
        apply in_or_app. right. apply in_map_iff. exists k. split; [reflexivity|apply in_seq; lia].
      * intro x. cbn [verts]. destruct H; subst; unfold k; rewrite ?Nat.min_l, ?Nat.min_r by lia; simpl; tauto.
Qed.

Lemma has_permutation L L' vs : Permutation L L' -> has L vs -> has L' vs.
Proof. intros P (s & Hs & Es). exists s. split; [apply (Permutation_in _ P); exact Hs|exact Es]. Qed.
Lemma filter_permutation {A} (f : A -> bool) l l' : Permutation l l' -> Permutation (filter f l) (filter f l').
Proof.
  induction 1 as [|x l l' P IH|x y l|l1 l2 l3 P1 IH1 P2 IH2]; cbn [filter]; auto.
  - destruct (f x); [constructor; exact IH|exact IH].
  - destruct (f x), (f y); auto. constructor.
  - eapply perm_trans; eassumption.
Qed.

Lemma linked_interval f values lev L u w : (forall a b, lev (f a b) = lev a && lev b) ->
  Permutation L (path_simplices f values) -> u < length values -> lev (nth u values 0%Z) = true ->
  (linked (filter (fun s => lev (data s)) L) u w <-> forall k, between u w k -> k < length values /\ lev (nth k values 0%Z) = true).
Proof.
  intros Hf P Hu Lu. pose proof (filter_permutation (fun s => lev (data s)) _ _ P) as PF. split.
  - intro H. assert (Q : u = w \/ forall k, between u w k -> k < length values /\ lev (nth k values 0%Z) = true).
    { clear Hu Lu. induction H as [u w H|u|u w _ IH|u v w _ IH1 _ IH2].
      - apply (has_permutation _ _ _ PF) in H. apply (path_edge f values lev) in H; [|exact Hf]. destruct H as (H & A & B & C & D).
        right. intros k Hk. unfold between in Hk. assert (E : k = u \/ k = w) by lia. destruct E; subst; auto.
      - left. reflexivity.
      - destruct IH as [IH|IH]; [left; auto|right]. intros k Hk. apply IH. unfold between in *. lia.
      - destruct IH1 as [->|IH1]; [exact IH2|]. destruct IH2 as [<-|IH2]; [right; exact IH1|right].
        intros k Hk. assert (X : between u v k \/ between v w k) by (unfold between in *; lia). destruct X; auto. }
    destruct Q as [<-|Q]; [|exact Q]. intros k Hk. unfold between in Hk. replace k with u by lia. auto.
  - intro H. clear Hu Lu. remember (Nat.max u w - Nat.min u w) as d eqn:Ed. revert u w Ed H. induction d as [|d IH]; intros u w Ed H.
    + replace w with u by lia. apply rst_refl.
    + assert (X : exists v, (u = v \/ u = S v \/ v = S u) /\ Nat.max v w - Nat.min v w = d /\ between u w v /\ forall k, between v w k -> between u w k).
      { destruct (Nat.lt_ge_cases u w); [exists (S u)|exists (pred u)]; unfold between; repeat split; try lia. }
      destruct X as (v & E & Dv & Bv & Sv). apply rst_trans with v.
      * apply rst_step. apply (has_permutation _ _ _ (Permutation_sym PF)). apply (path_edge f values lev); [exact Hf|].
        assert (Bu : between u w u) by (unfold between; lia). destruct (H u Bu), (H v Bv). auto.
      * apply IH; [lia|]. intros k Hk. apply H, Sv, Hk.
Qed.

Lemma representatives_intervals f values lo hi L r :
  (forall a b, hi (f a b) = hi a && hi b) -> (forall z, lo z = true -> hi z = true) -> Permutation L (path_simplices f values) ->
  representatives (filter (fun s => lo (data s)) L) (filter (fun s => hi (data s)) L) r ->
  interval_representatives (fun z => lo z = true) (fun z => hi z = true) values r.
Proof.
  intros Hf Hs P (N & A & B & C). unfold interval_representatives.
  assert (V : forall u, has (filter (fun s => lo (data s)) L) [u] <-> u < length values /\ lo (nth u values 0%Z) = true).
  { intro u. rewrite <- (path_vertex f values lo u). split; apply has_permutation, filter_permutation; [exact P|apply Permutation_sym; exact P]. }
  refine (conj N (conj _ (conj _ _))).
  - intros u Hu. apply V, A, Hu.
  - intros w Hw Lw. destruct (B w) as (u & Hu & Huw); [apply V; auto|]. exists u. refine (conj Hu _). intros k Hk.
    pose proof (proj1 (V u) (A u Hu)) as [U1 U2]. apply (proj1 (linked_interval f values hi L u w Hf P U1 (Hs _ U2)) Huw k Hk).
  - intros u w Hu Hw Huw. apply C; auto. pose proof (proj1 (V u) (A u Hu)) as [U1 U2]. pose proof (proj1 (V w) (A w Hw)) as [W1 W2].
    apply (proj2 (linked_interval f values hi L u w Hf P U1 (Hs _ U2))). intros k Hk. split; [unfold between in Hk; lia|apply Huw; exact Hk].
Qed.

(** ** the diagram *)
Lemma path_dims f values s : In s (path_simplices f values) -> sdim s <= 1.
Proof. intro H. apply in_app_or in H. destruct H as [H|H]; apply in_map_iff in H; destruct H as (i & <- & _); cbn; lia. Qed.

Lemma path_values f values : map data (filter (fun s => sdim s =? 0) (path_simplices f values)) = values.
Proof.
  unfold path_simplices. rewrite filter_app, (filter_nil _ (map (fun k => Simplex [S k; k] _) _)), app_nil_r.
  2:{ intros s H. apply in_map_iff in H. destruct H as (k & <- & _). reflexivity. }
  assert (F : forall l, filter (fun s => sdim s =? 0) (map (fun i => Simplex [i] (nth i values 0%Z)) l) = map (fun i => Simplex [i] (nth i values 0%Z)) l).
  { induction l as [|i l IH]; [reflexivity|]. cbn. f_equal. exact IH. }
  rewrite F, map_map. cbn [data]. clear F. induction values as [|v t IH]; [reflexivity|]. cbn [length seq map nth]. f_equal.
  rewrite <- seq_shift, map_map. exact IH.
Qed.

Lemma path_data sub values s : In s (path_simplices (join sub) values) -> In (data s) values.
Proof.
  intro H. apply in_app_or in H. destruct H as [H|H]; apply in_map_iff in H; destruct H as (i & <- & Hi); apply in_seq in Hi; cbn [data].
  - apply nth_In. lia.
  - assert (A : In (nth i values 0%Z) values) by (apply nth_In; lia). assert (B : In (nth (S i) values 0%Z) values) by (apply nth_In; lia).
    unfold join. destruct sub; [destruct (Z.max_spec (nth i values 0%Z) (nth (S i) values 0%Z)) as [[_ ->]|[_ ->]]|destruct (Z.min_spec (nth i values 0%Z) (nth (S i) values 0%Z)) as [[_ ->]|[_ ->]]]; assumption.
Qed.

Lemma data_in sub values z : In z (map data (by_index (analysis_complex sub values))) <-> In z values.
Proof.
  pose proof (analysis_perm sub values) as P. split.
  - intro H. apply in_map_iff in H. destruct H as (s & <- & H). apply (Permutation_in _ P) in H. eapply path_data; exact H.
  - intro H. rewrite <- (path_values (join sub) values) in H. apply in_map_iff in H. destruct H as (s & <- & H). apply in_map.
    apply filter_In in H. apply (Permutation_in _ (Permutation_sym P)). tauto.
Qed.

Lemma minmax_fold L : forall a b, let st := fold_left (fun st s => (Z.min (fst st) (data s), Z.max (snd st) (data s))) L (a, b) in
  (fst st = a \/ In (fst st) (map data L)) /\ (snd st = b \/ In (snd st) (map data L)) /\ (fst st <= a)%Z /\ (b <= snd st)%Z /\
  forall z, In z (map data L) -> (fst st <= z <= snd st)%Z.
Proof.
  induction L as [|s L IH]; intros a b st.
  - unfold st. cbn [fold_left fst snd map]. refine (conj (or_introl eq_refl) (conj (or_introl eq_refl) (conj (Z.le_refl _) (conj (Z.le_refl _) _)))). intros z [].
  - unfold st. cbn [fold_left fst snd map]. destruct (IH (Z.min a (data s)) (Z.max b (data s))) as (A & B & C & D & E). cbn zeta in A, B, C, D, E.
    match type of C with (fst ?f <= _)%Z => set (t := f) in * end. clearbody t. cbn [In]. refine (conj _ (conj _ (conj _ (conj _ _)))); try lia.
    + destruct A as [A|A]; [|tauto]. destruct (Z.min_spec a (data s)) as [[_ X]|[_ X]]; rewrite X in A; auto.
    + destruct B as [B|B]; [|tauto]. destruct (Z.max_spec b (data s)) as [[_ X]|[_ X]]; rewrite X in B; auto.
    + intros z [<-|H]; [lia|apply E; exact H].
Qed.

Lemma minmax_values big lowest sub values : values <> [] -> (forall z, In z values -> (lowest <= z <= big)%Z) ->
  let m := minmaxData big lowest (analysis_complex sub values) in smallest values (fst m) /\ largest values (snd m).
Proof.
  intros Hne HB m. destruct (minmax_fold (by_index (analysis_complex sub values)) big lowest) as (A & B & C & D & E). cbn zeta in A, B, C, D, E.
  fold (minmaxData big lowest (analysis_complex sub values)) in *. fold m in A, B, C, D, E. rewrite data_in in A, B.
  assert (E' : forall z, In z values -> (fst m <= z <= snd m)%Z) by (intros z Hz; apply E, data_in, Hz).
  clearbody m. destruct values as [|v t]; [contradiction|]. pose proof (E' v (or_introl eq_refl)). pose proof (HB v (or_introl eq_refl)).
  unfold smallest, largest. split; (split; [|intros z Hz; apply E' in Hz; lia]).
  - destruct A as [A|A]; [|exact A]. left. lia.
  - destruct B as [B|B]; [|exact B]. left. lia.
Qed.
Lemma smallest_unique values a b : smallest values a -> smallest values b -> a = b.
Proof. intros [A1 A2] [B1 B2]. apply A2 in B1. apply B2 in A1. lia. Qed.
Lemma largest_unique values a b : largest values a -> largest values b -> a = b.
Proof. intros [A1 A2] [B1 B2]. apply A2 in B1. apply B2 in A1. lia. Qed.

Lemma map_data_at K f : map (data_at K) (filter (fun i => f (nth i (by_index K) dummy_simplex)) (seq 0 (k_size K))) = map data (filter f (by_index K)).
Proof.
  unfold data_at, k_size. induction (by_index K) as [|s L IH] using rev_ind; [reflexivity|].
  rewrite app_length. cbn [length]. rewrite Nat.add_1_r, seq_S, !filter_app, !map_app. cbn [Nat.add filter]. rewrite app_nth2, Nat.sub_diag by lia. cbn [nth]. f_equal.
  - rewrite <- IH. clear IH. assert (X : forall l, (forall i, In i l -> i < length L) ->
      map (fun i => data (nth i (L ++ [s]) dummy_simplex)) (filter (fun i => f (nth i (L ++ [s]) dummy_simplex)) l) =
      map (fun i => data (nth i L dummy_simplex)) (filter (fun i => f (nth i L dummy_simplex)) l)).
    { induction l as [|i l IHl]; intro H; [reflexivity|]. cbn [filter]. rewrite app_nth1 by (apply H; left; reflexivity).
      destruct (f _); cbn [map]; rewrite ?app_nth1 by (apply H; left; reflexivity); rewrite IHl by (intros; apply H; right; assumption); reflexivity. }
    apply X. intros i Hi. apply in_seq in Hi. lia.
  - destruct (f s); [|reflexivity]. cbn [map]. rewrite app_nth2, Nat.sub_diag by lia. reflexivity.
Qed.

Lemma one_diagram inf sub values : 2 <= length values ->
  exists D p1, let K := analysis_complex sub values in
    (forall order a, (forall l, Permutation (order l) l) -> calculatePersistenceDiagrams inf order a K true false = Ok [D]) /\
    dgm_dim D = 0 /\ points D = map (pair_point inf K) p1 /\
    (forall u v, In (u, Some v) p1 -> u < v < k_size K) /\ (forall u o, In (u, o) p1 -> u < k_size K) /\
    Permutation (map fst (points D)) values.
Proof.
  intro Hn. destruct (analysis_facts sub values) as (HR & HC & HF & _). pose proof (analysis_perm sub values) as P.
  set (K := analysis_complex sub values) in *. clearbody K.
  destruct (pipeline inf K false HR HC HF) as (M & p & p1 & ds & E & HV & HL & Hdims & Hp & Hp1 & Hb & Ed & H).
  pose proof (creators_NoDup (cols M) (dims M) HV p Hp) as ND. pose proof (in_creators (cols M) (dims M) HV p Hp) as IC.
  destruct (pairing_structure M p HV Hp) as [_ PS].
  assert (Hdim : forall u, u < k_size K -> nth u (dims M) 0 = dim_at K u).
  { intros u Hu. rewrite Hdims. unfold dim_at.
    destruct (nth_error (by_index K) u) as [s|] eqn:Es; [|apply nth_error_None in Es; unfold k_size in Hu; lia].
    rewrite (nth_error_nth _ _ dummy_simplex Es). apply (map_nth_error sdim) in Es. apply (nth_error_nth _ _ 0 Es). }
  assert (D1 : forall u, u < k_size K -> dim_at K u <= 1).
  { intros u Hu. unfold dim_at. apply (path_dims (join sub) values). apply (Permutation_in _ P). apply nth_In. exact Hu. }
  assert (MD : list_max (dims M) = 1).
  { apply Nat.le_antisymm.
    - apply list_max_le. rewrite Forall_forall. intros d Hd. rewrite Hdims in Hd. apply in_map_iff in Hd. destruct Hd as (s & <- & Hs).
      apply (path_dims (join sub) values). apply (Permutation_in _ P). exact Hs.
    - assert (Q : Forall (fun k => k <= list_max (dims M)) (dims M)) by (apply list_max_le; auto). rewrite Forall_forall in Q.
      apply (Q 1). rewrite Hdims. apply in_map_iff. exists (Simplex [1; 0] (join sub (nth 0 values 0%Z) (nth 1 values 0%Z))). split; [reflexivity|].
      apply (Permutation_in _ (Permutation_sym P)). apply in_or_app. right. apply in_map_iff. exists 0. split; [reflexivity|]. apply in_seq. lia. }
  assert (Z1 : forall q, In q p1 -> dim_at K (fst q) = 0).
  { intros q Hq. pose proof (Hb q Hq) as Hlt. rewrite Hp1 in Hq. apply filter_In in Hq. destruct Hq as [Hq Hx]. destruct q as [u [v|]]; cbn [fst snd] in *.
    - destruct (PS u v Hq) as [Huv Hd]. apply Hp in Hq. destruct Hq as [Hv _]. rewrite HL in Hv. rewrite !Hdim in Hd by assumption. specialize (D1 v Hv). lia.
    - apply negb_true_iff, Nat.eqb_neq in Hx. rewrite MD, Hdim in Hx by exact Hlt. specialize (D1 u Hlt). lia. }
  assert (ND1 : NoDup (map fst p1)).
  { rewrite Hp1. clear -ND. induction p as [|q l IH]; [constructor|]. cbn [map] in ND. apply NoDup_cons_iff in ND. destruct ND as [N1 N2]. cbn [filter].
    match goal with |- NoDup (map fst (if ?b then _ else _)) => destruct b end; [|apply IH; exact N2]. cbn [map]. constructor; [|apply IH; exact N2].
    intro H. apply N1. apply in_map_iff in H. destruct H as (x & E & H). apply filter_In in H. apply in_map_iff. exists x. tauto. }
  assert (CR : forall u, In u (map fst p1) <-> u < k_size K /\ dim_at K u = 0).
  { intro u. split.
    - intro Hu. apply in_map_iff in Hu. destruct Hu as (q & <- & Hq). auto.
    - intros [Hu Du]. assert (Iu : In u (map fst p)).
      { apply IC. rewrite HL. refine (conj Hu _). exists (fun _ => false). split; [|intro; reflexivity]. exists []. split; [intros k []|].
        intro r. cbn [sum_cols fold_right]. rewrite xorb_false_r. destruct (entry (cols M) r u) eqn:Er; [|reflexivity]. exfalso.
        destruct HV as (_ & _ & HE & _). apply HE in Er. rewrite (Hdim u Hu), Du in Er. lia. }
      apply in_map_iff in Iu. destruct Iu as ([u' o] & Eu & Hq). cbn in Eu. subst u'. apply in_map_iff. exists (u, o). split; [reflexivity|].
      rewrite Hp1. apply filter_In. refine (conj Hq _). cbn [fst snd]. destruct o; [reflexivity|]. rewrite MD, (Hdim u Hu), Du. reflexivity. }
  assert (PI : Permutation (map fst p1) (filter (fun i => sdim (nth i (by_index K) dummy_simplex) =? 0) (seq 0 (k_size K)))).
  { apply NoDup_Permutation; [exact ND1|apply NoDup_filter, seq_NoDup|]. intro u. rewrite CR, filter_In, in_seq, Nat.eqb_eq. unfold dim_at, sdim. lia. }
  assert (PV : Permutation (map fst (map (pair_point inf K) p1)) values).
  { rewrite map_map. unfold pair_point. cbn [fst]. rewrite <- (map_map fst (data_at K)). rewrite PI. rewrite (map_data_at K (fun s => sdim s =? 0)).
    eapply perm_trans; [apply Permutation_map, filter_permutation, P|]. rewrite path_values. reflexivity. }
  destruct (tabulates_pairing inf K p1 (reachable_kwf _ HR) Hb) as (ds' & Ed' & Sd & PD & CD). rewrite Ed in Ed'. injection Ed' as <-.
  assert (NE : p1 <> []).
  { intros ->. cbn in PV. apply Permutation_nil in PV. subst values. simpl in Hn. lia. }
  assert (D0 : forall D, In D ds -> dgm_dim D = 0).
  { intros D HD. destruct (PD D HD) as [N EP]. rewrite EP in N. destruct (filter _ p1) as [|q l] eqn:EF; [exfalso; apply N; reflexivity|].
    assert (Iq : In q (filter (fun q => dim_at K (fst q) =? dgm_dim D) p1)) by (rewrite EF; left; reflexivity).
    apply filter_In in Iq. destruct Iq as [Iq Eq]. apply Nat.eqb_eq in Eq. rewrite (Z1 q Iq) in Eq. auto. }
  destruct p1 as [|q0 p2] eqn:Ep1; [contradiction|]. rewrite <- Ep1 in *. destruct (CD q0) as (D & HD & _); [rewrite Ep1; left; reflexivity|].
  assert (Eds : ds = [D]).
  { destruct ds as [|A [|B l]]; [destruct HD|destruct HD as [->|[]]; reflexivity|exfalso].
    cbn [map] in Sd. apply StronglySorted_inv in Sd. destruct Sd as [_ F]. apply Forall_inv in F. rewrite !D0 in F; [lia|right; left; reflexivity|left; reflexivity]. }
  exists D, p1. cbn zeta. refine (conj _ (conj (D0 D HD) _)).
  { intros order a Ho. rewrite <- Eds. apply H. exact Ho. }
  assert (EP : points D = map (pair_point inf K) p1).
  { destruct (PD D HD) as [_ EP]. rewrite EP, (D0 D HD). f_equal. clear -Z1. induction p1 as [|q l IH]; [reflexivity|]. cbn [filter].
    rewrite (Z1 q (or_introl eq_refl)). cbn [Nat.eqb]. f_equal. apply IH. intros; apply Z1; right; assumption. }
  refine (conj EP (conj _ (conj _ _))).
  - intros u v Hq. rewrite Hp1 in Hq. apply filter_In in Hq. destruct Hq as [Hq _]. destruct (PS u v Hq) as [L _]. apply Hp in Hq. rewrite <- HL. lia.
  - intros u o Hq. apply (Hb _ Hq).
  - rewrite EP. exact PV.
Qed.

Lemma length_one_of_one (r : list nat) : (exists u, In u r) -> NoDup r -> (forall u v, In u r -> In v r -> u = v) -> length r = 1.
Proof.
  intros (u & Hu) N U. destruct r as [|a [|b l]]; [destruct Hu|reflexivity|exfalso].
  apply NoDup_cons_iff in N. destruct N as [N _]. apply N. left. apply U; simpl; auto.
Qed.

Lemma points_of_single D : dgm_dim D = 0 -> points_of [D] 0 = points D.
Proof. intro H. unfold points_of. cbn. rewrite H. cbn. try rewrite app_nil_r. reflexivity. Qed.

(** ** C157 *)
Theorem C157_diagram : forall inf big lowest order a (sublevel : bool) values,
  (forall l, Permutation (order l) l) -> 2 <= length values -> (forall z, In z values -> (lowest <= z <= big)%Z /\ (z < inf)%Z) ->
  exists D, analysis_diagram inf big lowest order a sublevel (analysis_complex sublevel values) = Ok D /\ diagram_of sublevel values D.
Proof.
  intros inf big lowest order a sub values Ho Hn HB. set (K := analysis_complex sub values).
  destruct (one_diagram inf sub values Hn) as (D & p1 & EC & D0 & EP & PV & PN & PP). fold K in EC, EP, PV, PN.
  destruct (analysis_facts sub values) as (HR & HC & HF & HA). fold K in HR, HC, HF, HA.
  pose proof (analysis_perm sub values) as PM. fold K in PM.
  assert (Hne : values <> []) by (intros ->; simpl in Hn; lia).
  assert (Hedge : exists s, In s (by_index K) /\ 1 < length (verts s)).
  { exists (Simplex [1; 0] (join sub (nth 0 values 0%Z) (nth 1 values 0%Z))). split; [|cbn; lia].
    apply (Permutation_in _ (Permutation_sym PM)). apply in_or_app. right. apply in_map_iff. exists 0. split; [reflexivity|]. apply in_seq. lia. }
  destruct (levels_count inf K false HR HC HF (or_intror Hedge)) as (ds & Eds & LC).
  assert (X : ds = [D]). { specialize (Eds order a true Ho). rewrite (EC order a Ho) in Eds. congruence. }
  subst ds. rewrite (points_of_single D D0) in LC.
  destruct (minmax_values big lowest sub values Hne (fun z Hz => proj1 (HB z Hz))) as [Hlo Hhi]. fold K in Hlo, Hhi.
  set (mm := minmaxData big lowest K) in *.
  assert (DV : forall u, u < k_size K -> In (data_at K u) values).
  { intros u Hu. apply (data_in sub). fold K. unfold data_at. apply in_map. apply nth_In. exact Hu. }
  assert (DI : forall u, u < k_size K -> (data_at K u =? inf)%Z = false).
  { intros u Hu. apply Z.eqb_neq. pose proof (HB _ (DV u Hu)). lia. }
  assert (DB : d_betti inf D = 1).
  { destruct (LC (fun _ => true) (fun _ => true) (isUnpaired inf)) as (r & Hr & Lr).
    - intros i j s t _ _ _ _. reflexivity.
    - intros i j s t _ _ _ _. reflexivity.
    - reflexivity.
    - intros u _. unfold isUnpaired. apply Z.eqb_refl.
    - intros u v _ Hv. unfold isUnpaired. cbn [snd]. apply DI. exact Hv.
    - unfold d_betti. rewrite <- Lr. apply (representatives_intervals (join sub) values (fun _ => true) (fun _ => true)) in Hr; [|reflexivity|reflexivity|exact PM].
      destruct Hr as (N & _ & B & C). apply length_one_of_one; [|exact N|].
      + destruct (B 0) as (u & Hu & _); [lia|reflexivity|]. exists u. exact Hu.
      + intros u v Hu Hv. apply C; auto. }
  set (y0 := if sub then snd mm else fst mm).
  exists (map (close_infinite inf y0) (points D)). split.
  { unfold analysis_diagram. rewrite (EC order a Ho). cbn [bind]. rewrite DB. reflexivity. }
  assert (FC : forall q, fst (close_infinite inf y0 q) = fst q) by (intro q; unfold close_infinite; destruct (snd q =? inf)%Z; reflexivity).
  split.
  { rewrite map_map. rewrite (map_ext _ fst FC). exact PP. }
  intros lo hi Slo Shi. rewrite (smallest_unique values lo (fst mm) Slo Hlo) in *. rewrite (largest_unique values hi (snd mm) Shi Hhi) in *. clear lo hi Slo Shi.
  assert (SB : forall u s, nth_error (by_index K) u = Some s -> data s = data_at K u /\ u < k_size K).
  { intros u s Hs. unfold data_at. rewrite (nth_error_nth _ _ dummy_simplex Hs). split; [reflexivity|]. unfold k_size. apply nth_error_Some. congruence. }
  assert (NE : forall u, u < k_size K -> exists s, nth_error (by_index K) u = Some s).
  { intros u Hu. destruct (nth_error (by_index K) u) as [s|] eqn:Es; [eauto|]. apply nth_error_None in Es. unfold k_size in Hu. lia. }
  destruct Hlo as [Ilo Blo], Hhi as [Ihi Bhi]. pose proof (HB _ Ihi) as Hinf.
  destruct sub; cbn [join] in *; unfold y0; cbn [negb].
  - split.
    + intros q Hq. apply in_map_iff in Hq. destruct Hq as (q' & <- & Hq). rewrite EP in Hq. apply in_map_iff in Hq. destruct Hq as ([u o] & <- & Hq).
      pose proof (PN u o Hq) as Hu. pose proof (Bhi _ (DV u Hu)). unfold close_infinite, pair_point. cbn [fst snd]. destruct o as [v|].
      * destruct (PV u v Hq) as [Huv Hv]. pose proof Hv as Hv'. unfold k_size in Hv'. apply Nat.ltb_lt in Hv'. rewrite Hv', (DI v Hv). cbn [fst snd].
        destruct (NE u Hu) as (s & Hs), (NE v Hv) as (t & Ht). pose proof (HA u v s t Huv Hs Ht) as L.
        rewrite (proj1 (SB u s Hs)), (proj1 (SB v t Ht)) in L. pose proof (Bhi _ (DV v Hv)). lia.
      * rewrite Z.eqb_refl. cbn [fst snd]. lia.
    + intros x y Hxy. destruct (LC (fun s => (data s <=? x)%Z) (fun s => (data s <=? y)%Z) (fun q => (fst q <=? x)%Z && (y <? snd q)%Z)) as (r & Hr & Lr).
      * intros i j s t Hij Hs Ht L. apply Z.leb_le in L. apply Z.leb_le. pose proof (HA i j s t Hij Hs Ht). lia.
      * intros i j s t Hij Hs Ht L. apply Z.leb_le in L. apply Z.leb_le. pose proof (HA i j s t Hij Hs Ht). lia.
      * intros s L. apply Z.leb_le in L. apply Z.leb_le. lia.
      * intros u Hu. cbn [fst snd]. unfold data_at. replace (y <? inf)%Z with true by (symmetry; apply Z.ltb_lt; lia). apply andb_true_r.
      * intros u v Hu Hv. cbn [fst snd]. unfold data_at. f_equal. rewrite Z.leb_antisym, negb_involutive. reflexivity.
      * exists r. split.
        -- apply (representatives_intervals Z.max values (fun z => (z <=? x)%Z) (fun z => (z <=? y)%Z)) in Hr; [| | |exact PM].
           ++ destruct Hr as (A1 & A2 & A3 & A4). unfold interval_representatives. refine (conj A1 (conj _ (conj _ _))).
              ** intros u Hu. destruct (A2 u Hu) as [B1 B2]. apply Z.leb_le in B2. auto.
              ** intros w Hw Lw. destruct (A3 w Hw) as (u & Hu & Hk); [apply Z.leb_le; exact Lw|]. exists u. refine (conj Hu _). intros k Bk. apply Z.leb_le, Hk, Bk.
              ** intros u w Hu Hw Hk. apply A4; auto. intros k Bk. apply Z.leb_le, Hk, Bk.
           ++ intros c d. destruct (Z.leb_spec (Z.max c d) y), (Z.leb_spec c y), (Z.leb_spec d y); cbn; try reflexivity; lia.
           ++ intros z L. apply Z.leb_le in L. apply Z.leb_le. lia.
        -- rewrite Lr, filter_map_len. f_equal. apply filter_ext. intro q. rewrite FC. unfold close_infinite. destruct (Z.eqb_spec (snd q) inf) as [Eq|Eq]; [|reflexivity].
           cbn [snd]. rewrite Eq. f_equal. transitivity true; [|symmetry]; apply Z.ltb_lt; lia.
  - split.
    + intros q Hq. apply in_map_iff in Hq. destruct Hq as (q' & <- & Hq). rewrite EP in Hq. apply in_map_iff in Hq. destruct Hq as ([u o] & <- & Hq).
      pose proof (PN u o Hq) as Hu. pose proof (Blo _ (DV u Hu)). unfold close_infinite, pair_point. cbn [fst snd]. destruct o as [v|].
      * destruct (PV u v Hq) as [Huv Hv]. pose proof Hv as Hv'. unfold k_size in Hv'. apply Nat.ltb_lt in Hv'. rewrite Hv', (DI v Hv). cbn [fst snd].
        destruct (NE u Hu) as (s & Hs), (NE v Hv) as (t & Ht). pose proof (HA u v s t Huv Hs Ht) as L.
        rewrite (proj1 (SB u s Hs)), (proj1 (SB v t Ht)) in L. pose proof (Blo _ (DV v Hv)). lia.
      * rewrite Z.eqb_refl. cbn [fst snd]. lia.
    + intros x y Hxy. destruct (LC (fun s => (x <=? data s)%Z) (fun s => (y <=? data s)%Z) (fun q => (x <=? fst q)%Z && ((snd q <? y)%Z || isUnpaired inf q))) as (r & Hr & Lr).
      * intros i j s t Hij Hs Ht L. apply Z.leb_le in L. apply Z.leb_le. pose proof (HA i j s t Hij Hs Ht). lia.
      * intros i j s t Hij Hs Ht L. apply Z.leb_le in L. apply Z.leb_le. pose proof (HA i j s t Hij Hs Ht). lia.
      * intros s L. apply Z.leb_le in L. apply Z.leb_le. lia.
      * intros u Hu. unfold isUnpaired. cbn [fst snd]. unfold data_at. rewrite Z.eqb_refl, orb_true_r. apply andb_true_r.
      * intros u v Hu Hv. unfold isUnpaired. cbn [fst snd]. rewrite (DI v Hv), orb_false_r. unfold data_at. f_equal. rewrite Z.leb_antisym, negb_involutive. reflexivity.
      * exists r. split.
        -- apply (representatives_intervals Z.min values (fun z => (x <=? z)%Z) (fun z => (y <=? z)%Z)) in Hr; [| | |exact PM].
           ++ destruct Hr as (A1 & A2 & A3 & A4). unfold interval_representatives. refine (conj A1 (conj _ (conj _ _))).
              ** intros u Hu. destruct (A2 u Hu) as [B1 B2]. apply Z.leb_le in B2. auto.
              ** intros w Hw Lw. destruct (A3 w Hw) as (u & Hu & Hk); [apply Z.leb_le; exact Lw|]. exists u. refine (conj Hu _). intros k Bk. apply Z.leb_le, Hk, Bk.
              ** intros u w Hu Hw Hk. apply A4; auto. intros k Bk. apply Z.leb_le, Hk, Bk.
           ++ intros c d. destruct (Z.leb_spec y (Z.min c d)), (Z.leb_spec y c), (Z.leb_spec y d); cbn; try reflexivity; lia.
           ++ intros z L. apply Z.leb_le in L. apply Z.leb_le. lia.
        -- rewrite Lr, filter_map_len. f_equal. apply filter_ext. intro q. rewrite FC. unfold close_infinite, isUnpaired. destruct (Z.eqb_spec (snd q) inf) as [Eq|Eq]; [|rewrite orb_false_r; reflexivity].
           cbn [snd]. rewrite orb_true_r. f_equal. symmetry. apply Z.ltb_lt. lia.
Qed.

(** Lines with fewer than two values end the program: the only creator has the largest dimension and is left out. *)
Theorem C157_short_refuted : forall inf big lowest order a (sublevel normalize : bool) values,
  (forall l, Permutation (order l) l) -> length values < 2 ->
  analysis inf big lowest order a sublevel normalize values = Throw RuntimeError.
Proof.
  intros inf big lowest order a sub nz values Ho Hn. unfold analysis.
  destruct (analysis_facts sub values) as (HR & HC & HF & _). pose proof (analysis_perm sub values) as P. cbn zeta in *.
  set (K := analysis_complex sub values) in *. clearbody K.
  destruct (pipeline inf K false HR HC HF) as (M & p & p1 & ds & E & HV & HL & Hdims & Hp & Hp1 & Hb & Ed & H).
  destruct (pairing_structure M p HV Hp) as [_ PS].
  assert (Z0 : forall d, In d (dims M) -> d = 0).
  { intros d Hd. rewrite Hdims in Hd. apply in_map_iff in Hd. destruct Hd as (s & <- & Hs). apply (Permutation_in _ P) in Hs.
    apply in_app_or in Hs. destruct Hs as [Hs|Hs]; apply in_map_iff in Hs; destruct Hs as (i & <- & Hi); [reflexivity|]. apply in_seq in Hi. lia. }
  assert (N0 : forall u, nth u (dims M) 0 = 0).
  { intro u. destruct (Nat.lt_ge_cases u (length (dims M))) as [L|L]; [apply Z0, nth_In; exact L|apply nth_overflow; exact L]. }
  assert (M0 : list_max (dims M) = 0).
  { apply Nat.le_0_r. apply list_max_le. rewrite Forall_forall. intros d Hd. rewrite (Z0 d Hd). reflexivity. }
  assert (E1 : p1 = []).
  { rewrite Hp1. apply filter_nil. intros [u [v|]] Hq; cbn [fst snd].
    - exfalso. destruct (PS u v Hq) as [_ X]. rewrite !N0 in X. discriminate.
    - rewrite N0, M0. reflexivity. }
  rewrite E1 in Ed. cbn in Ed. injection Ed as <-. unfold analysis_diagram. rewrite (H order a true Ho). reflexivity.
Qed.

(** what is written for one line *)
Theorem C157_analysis : forall inf big lowest order a (sublevel normalize : bool) values,
  (forall l, Permutation (order l) l) -> 2 <= length values -> (forall z, In z values -> (lowest <= z <= big)%Z /\ (z < inf)%Z) ->
  exists D P, diagram_of sublevel values D /\ analysis inf big lowest order a sublevel normalize values = Ok P /\
    forall lo hi, smallest values lo -> largest values hi ->
      ((normalize = false \/ lo = hi) -> P = map (fun q => (IZR (fst q), IZR (snd q))) D) /\
      (normalize = true -> (lo < hi)%Z ->
        P = map (fun q => ((IZR (fst q) - IZR lo) / (IZR hi - IZR lo), (IZR (snd q) - IZR lo) / (IZR hi - IZR lo))%R) D /\
        forall q, In q P -> (0 <= fst q <= 1 /\ 0 <= snd q <= 1)%R).
Proof.
  intros inf big lowest order a sub nz values Ho Hn HB.
  destruct (C157_diagram inf big lowest order a sub values Ho Hn HB) as (D & ED & HD).
  exists D, (analysis_points nz (minmaxData big lowest (analysis_complex sub values)) D). refine (conj HD (conj _ _)).
  { unfold analysis. cbn zeta. rewrite ED. reflexivity. }
  assert (Hne : values <> []) by (intros ->; simpl in Hn; lia).
  destruct (minmax_values big lowest sub values Hne (fun z Hz => proj1 (HB z Hz))) as [Hlo Hhi]. cbn zeta in Hlo, Hhi.
  set (mm := minmaxData big lowest (analysis_complex sub values)) in *. clearbody mm.
  intros lo hi Slo Shi. rewrite (smallest_unique values lo (fst mm) Slo Hlo) in *. rewrite (largest_unique values hi (snd mm) Shi Hhi) in *. clear lo hi Slo Shi.
  unfold analysis_points. split.
  - intro H. replace (nz && negb (fst mm =? snd mm)%Z) with false; [reflexivity|]. destruct H as [->| ->]; [reflexivity|]. rewrite Z.eqb_refl. symmetry. apply andb_false_r.
  - intros -> L. replace (fst mm =? snd mm)%Z with false by (symmetry; apply Z.eqb_neq; lia). cbn [negb andb]. split; [reflexivity|].
    intros q Hq. apply in_map_iff in Hq. destruct Hq as (q' & <- & Hq). cbn [fst snd].
    assert (B : (fst mm <= fst q' <= snd mm)%Z /\ (fst mm <= snd q' <= snd mm)%Z).
    { destruct HD as [PD HD]. specialize (HD _ _ Hlo Hhi).
      assert (If : In (fst q') values) by (apply (Permutation_in _ PD), in_map, Hq). destruct Hlo as [_ Blo], Hhi as [_ Bhi].
      pose proof (Blo _ If). pose proof (Bhi _ If). destruct sub; destruct HD as [HD _]; specialize (HD q' Hq); lia. }
    assert (G : forall z, (fst mm <= z <= snd mm)%Z -> (0 <= (IZR z - IZR (fst mm)) / (IZR (snd mm) - IZR (fst mm)) <= 1)%R).
    { intros z [Z1 Z2]. apply IZR_le in Z1, Z2. apply IZR_lt in L. split.
      - apply Rmult_le_pos; [lra|left; apply Rinv_0_lt_compat; lra].
      - apply (Rmult_le_reg_r (IZR (snd mm) - IZR (fst mm))%R); [lra|]. unfold Rdiv. rewrite Rmult_assoc, Rinv_l by lra. lra. }
    split; apply G; tauto.
Qed.

(** the summary of a diagram *)
Definition persistences (D : list (R * R)) : list R := map (fun q => (snd q - fst q)%R) D.
Fixpoint sum (l : list R) : R := match l with [] => 0%R | x :: t => (x + sum t)%R end.

Lemma fold_min_R l : forall h, let m := fold_left Rmin l h in In m (h :: l) /\ forall x, In x (h :: l) -> (m <= x)%R.
Proof.
  induction l as [|a l IH]; intros h m; [split; [left; reflexivity|intros x [<-|[]]; unfold m; cbn; lra]|].
  unfold m. cbn [fold_left]. destruct (IH (Rmin h a)) as [A B]. cbn zeta in A, B. set (n := fold_left Rmin l (Rmin h a)) in *. clearbody n.
  pose proof (B _ (or_introl eq_refl)) as L. pose proof (Rmin_l h a). pose proof (Rmin_r h a). split.
  - destruct A as [A|A]; [|right; right; exact A]. unfold Rmin in A. destruct (Rle_dec h a); [left; exact A|right; left; exact A].
  - intros x [<-|[<-|I]]; [lra|lra|apply B; right; exact I].
Qed.
Lemma fold_max_R l : forall h, let m := fold_left Rmax l h in In m (h :: l) /\ forall x, In x (h :: l) -> (x <= m)%R.
Proof.
  induction l as [|a l IH]; intros h m; [split; [left; reflexivity|intros x [<-|[]]; unfold m; cbn; lra]|].
  unfold m. cbn [fold_left]. destruct (IH (Rmax h a)) as [A B]. cbn zeta in A, B. set (n := fold_left Rmax l (Rmax h a)) in *. clearbody n.
  pose proof (B _ (or_introl eq_refl)) as L. pose proof (Rmax_l h a). pose proof (Rmax_r h a). split.
  - destruct A as [A|A]; [|right; right; exact A]. unfold Rmax in A. destruct (Rle_dec h a); [right; left; exact A|left; exact A].
  - intros x [<-|[<-|I]]; [lra|lra|apply B; right; exact I].
Qed.
Lemma fold_right_sum l : fold_right Rplus 0%R l = sum l.
Proof. induction l as [|x l IH]; [reflexivity|]. cbn [fold_right sum]. rewrite IH. reflexivity. Qed.

Theorem C157_condensed : forall D, D <> [] -> exists mn mx mean norm,
  condensePersistenceDiagram D = Ok [mn; mx; mean; norm] /\
  (In mn (persistences D) /\ forall x, In x (persistences D) -> (mn <= x)%R) /\
  (In mx (persistences D) /\ forall x, In x (persistences D) -> (x <= mx)%R) /\
  (mean * INR (length D) = sum (persistences D))%R /\
  (0 <= norm)%R /\ (norm * norm = sum (map (fun x => x * x) (persistences D)))%R.
Proof.
  intros D Hne. unfold condensePersistenceDiagram. fold (persistences D).
  assert (EL : length (persistences D) = length D) by apply map_length.
  destruct (persistences D) as [|h t] eqn:EP; [destruct D; [contradiction|discriminate]|].
  do 4 eexists. refine (conj eq_refl (conj (fold_min_R t h) (conj (fold_max_R t h) (conj _ (conj (sqrt_pos _) _))))).
  - rewrite fold_right_sum. unfold Rdiv. rewrite Rmult_assoc, Rinv_l, Rmult_1_r; [reflexivity|]. rewrite <- EL. apply not_0_INR. discriminate.
  - rewrite fold_right_sum. assert (S : forall l, (0 <= sum (map (fun x => (Rabs x * Rabs x)%R) l) /\ sum (map (fun x => (Rabs x * Rabs x)%R) l) = sum (map (fun x => (x * x)%R) l))%R).
    { induction l as [|x l [I1 I2]]; [cbn; split; [lra|reflexivity]|]. cbn [map sum].
      assert (X : (Rabs x * Rabs x = x * x)%R) by (unfold Rabs; destruct (Rcase_abs x); ring). pose proof (Rle_0_sqr x) as Q. unfold Rsqr in Q. rewrite X. split; lra. }
    destruct (S (h :: t)) as [S1 S2]. rewrite sqrt_sqrt by exact S1. exact S2.
Qed.

(** values 0, 3, 1, 2, 1 *)
Example C157_example :
  analysis_diagram 99 50 (-50) (fun l => l) AStandard true (analysis_complex true [0; 3; 1; 2; 1]%Z) = Ok [(0, 3); (1, 3); (1, 2); (2, 2); (3, 3)]%Z /\
  analysis_diagram 99 50 (-50) (fun l => l) AStandard false (analysis_complex false [0; 3; 1; 2; 1]%Z) = Ok [(3, 0); (2, 1); (1, 1); (1, 1); (0, 0)]%Z /\
  interval_representatives (fun z => (z <= 1)%Z) (fun z => (z <= 2)%Z) [0; 3; 1; 2; 1]%Z [0; 4].
Proof.
  refine (conj _ (conj _ _)); [vm_compute; reflexivity|vm_compute; reflexivity|].
  unfold interval_representatives. refine (conj _ (conj _ (conj _ _))).
  - repeat constructor; simpl; lia.
  - intros u [<-|[<-|[]]]; simpl; lia.
  - intros w Hw L. cbn [length] in Hw. destruct w as [|[|[|[|[|w]]]]]; cbn in L; try lia.
    + exists 0. split; [left; reflexivity|]. intros k Hk. unfold between in Hk. replace k with 0 by lia. cbn. lia.
    + exists 4. split; [right; left; reflexivity|]. intros k Hk. unfold between in Hk. assert (E : k = 2 \/ k = 3 \/ k = 4) by lia. destruct E as [->|[->| ->]]; cbn; lia.
    + exists 4. split; [right; left; reflexivity|]. intros k Hk. unfold between in Hk. replace k with 4 by lia. cbn. lia.
  - assert (X : forall u w, between u w 1 -> (forall k, between u w k -> (nth k [0; 3; 1; 2; 1] 0 <= 2)%Z) -> False).
    { intros u w B H. specialize (H 1 B). cbn in H. lia. }
    intros u w [<-|[<-|[]]] [<-|[<-|[]]] H; try reflexivity; exfalso; (eapply X; [|exact H]); unfold between; lia.
Qed.

Print Assumptions C157_diagram.
Print Assumptions C157_short_refuted.
Print Assumptions C157_analysis.
Print Assumptions C157_condensed.
