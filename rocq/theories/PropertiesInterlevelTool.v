(** * C167: the output of interlevel_set_persistence_hierarchy. *)
From Coq Require Import List Arith Bool ZArith Lia Sorted Permutation Relations.
From Verif Require Import Base BaseFacts Matrix SpecMatrix DualFacts PairingFacts Simplex SimplexFacts SpecComplex Complex ComplexFacts FiltrationFacts History SubcomplexFacts RepFacts
  RipsFacts PropertiesRips UnionFind SpecUnionFind UnionFindFacts PropertiesUnionFind Components ComponentFacts FloydFacts Barycentric BarycentricFacts PropertiesComponents
  PropertiesComplex Function PropertiesFunction SpecDiagram Diagram DiagramFacts PropertiesDiagram ExtendedHierarchy SearchFacts ExtendedFacts InterlevelFacts PathFacts HierarchyFacts
  PropertiesExtendedHierarchy InterlevelTool.
Import ListNotations.
Local Open Scope nat_scope.

(** ** Classes of equal diagrams *)
Lemma points_eqb_eq l m : points_eqb l m = true <-> l = m.
Proof.
  revert m. induction l as [|[a b] l IH]; intros [|[c d] m]; cbn [points_eqb]; try (split; [discriminate|congruence]); [tauto|].
  unfold point_eqb. cbn [fst snd]. rewrite !andb_true_iff, !Z.eqb_eq, IH. split; [intros [[-> ->] ->]; reflexivity|intro E; injection E as -> -> ->; auto].
Qed.
(** the diagrams with the given indices have the same points *)
Definition same (ds : list diagram) (i j : nat) : Prop := exists D E, nth_error ds i = Some D /\ nth_error ds j = Some E /\ points D = points E.
Lemma index_pairs_in n i j : In (i, j) (index_pairs n) <-> i < j < n.
Proof.
  unfold index_pairs. rewrite in_flat_map. split.
  - intros (k & Hk & H). apply in_map_iff in H. destruct H as (j' & E & Hj). injection E as -> ->. apply in_seq in Hk. apply in_seq in Hj. lia.
  - intro H. exists i. split; [apply in_seq; lia|]. apply in_map_iff. exists j. split; [reflexivity|]. apply in_seq. lia.
Qed.
Definition equal_at (ds : list diagram) (p : nat * nat) : bool :=
  match nth_error ds (fst p), nth_error ds (snd p) with Some D, Some E => points_eqb (points D) (points E) | _, _ => false end.
Definition merge_ops (ds : list diagram) : list uf_op := map (fun p => UMerge (snd p) (fst p)) (filter (equal_at ds) (index_pairs (length ds))).
Lemma compare_run ds l uf : (forall i j, In (i, j) l -> i < length ds /\ j < length ds) ->
  foldM (compare_step ds) l uf = foldM uf_exec (map (fun p => UMerge (snd p) (fst p)) (filter (equal_at ds) l)) uf.
Proof.
  revert uf. induction l as [|[i j] l IH]; intros uf H; [reflexivity|]. destruct (H i j (or_introl eq_refl)) as [Hi Hj].
  cbn [foldM filter]. unfold compare_step at 1, equal_at at 1. cbn [fst snd]. unfold at_.
  destruct (nth_error ds i) as [D|] eqn:ED; [|apply nth_error_None in ED; lia]. destruct (nth_error ds j) as [E|] eqn:EE; [|apply nth_error_None in EE; lia]. cbn [bind].
  destruct (points_eqb (points D) (points E)); cbn [map foldM uf_exec fst snd bind].
  - destruct (uf_merge uf j i); cbn [bind]; try reflexivity. apply IH. intros; apply H; right; assumption.
  - apply IH. intros; apply H; right; assumption.
Qed.
Lemma merged_app a b : merged_pairs (a ++ b) = merged_pairs a ++ merged_pairs b.
Proof. induction a as [|[] a IH]; cbn [app merged_pairs]; rewrite ?IH; reflexivity. Qed.
Lemma merged_of_ops l : merged_pairs (map (fun p => UMerge (snd p) (fst p)) l) = map (fun p => (snd p, fst p)) l.
Proof. induction l as [|p l IH]; [reflexivity|]. cbn [map merged_pairs]. rewrite IH. reflexivity. Qed.

Lemma same_connected ds i j : i < length ds -> j < length ds -> (connected (merged_pairs (merge_ops ds)) i j <-> same ds i j).
Proof.
  unfold merge_ops. rewrite merged_of_ops. set (R := map (fun p => (snd p, fst p)) (filter (equal_at ds) (index_pairs (length ds)))).
  assert (HR : forall u v, In (u, v) R <-> v < u < length ds /\ same ds v u).
  { intros u v. unfold R. rewrite in_map_iff. split.
    - intros ([a b] & E & H). cbn [fst snd] in E. injection E as <- <-. apply filter_In in H. destruct H as [H1 H2]. apply index_pairs_in in H1. split; [exact H1|].
      unfold equal_at in H2. cbn [fst snd] in H2. destruct (nth_error ds a) as [D|] eqn:ED; [|discriminate]. destruct (nth_error ds b) as [E|] eqn:EE; [|discriminate]. apply points_eqb_eq in H2. exists D, E. auto.
    - intros [H (D & E & ED & EE & HP)]. exists (v, u). split; [reflexivity|]. apply filter_In. split; [apply index_pairs_in; exact H|]. unfold equal_at. cbn [fst snd]. rewrite ED, EE. apply points_eqb_eq, HP. }
  intros Hi Hj. split.
  - intro H. assert (G : forall a b, connected R a b -> a < length ds -> same ds a b /\ b < length ds).
    { clear i j Hi Hj H. intros a b H. assert (X : (a < length ds <-> b < length ds) /\ (a < length ds -> same ds a b)); [|intro Ha; split; [apply X; exact Ha|apply X; exact Ha]].
      induction H as [a b H|a|a b H IH|a b c H1 IH1 H2 IH2].
      - apply HR in H. destruct H as [H (D & E & ED & EE & HP)]. split; [lia|]. intros _. exists E, D. auto.
      - split; [tauto|]. intro Ha. destruct (nth_error ds a) as [D|] eqn:ED; [|apply nth_error_None in ED; lia]. exists D, D. auto.
      - split; [tauto|]. intro Hb. destruct IH as [I1 I2]. destruct (I2 (proj2 I1 Hb)) as (D & E & ED & EE & HP). exists E, D. auto.
      - split; [tauto|]. intro Ha. destruct IH1 as [I1 I2]. destruct IH2 as [I3 I4]. destruct (I2 Ha) as (D & E & ED & EE & HP). destruct (I4 (proj1 I1 Ha)) as (E' & F & EE' & EF & HP').
        rewrite EE in EE'. injection EE' as <-. exists D, F. rewrite HP. auto. }
    apply (G i j H Hi).
  - intro H. destruct (lt_eq_lt_dec i j) as [[L| ->]|L]; [apply rst_sym, rst_step, HR; split; [lia|exact H]|apply rst_refl|].
    apply rst_step, HR. split; [lia|]. destruct H as (D & E & ED & EE & HP). exists E, D. auto.
Qed.

Lemma exec_get order m v m' l : uf_get order m v = Ok (m', l) -> uf_exec m (UGet v) = Ok m'.
Proof.
  unfold uf_get. cbn [uf_exec]. unfold uf_get. destruct (uf_find m v) as [[m1 p]| | |]; cbn [bind]; try discriminate.
  destruct (foldM (get_step p) (map fst m1) (m1, [])) as [[m2 l2]| | |]; cbn [bind]; try discriminate. intro E. injection E as <- _. reflexivity.
Qed.
Lemma exec_roots order m m' l : uf_roots order m = Ok (m', l) -> uf_exec m URoots = Ok m'.
Proof.
  cbn [uf_exec]. unfold uf_roots. destruct (foldM roots_step (map fst m) (m, [])) as [[m2 l2]| | |]; cbn [bind]; try discriminate. intro E. injection E as <- _. reflexivity.
Qed.
Lemma run_snoc V h o m m' : uf_run V h = Ok m -> uf_exec m o = Ok m' -> uf_run V (h ++ [o]) = Ok m'.
Proof. unfold uf_run. intros H1 H2. rewrite foldM_app, H1. cbn [bind foldM]. rewrite H2. reflexivity. Qed.

Theorem C167_classes : forall order ds, (forall l, Permutation (order l) l) -> exists count classes, diagram_classes order ds = Ok (count, classes) /\
  (* the number of different diagrams *)
  (exists different, NoDup different /\ length different = count /\ forall P, In P different <-> exists D, In D ds /\ points D = P) /\
  (* the classes with more than one member *)
  (forall c, In c classes -> NoDup c /\ 2 <= length c /\ exists P, forall i, In i c <-> exists D, nth_error ds i = Some D /\ points D = P) /\
  (forall i j, i <> j -> same ds i j -> exists c, In c classes /\ In i c /\ In j c) /\
  forall a b c c' i, nth_error classes a = Some c -> nth_error classes b = Some c' -> In i c -> In i c' -> a = b.
Proof.
  intros order ds Ho. set (n := length ds). set (V := seq 0 n).
  assert (Hk0 : forall o v, In o (merge_ops ds) -> In v (mentions o) -> In v V).
  { intros o v Ho' Hv. unfold merge_ops in Ho'. apply in_map_iff in Ho'. destruct Ho' as ([i j] & <- & H). apply filter_In in H. destruct H as [H _]. apply index_pairs_in in H. fold n in H.
    apply in_seq. destruct Hv as [<-|[<-|[]]]; cbn [fst snd]; lia. }
  destruct (C21_classes V (merge_ops ds) Hk0) as (m0 & rep & E0 & Hrep & Hself & _ & _ & _ & Hroots & _).
  destruct (Hroots order Ho) as (m1 & roots & E1 & Nr & Ir).
  assert (E0' : foldM (compare_step ds) (index_pairs n) (uf_init V) = Ok m0).
  { rewrite compare_run; [exact E0|]. intros i j H. apply index_pairs_in in H. fold n. lia. }
  set (h1 := merge_ops ds ++ [URoots]). assert (R1 : uf_run V h1 = Ok m1) by (apply (run_snoc V _ _ m0); [exact E0|apply (exec_roots order m0 m1 roots E1)]).
  assert (C1 : forall i j, i < n -> j < n -> (rep i = rep j <-> same ds i j)).
  { intros i j Hi Hj. rewrite Hrep by (apply in_seq; lia). apply same_connected; assumption. }
  (* the loop over roots *)
  assert (HL : forall l done m acc, (forall r, In r l -> r < n) -> uf_run V (h1 ++ map UGet done) = Ok m -> (forall r, In r done -> r < n) ->
    exists m' cs, foldM (class_step order) l (m, acc) = Ok (m', acc ++ concat (map (fun c : list nat => if 1 <? length c then [c] else []) cs)) /\
      Forall2 (fun r c => NoDup c /\ forall i, In i c <-> i < n /\ same ds i r) l cs).
  { induction l as [|r l IH]; intros done m acc Hl Hm Hd.
    - exists m, []. cbn [foldM map concat]. rewrite app_nil_r. split; [reflexivity|constructor].
    - assert (Hk : forall o v, In o (h1 ++ map UGet done) -> In v (mentions o) -> In v V).
      { intros o v Ho' Hv. unfold h1 in Ho'. rewrite !in_app_iff in Ho'. destruct Ho' as [[Ho'|[<-|[]]]|Ho']; [apply (Hk0 o v Ho' Hv)|destruct Hv|].
        apply in_map_iff in Ho'. destruct Ho' as (x & <- & Hx). destruct Hv as [<-|[]]. specialize (Hd x Hx). apply in_seq. lia. }
      destruct (C21_classes V _ Hk) as (m' & rep' & E' & _ & _ & _ & _ & _ & _ & Hget). rewrite Hm in E'. injection E' as <-.
      assert (Hr : r < n) by (apply Hl; left; reflexivity).
      destruct (Hget order r Ho) as (m2 & c & Eg & Nc & Ic); [apply in_seq; lia|].
      assert (MP : merged_pairs (h1 ++ map UGet done) = merged_pairs (merge_ops ds)).
      { unfold h1. rewrite !merged_app. cbn [merged_pairs]. assert (X : merged_pairs (map UGet done) = []) by (clear; induction done as [|x d IHd]; [reflexivity|exact IHd]). rewrite X, !app_nil_r. reflexivity. }
      rewrite MP in Ic. cbn [foldM]. unfold class_step at 1. cbn [fst snd]. rewrite Eg. cbn [bind].
      destruct (IH (done ++ [r]) m2 (if 1 <? length c then acc ++ [c] else acc)) as (m3 & cs & E3 & F3).
      + intros; apply Hl; right; assumption.
      + rewrite map_app, app_assoc. cbn [map]. apply (run_snoc V _ _ m); [exact Hm|apply (exec_get order m r m2 c Eg)].
      + intros x Hx. apply in_app_iff in Hx. destruct Hx as [Hx|[<-|[]]]; auto.
      + exists m3, (c :: cs). rewrite E3. cbn [map concat]. split.
        * destruct (1 <? length c); [rewrite <- app_assoc; reflexivity|reflexivity].
        * constructor; [|exact F3]. split; [exact Nc|]. intro i. rewrite Ic. unfold V. rewrite in_seq. split; intros [H1 H2]; (split; [lia|]); [apply same_connected in H2; auto; fold n; lia|apply same_connected; auto; fold n; lia]. }
  destruct (HL roots [] m1 []) as (m2 & cs & E2 & F2); [intros r Hr; apply Ir in Hr; destruct Hr as [Hr _]; apply in_seq in Hr; lia|cbn [map]; rewrite app_nil_r; exact R1|intros r []|].
  set (classes := concat (map (fun c : list nat => if 1 <? length c then [c] else []) cs)) in *.
  exists (length roots), classes. unfold diagram_classes. fold n. fold V. rewrite E0'. cbn [bind]. rewrite E1. cbn [bind]. rewrite E2. cbn [bind app].
  assert (Hcl : forall c, In c classes <-> In c cs /\ 1 < length c).
  { intro c. unfold classes. rewrite in_concat. split.
    - intros (x & Hx & Hc). apply in_map_iff in Hx. destruct Hx as (c' & <- & Hc'). destruct (Nat.ltb_spec 1 (length c')); [destruct Hc as [<-|[]]; auto|destruct Hc].
    - intros [H1 H2]. exists [c]. split; [apply in_map_iff; exists c; split; [destruct (Nat.ltb_spec 1 (length c)); [reflexivity|lia]|exact H1]|left; reflexivity]. }
  assert (Hcs : forall c, In c cs -> exists r, In r roots /\ NoDup c /\ forall i, In i c <-> i < n /\ same ds i r).
  { clear -F2. induction F2 as [|r c l cs H F IH]; [intros c []|]. intros x [<-|Hx]; [exists r; split; [left; reflexivity|exact H]|]. destruct (IH x Hx) as (r' & Hr & H'). exists r'. split; [right; exact Hr|exact H']. }
  assert (Hrc : forall r, In r roots -> exists c, In c cs /\ NoDup c /\ forall i, In i c <-> i < n /\ same ds i r).
  { clear -F2. induction F2 as [|r c l cs H F IH]; [intros c []|]. intros x [<-|Hx]; [exists c; split; [left; reflexivity|exact H]|]. destruct (IH x Hx) as (r' & Hr & H'). exists r'. split; [right; exact Hr|exact H']. }
  assert (Hn : forall r, In r roots -> r < n) by (intros r Hr; apply Ir in Hr; destruct Hr as [Hr _]; apply in_seq in Hr; lia).
  refine (conj eq_refl (conj _ (conj _ (conj _ _)))).
  - exists (map (fun r => points (nth r ds (Diagram 0 []))) roots). rewrite map_length. refine (conj _ (conj eq_refl _)).
    + apply NoDup_map_inj_in; [|exact Nr]. intros r s Hr Hs E. assert (Q : rep r = rep s).
      { apply C1; [apply Hn; exact Hr|apply Hn; exact Hs|]. eexists _, _. refine (conj (nth_error_nth' ds (Diagram 0 []) (Hn r Hr)) (conj (nth_error_nth' ds (Diagram 0 []) (Hn s Hs)) E)). }
      apply Ir in Hr. apply Ir in Hs. destruct Hr as [_ Hr]. destruct Hs as [_ Hs]. congruence.
    + intro P. rewrite in_map_iff. split.
      * intros (r & <- & Hr). exists (nth r ds (Diagram 0 [])). split; [apply nth_In; apply Hn; exact Hr|reflexivity].
      * intros (D & HD & <-). apply In_nth_error in HD. destruct HD as [i Hi]. assert (Hin : i < n) by (apply nth_error_Some; congruence).
        destruct (Hself i) as [S1 S2]; [apply in_seq; lia|]. exists (rep i). assert (Rn : rep i < n) by (apply in_seq in S1; lia). split; [|apply Ir; split; assumption].
        assert (Q : same ds (rep i) i) by (apply C1; [exact Rn|exact Hin|exact S2]). destruct Q as (A & B & EA & EB & HP). rewrite Hi in EB. injection EB as <-. rewrite (nth_error_nth ds (rep i) _ EA). exact HP.
  - intros c Hc. apply Hcl in Hc. destruct Hc as [Hc Hlen]. destruct (Hcs c Hc) as (r & Hr & Nc & Ic). refine (conj Nc (conj Hlen _)).
    destruct (nth_error ds r) as [D|] eqn:ED; [|apply nth_error_None in ED; specialize (Hn r Hr); fold n in ED; lia]. exists (points D). intro i. rewrite Ic. split.
    + intros [_ (A & B & EA & EB & HP)]. rewrite ED in EB. injection EB as <-. exists A. auto.
    + intros (A & EA & HP). split; [apply nth_error_Some; congruence|]. exists A, D. auto.
  - intros i j Hij HS. assert (Hin : i < n) by (destruct HS as (A & _ & EA & _); apply nth_error_Some; congruence). assert (Hjn : j < n) by (destruct HS as (_ & A & _ & EA & _); apply nth_error_Some; congruence).
    destruct (Hself i) as [S1 S2]; [apply in_seq; lia|]. assert (Rn : rep i < n) by (apply in_seq in S1; lia).
    destruct (Hrc (rep i)) as (c & Hc & Nc & Ic); [apply Ir; split; assumption|].
    assert (Ii : In i c) by (apply Ic; split; [exact Hin|apply C1; auto]). assert (Ij : In j c) by (apply Ic; split; [exact Hjn|apply C1; auto; rewrite S2; symmetry; apply C1; auto]).
    exists c. refine (conj _ (conj Ii Ij)). apply Hcl. split; [exact Hc|]. destruct c as [|x [|y c]]; [destruct Ii| |cbn; lia]. destruct Ii as [<-|[]]. destruct Ij as [E|[]]. contradiction.
  - assert (G : forall a b c c' i, nth_error cs a = Some c -> nth_error cs b = Some c' -> In i c -> In i c' -> a = b).
    { intros a b c c' i Ha Hb Hi Hi'.
      assert (FN : forall a c, nth_error cs a = Some c -> exists r, nth_error roots a = Some r /\ forall i, In i c <-> i < n /\ same ds i r).
      { clear -F2. induction F2 as [|r c l cs H F IH]; intros [|a] x Hx; try discriminate; cbn in *; [injection Hx as <-; exists r; split; [reflexivity|apply H]|apply IH; exact Hx]. }
      destruct (FN a c Ha) as (r & Er & Ic). destruct (FN b c' Hb) as (r' & Er' & Ic'). apply Ic in Hi. apply Ic' in Hi'. destruct Hi as [Hi S1]. destruct Hi' as [_ S2].
      assert (Q : rep r = rep r').
      { apply C1 in S1; [|exact Hi|apply Hn; eapply nth_error_In; exact Er]. apply C1 in S2; [|exact Hi|apply Hn; eapply nth_error_In; exact Er']. congruence. }
      assert (r = r'). { pose proof (proj1 (Ir r) (nth_error_In _ _ Er)) as [_ X]. pose proof (proj1 (Ir r') (nth_error_In _ _ Er')) as [_ X']. congruence. }
      subst r'. rewrite NoDup_nth_error in Nr. apply Nr; [apply nth_error_Some; congruence|congruence]. }
    unfold classes. clear -G. induction cs as [|c0 cs IH]; intros a b c c' i Ha Hb Hi Hi'; [destruct a; discriminate|]. cbn [map concat] in Ha, Hb.
    assert (IH' : forall a b c c' i, nth_error (concat (map (fun c : list nat => if 1 <? length c then [c] else []) cs)) a = Some c -> nth_error (concat (map (fun c : list nat => if 1 <? length c then [c] else []) cs)) b = Some c' -> In i c -> In i c' -> a = b).
    { apply IH. intros a1 b1 c1 c1' i1 X1 X2 X3 X4. specialize (G (S a1) (S b1) c1 c1' i1 X1 X2 X3 X4). lia. }
    assert (Z : forall x k, nth_error (concat (map (fun c : list nat => if 1 <? length c then [c] else []) cs)) k = Some x -> exists k', nth_error cs k' = Some x).
    { intros x k Hx. apply nth_error_In in Hx. apply in_concat in Hx. destruct Hx as (y & Hy & Hx). apply in_map_iff in Hy. destruct Hy as (z & <- & Hz). destruct (1 <? length z); [destruct Hx as [<-|[]]; apply In_nth_error; exact Hz|destruct Hx]. }
    destruct (1 <? length c0); cbn [app] in Ha, Hb; [|apply (IH' a b c c' i Ha Hb Hi Hi')].
    destruct a as [|a]; destruct b as [|b]; cbn [nth_error] in Ha, Hb; [reflexivity| | |f_equal; apply (IH' a b c c' i Ha Hb Hi Hi')].
    + exfalso. injection Ha as <-. destruct (Z c' b Hb) as [k' Hk']. specialize (G 0 (S k') c0 c' i eq_refl Hk' Hi Hi'). discriminate.
    + exfalso. injection Hb as <-. destruct (Z c a Ha) as [k' Hk']. specialize (G (S k') 0 c c0 i Hk' eq_refl Hi Hi'). discriminate.
Qed.

(** ** The output of one complex *)
(** the values of creation and destruction of the component of a vertex *)
Definition lifetime (L : list simplex) (inf : Z) (v : nat) (p : Z * Z) : Prop :=
  value L v (fst p) /\ ((exists k o d, k < length L /\ merges L k v o d /\ snd p = d) \/ (eldest L (length L) v v /\ snd p = inf)).
Definition before (p q : Z * Z) : Prop := (fst p < fst q \/ (fst p = fst q /\ snd p <= snd q))%Z.
(** vertices and edges are numbered according to the given list *)
Definition numbered (vs : list nat) (e l : nat * nat) : Prop := nth_error vs (fst l) = Some (fst e) /\ nth_error vs (snd l) = Some (snd e).

Lemma forall2_choose {A B C} (R : A -> B -> C -> Prop) l m : Forall2 (fun a b => exists c, R a b c) l m ->
  exists cs, Forall2 (fun a c => exists b, R a b c) l cs /\ Forall2 (fun c b => exists a, In a l /\ R a b c) cs m.
Proof.
  induction 1 as [|a b l m (c & H) F (cs & H1 & H2)]; [exists []; split; constructor|]. exists (c :: cs). split; constructor; eauto.
  - exists a. split; [left; reflexivity|exact H].
  - clear -H2. induction H2 as [|c b cs m (x & Hx & Hr) F IH]; constructor; [exists x; split; [right; exact Hx|exact Hr]|exact IH].
Qed.

Section Output.
  Variable K : complex.
  Hypothesis HR : reachable K.
  Hypothesis HC : closed (by_index K).

  Let L := by_index K.
  Let V := k_vertices K.

  Lemma covered m : m <= length L -> exists rep, reps K m rep /\ forall w, In w V -> rep w = w \/ exists k o d, k < m /\ merges L k w o d.
  Proof.
    induction m as [|m IH]; intro Hm.
    - exists (fun u => u). split; [|auto]. refine (conj _ (conj _ _)); [auto| |auto]. intros u v _ _. split; [intros ->; apply rst_refl|]. induction 1 as [u v (k & d & Hk & _)| | |]; [lia|congruence..].
    - destruct IH as (rep & R & HV); [lia|]. destruct (nth_error L m) as [s|] eqn:Es; [|apply nth_error_None in Es; lia].
      assert (Skip : (forall u v d, edge L m u v d -> rep u = rep v) -> exists rep, reps K (S m) rep /\ forall w, In w V -> rep w = w \/ exists k o d, k < S m /\ merges L k w o d).
      { intro H. exists rep. split; [apply (reps_skip K HR HC m rep H R)|]. intros w Hw. destruct (HV w Hw) as [E|(k & o & d & Hk & Hm')]; [auto|]. right. exists k, o, d. split; [lia|exact Hm']. }
      assert (Merge : forall u v y o d, edge L m u v d -> In y V -> rep y = y -> rep o = o -> rep u = y /\ rep v = o \/ rep u = o /\ rep v = y -> idx K o < idx K y ->
        exists rep, reps K (S m) rep /\ forall w, In w V -> rep w = w \/ exists k o d, k < S m /\ merges L k w o d).
      { intros u v y o d He Hy Ry Ro Huv Hlt. exists (merged rep y o). split; [apply (reps_merge K HR HC m rep u v y o d He Huv Hlt R)|]. intros w Hw.
        destruct (HV w Hw) as [E|(k & o' & d' & Hk & Hm')]; [|right; exists k, o', d'; split; [lia|exact Hm']]. unfold merged. rewrite E, Ry, Ro. destruct (Nat.eqb_spec w y) as [->|N]; [|auto].
        right. exists m, o, d. split; [lia|]. apply (merges_rep K HR HC m rep y o d R). destruct Huv as [[H1 H2]|[H1 H2]]; [exists u, v|exists v, u]; refine (conj _ (conj (eq_sym _) (conj (eq_sym _) Hlt))); auto. apply (edge_sym K). exact He. }
      destruct (Nat.eq_dec (sdim s) 1) as [D1|D1].
      + destruct (edge_form K s D1 (nth_error_In _ _ Es)) as (u & v & Ev). destruct (edge_of K HR HC m s u v Es Ev) as (He & Hu & Hv & Huv).
        pose proof R as (R0 & _ & _). destruct (R0 u Hu) as [Vu Ru]. destruct (R0 v Hv) as [Vv Rv].
        destruct (Nat.eq_dec (rep u) (rep v)) as [E|N].
        * apply Skip. intros u' v' d' He'. destruct (edge_unique K HR HC m u v _ u' v' d' He He') as (_ & [[-> ->]|[-> ->]]); congruence.
        * assert (NI : idx K (rep u) <> idx K (rep v)) by (intro E; apply N; apply (idx_inj K HR); assumption).
          destruct (Nat.lt_ge_cases (idx K (rep v)) (idx K (rep u))) as [Lt|Ge]; [apply (Merge u v (rep u) (rep v) (data s)); auto|apply (Merge u v (rep v) (rep u) (data s)); auto; lia].
      + apply Skip. intros u v d He. destruct (edge_inv K HR HC m u v d He) as (s' & Es' & _ & _ & Dm & _). unfold L in Es. congruence.
  Qed.
  Lemma merges_once k y o d y' o' d' : k <= length L -> merges L k y o d -> merges L k y' o' d' -> y = y' /\ o = o' /\ d = d'.
  Proof.
    intros Hk H H'. destruct (covered k Hk) as (rep & R & _). apply (merges_rep K HR HC k rep y o d R) in H. apply (merges_rep K HR HC k rep y' o' d' R) in H'.
    destruct H as (u & v & He & -> & -> & Hlt). destruct H' as (u' & v' & He' & -> & -> & Hlt'). destruct (edge_unique K HR HC k u v d u' v' d' He He') as (-> & [[-> ->]|[-> ->]]); [auto|lia].
  Qed.
  Lemma L_nodup : NoDup (map verts L).
  Proof. apply kwf_nodup, reachable_kwf, HR. Qed.
  Lemma dead k y o d m u : merges L k y o d -> k < m -> ~ eldest L m u y.
  Proof.
    intros Hm Hk (J & _ & HE). pose proof Hm as (a & b & He & Ha & Hb & Ho).
    assert (Jo : joined_before L m y o).
    { apply rst_trans with a; [apply rst_sym, (joined_le L k m); [lia|apply Ha]|]. apply rst_trans with b; [apply rst_step; exists k, d; split; [exact Hk|exact He]|]. apply (joined_le L k m); [lia|apply Hb]. }
    destruct (HE o (rst_trans _ _ _ _ _ J Jo)) as [->|H].
    - apply (older_asym L L_nodup y y Ho Ho).
    - apply (older_asym L L_nodup y o H Ho).
  Qed.
  Lemma merges_born k y o d : merges L k y o d -> (exists i, born L y i) /\ exists i, born L o i.
  Proof. intros (u & v & _ & (_ & H1 & _) & (_ & H2 & _) & _). auto. Qed.
  Lemma merges_lt k y o d : merges L k y o d -> k < length L.
  Proof. intros (u & v & (s & Hs & _) & _). apply nth_error_Some. congruence. Qed.
  Lemma merges_again k k' y o d o' d' : merges L k y o d -> merges L k' y o' d' -> k = k'.
  Proof.
    intros H H'. destruct (lt_eq_lt_dec k k') as [[Lt|E]|Gt]; [|exact E|]; exfalso.
    - destruct H' as (u & v & _ & He & _). apply (dead k y o d k' u H Lt He).
    - destruct H as (u & v & _ & He & _). apply (dead k' y o' d' k u H' Gt He).
  Qed.
  Lemma born_data v i : born L v i -> value L v (data_at K i) /\ i < length L /\ dim_at K i = 0.
  Proof.
    intros (s & Hs & Ev). unfold data_at, dim_at. fold L. rewrite (nth_error_nth L i _ Hs). split; [exists s; split; [eapply nth_error_In; exact Hs|auto]|]. split; [apply nth_error_Some; congruence|rewrite Ev; reflexivity].
  Qed.
  Lemma merges_data k y o d : merges L k y o d -> data_at K k = d.
  Proof. intros (u & v & (s & Hs & _ & _ & Hd) & _). unfold data_at. fold L. rewrite (nth_error_nth L k _ Hs). exact Hd. Qed.

  (** the pairing contains the lifetime of every vertex once *)
  Lemma pairing_lifetimes inf pairs unpaired : elder_pairs L (length L) pairs -> unpaired_vertices L unpaired ->
    exists vs, NoDup vs /\ (forall v, In v vs <-> exists i, born L v i) /\
      Forall2 (fun v q => born L v (fst q) /\ lifetime L inf v (pair_point inf K q)) vs (pairs ++ unpaired).
  Proof.
    intros (js & S1 & J1 & F1) (roots & S2 & J2 & F2).
    set (R := fun k (q : nat * option nat) y => exists o d i, merges L k y o d /\ born L y i /\ q = (i, Some k)).
    destruct (forall2_choose R js pairs) as (ys & G1 & G2); [exact F1|].
    assert (Y : forall y, In y ys -> exists k o d, In k js /\ merges L k y o d).
    { clear -G1. induction G1 as [|k y js ys (q & o & d & i & Hm & _) F IH]; [intros y []|]. intros x [<-|Hx]; [exists k, o, d; split; [left; reflexivity|exact Hm]|]. destruct (IH x Hx) as (k' & o' & d' & Hk & H'). exists k', o', d'. split; [right; exact Hk|exact H']. }
    exists (ys ++ roots). refine (conj _ (conj _ _)).
    - apply NoDup_app_intro.
      + assert (N1 : NoDup js) by (apply SSlt_NoDup; exact S1). clear -G1 N1 HR HC. induction G1 as [|k y js ys (q & o & d & i & Hm & _) F IH]; [constructor|]. inversion N1 as [|? ? N2 N3]; subst. constructor; [|apply IH; exact N3].
        intro Hy. assert (X : exists k' o' d', In k' js /\ merges L k' y o' d').
        { clear -F Hy. induction F as [|k y' js ys (q & o & d & i & Hm & _) F IH]; [destruct Hy|]. destruct Hy as [->|Hy]; [exists k, o, d; split; [left; reflexivity|exact Hm]|]. destruct (IH Hy) as (k' & o' & d' & Hk & H'). exists k', o', d'. split; [right; exact Hk|exact H']. }
        destruct X as (k' & o' & d' & Hk' & Hm'). rewrite (merges_again k k' y o d o' d' Hm Hm') in N2. apply N2. exact Hk'.
      + apply SSlt_NoDup. exact S2.
      + intros y Hy Hy'. destruct (Y y Hy) as (k & o & d & Hk & Hm). apply J2 in Hy'. apply (dead k y o d (length L) y Hm); [apply J1; exact Hk|exact Hy'].
    - intro v. rewrite in_app_iff, J2. split.
      + intros [H|H]; [destruct (Y v H) as (k & o & d & _ & Hm); apply (merges_born k v o d Hm)|apply H].
      + intros (i & Hi). destruct (born_inv K HR v i Hi) as [Hv _]. destruct (covered (length L)) as (rep & Hrep & HV); [lia|]. destruct (HV v Hv) as [E|(k & o & d & Hk & Hm)].
        * right. apply (eldest_rep K HR HC (length L) rep v Hrep Hv). symmetry. exact E.
        * left. assert (Ik : In k js) by (apply J1; split; [exact Hk|eauto]).
          assert (X : exists y o' d', In y ys /\ merges L k y o' d').
          { clear -G1 Ik. induction G1 as [|k' y js ys (q & o & d & i & Hm & _) F IH]; [destruct Ik|]. destruct Ik as [->|Ik]; [exists y, o, d; split; [left; reflexivity|exact Hm]|]. destruct (IH Ik) as (y' & o' & d' & Hy & H'). exists y', o', d'. split; [right; exact Hy|exact H']. }
          destruct X as (y & o' & d' & Hy & Hm'). destruct (merges_once k y o' d' v o d ltac:(lia) Hm' Hm) as (<- & _). exact Hy.
    - apply Forall2_app.
      + clear -G2 HR. induction G2 as [|y q ys pairs (k & Hk & o & d & i & Hm & Hb & ->) F IH]; constructor; [|exact IH]. cbn [fst]. split; [exact Hb|]. destruct (born_data y i Hb) as (HV & _). split; [exact HV|].
        left. exists k, o, d. pose proof (merges_lt k y o d Hm) as Hlt. refine (conj Hlt (conj Hm _)). unfold pair_point. cbn [snd]. fold L. apply Nat.ltb_lt in Hlt. rewrite Hlt. apply (merges_data k y o d Hm).
      + assert (J : forall r, In r roots -> eldest L (length L) r r) by (intros r; apply J2). clear -F2 J HR. induction F2 as [|r q roots unp (i & Hb & ->) F IH]; constructor; [|apply IH; intros; apply J; right; assumption].
        cbn [fst]. split; [exact Hb|]. destruct (born_data r i Hb) as (HV & _). split; [exact HV|]. right. split; [apply J; left; reflexivity|reflexivity].
  Qed.
End Output.

Lemma point_ltb_true a b : point_ltb a b = true <-> (fst a < fst b \/ (fst a = fst b /\ snd a < snd b))%Z.
Proof. unfold point_ltb. rewrite orb_true_iff, andb_true_iff, !Z.ltb_lt, Z.eqb_eq. tauto. Qed.
Lemma point_ltb_swo : swo point_ltb.
Proof.
  assert (F : forall a b, point_ltb a b = false <-> before b a).
  { intros a b. rewrite <- not_true_iff_false, point_ltb_true. unfold before. lia. }
  split; [intros x y H; apply F; apply point_ltb_true in H; unfold before; lia|]. intros x y z H1 H2. apply F in H1. apply F in H2. apply F. unfold before in *. lia.
Qed.
Lemma filter_same {A} (f : A -> bool) l : (forall x, In x l -> f x = true) -> filter f l = l.
Proof. induction l as [|a l IH]; intro H; [reflexivity|]. cbn [filter]. rewrite (H a (or_introl eq_refl)), IH; [reflexivity|]. intros; apply H; right; assumption. Qed.

Lemma nodes_fold inf pairing K vs n acc :
  (forall v, In v vs -> exists p, forall i a, hierarchy_node inf pairing K (i, a) v = Ok (S i, a ++ [(i, p)])) ->
  exists ps, foldM (hierarchy_node inf pairing K) vs (n, acc) = Ok (n + length vs, acc ++ combine (seq n (length vs)) ps) /\
    Forall2 (fun v p => forall i a, hierarchy_node inf pairing K (i, a) v = Ok (S i, a ++ [(i, p)])) vs ps.
Proof.
  revert n acc. induction vs as [|v vs IH]; intros n acc H.
  - exists []. cbn [foldM length seq combine]. rewrite app_nil_r, Nat.add_0_r. split; [reflexivity|constructor].
  - destruct (H v (or_introl eq_refl)) as (p & Hp). destruct (IH (S n) (acc ++ [(n, p)])) as (ps & E & F); [intros; apply H; right; assumption|].
    exists (p :: ps). cbn [foldM length seq combine]. rewrite Hp. cbn [bind]. rewrite E, <- app_assoc. cbn [app]. split; [do 2 f_equal; lia|constructor; assumption].
Qed.

Lemma number_nth vs v : In v vs -> nth_error vs (number_of vs v) = Some v.
Proof.
  intro H. unfold number_of. destruct (position (Nat.eqb v) vs) as [i|] eqn:E.
  - apply position_some in E. destruct E as (x & Hx & Ex & _). apply Nat.eqb_eq in Ex. subst x. exact Hx.
  - exfalso. rewrite position_none in E. pose proof (E v H) as X. rewrite Nat.eqb_refl in X. discriminate.
Qed.

Theorem C167_output : forall inf order K, (forall l, Permutation (order l) l) -> reachable K -> closed (by_index K) -> (forall s, In s (by_index K) -> length (verts s) <= 2) ->
  by_index K <> [] -> exists D nodes lines, hierarchy_output inf order K = Ok (D, nodes, lines) /\ let L := by_index K in
  (* the diagram contains the lifetimes of all components that are not on the diagonal, in lexicographical order *)
  (exists vs ps, NoDup vs /\ (forall v, In v vs <-> exists i, born L v i) /\ Forall2 (lifetime L inf) vs ps /\
    dgm_dim D = 0 /\ Permutation (points D) (filter (fun p => negb (fst p =? snd p)%Z) ps) /\ StronglySorted before (points D)) /\
  (* the graph *)
  exists edges vs ps, elder_edges L (length L) edges /\ StronglySorted lt vs /\ (forall v, In v vs <-> exists e, In e edges /\ (v = fst e \/ v = snd e)) /\
    Forall2 (lifetime L inf) vs ps /\ nodes = combine (seq 0 (length vs)) ps /\ Forall2 (numbered vs) edges lines.
Proof.
  intros inf order K Ho HR HC HD HN. destruct (C91_hierarchy order K Ho HR HC) as (pairs & unpaired & edges & E & P & U & HE). cbv zeta in P, U, HE.
  rewrite (filter_same _ (by_index K)) in P, U, HE by (intros s Hs; apply Nat.leb_le, HD, Hs).
  destruct (pairing_lifetimes K HR HC inf pairs unpaired P U) as (vs & Nv & Iv & Fv). set (pairing := pairs ++ unpaired) in *.
  unfold hierarchy_output. rewrite E. cbn [bind].
  assert (Hq : forall q, In q pairing -> exists v, In v vs /\ born (by_index K) v (fst q) /\ lifetime (by_index K) inf v (pair_point inf K q)).
  { clear -Fv. induction Fv as [|v q vs l [H1 H2] F IH]; [intros q []|]. intros x [<-|Hx]; [exists v; split; [left; reflexivity|auto]|]. destruct (IH x Hx) as (w & Hw & H). exists w. split; [right; exact Hw|exact H]. }
  assert (Hv : forall v, In v vs -> exists q, In q pairing /\ born (by_index K) v (fst q)).
  { clear -Fv. induction Fv as [|v q vs l [H1 H2] F IH]; [intros q []|]. intros x [<-|Hx]; [exists q; split; [left; reflexivity|auto]|]. destruct (IH x Hx) as (w & Hw & H). exists w. split; [right; exact Hw|exact H]. }
  (* the diagram *)
  assert (HDg : hierarchy_diagram inf pairing K = Ok (Diagram 0 (cpp_sort point_ltb (filter (fun p => negb (fst p =? snd p)%Z) (map (pair_point inf K) pairing))))).
  { destruct (C19_tabulates_pairing inf K pairing HR) as (ds & Ed & Sd & Pd & Cd).
    { intros q Hq'. destruct (Hq q Hq') as (v & _ & Hb & _). apply (born_data K v (fst q) Hb). }
    assert (Z0 : forall q, In q pairing -> dim_at K (fst q) = 0) by (intros q Hq'; destruct (Hq q Hq') as (v & _ & Hb & _); apply (born_data K v (fst q) Hb)).
    assert (D0 : forall D, In D ds -> dgm_dim D = 0 /\ points D = map (pair_point inf K) pairing).
    { intros D HDs. destruct (Pd D HDs) as [P1 P2]. rewrite P2 in P1.
      destruct (filter (fun q => dim_at K (fst q) =? dgm_dim D) pairing) as [|q l] eqn:EF; [exfalso; apply P1; reflexivity|].
      assert (X : In q pairing /\ (dim_at K (fst q) =? dgm_dim D) = true) by (apply (filter_In (fun q => dim_at K (fst q) =? dgm_dim D)); rewrite EF; left; reflexivity). destruct X as [X1 X2]. apply Nat.eqb_eq in X2. rewrite (Z0 q X1) in X2.
      split; [auto|]. rewrite P2, <- EF, filter_same; [reflexivity|]. intros q' Hq'. apply Nat.eqb_eq. rewrite Z0 by exact Hq'. exact X2. }
    assert (NE : pairing <> []).
    { destruct (by_index K) as [|s l] eqn:EB; [contradiction|]. assert (Hs : In s (by_index K)) by (rewrite EB; left; reflexivity).
      pose proof (kwf_good K (reachable_kwf K HR) s Hs) as Gs. destruct (verts s) as [|x ws] eqn:Ev; [exfalso; apply Gs; exact Ev|].
      rewrite <- EB in HC. destruct (HC s [x] Hs) as (t & Ht & Et); [discriminate|intros y [<-|[]]; rewrite Ev; left; reflexivity|].
      assert (Etx : verts t = [x]).
      { pose proof (kwf_good K (reachable_kwf K HR) t Ht) as Gt. assert (Nt : NoDup (verts t)) by (apply SSgt_NoDup; apply Gt). destruct (verts t) as [|a [|b r]].
        - exfalso. destruct (proj2 (Et x) (or_introl eq_refl)).
        - destruct (proj1 (Et a) (or_introl eq_refl)) as [->|[]]. reflexivity.
        - exfalso. destruct (proj1 (Et a) (or_introl eq_refl)) as [<-|[]]. destruct (proj1 (Et b) (or_intror (or_introl eq_refl))) as [<-|[]]. inversion Nt as [|? ? N1 _]. apply N1. left. reflexivity. }
      apply In_nth_error in Ht. destruct Ht as [i Hi]. assert (Ix : In x vs) by (apply Iv; exists i, t; rewrite <- EB; auto). destruct (Hv x Ix) as (q & Hq' & _). intro X. rewrite X in Hq'. destruct Hq'. }
    unfold hierarchy_diagram. rewrite Ed. cbn [bind]. destruct ds as [|D ds].
    - exfalso. destruct pairing as [|q p]; [contradiction|]. destruct (Cd q (or_introl eq_refl)) as (D & [] & _).
    - destruct (D0 D (or_introl eq_refl)) as [D1 D2]. cbn [get_ nth_error bind]. unfold removeDiagonal. cbn [dgm_dim points]. rewrite D1, D2. reflexivity. }
  rewrite HDg. cbn [bind].
  (* the nodes *)
  set (ws := hierarchy_vertices edges).
  assert (Iw : forall v, In v ws <-> exists e, In e edges /\ (v = fst e \/ v = snd e)).
  { intro v. unfold ws, hierarchy_vertices. rewrite set_range_In, in_flat_map. split.
    - intros [(e & He & [<-|[<-|[]]])|[]]; eauto.
    - intros (e & He & [->| ->]); left; exists e; split; auto; [left|right; left]; reflexivity. }
  assert (Ve : forall e, In e edges -> (exists i, born (by_index K) (fst e) i) /\ exists i, born (by_index K) (snd e) i).
  { destruct HE as (js & _ & _ & FE). clear -FE. induction FE as [|k q js es (o & Hl & Hp) F IH]; [intros e []|]. intros e [<-|He]; [|apply IH; exact He]. destruct Hl as (d & e & Hm & _). destruct (merges_born K k (snd q) o d Hm) as [B1 B2].
    split; [|exact B1]. destruct Hp as (cy & co & a & b & la & d' & _ & _ & Hco & _ & _ & _ & Hp).
    assert (Hp' : fst q = co \/ fst q = o) by (destruct Hp as [[-> _]|[-> _]]; auto). destruct Hp' as [->| ->]; [|exact B2].
    destruct Hco as [(k' & _ & (d1 & e1 & Hm' & _) & _)|[-> _]]; [apply (merges_born K k' co o d1 Hm')|exact B2]. }
  assert (Bw : forall v, In v ws -> exists i, born (by_index K) v i) by (intros v H; apply Iw in H; destruct H as (e & He & [->| ->]); apply (Ve e He)).
  assert (Nd : forall v, In v ws -> exists p, lifetime (by_index K) inf v p /\ forall i a, hierarchy_node inf pairing K (i, a) v = Ok (S i, a ++ [(i, p)])).
  { intros v Hw. destruct (Bw v Hw) as (i & Hi). destruct (born_inv K HR v i Hi) as [HV Ei]. destruct (deref_vertex K HR v HV) as (c & Ec & Nc & Vc & Kc & Lc).
    assert (Elk : k_lookup K (simplex_vertex v 0) = Some c) by (unfold find_deref in Ec; destruct (k_lookup K (simplex_vertex v 0)); congruence).
    destruct (find (fun q => fst q =? idx K v) pairing) as [q|] eqn:EF.
    - destruct (find_some _ _ EF) as [F1 F2]. apply Nat.eqb_eq in F2. destruct (Hq q F1) as (v' & _ & Hb' & Hl'). destruct (born_inv K HR v' (fst q) Hb') as [HV' Ei'].
      assert (v' = v) by (apply (idx_inj K HR v' v HV' HV); congruence). subst v'. exists (pair_point inf K q). split; [exact Hl'|]. intros n a. unfold hierarchy_node. rewrite Elk, Kc. cbn [bind]. rewrite EF.
      assert (Ed : data_at K (fst q) = data c) by (unfold data_at; rewrite F2, (nth_error_nth _ _ _ Nc); reflexivity). unfold pair_point. rewrite Ed.
      destruct (snd q) as [j|]; [|reflexivity]. unfold k_size. destruct (Nat.ltb_spec j (length (by_index K))) as [Lt|Ge]; [|reflexivity].
      unfold at_. rewrite (nth_error_nth' _ dummy_simplex Lt). cbn [bind]. unfold data_at. reflexivity.
    - exfalso. destruct (Hv v) as (q & Hq' & Hb); [apply Iv; eauto|]. destruct (born_inv K HR v (fst q) Hb) as [_ X]. pose proof (find_none _ _ EF q Hq') as Y. cbn beta in Y. rewrite X, Nat.eqb_refl in Y. discriminate. }
  destruct (nodes_fold inf pairing K ws 0 []) as (ps & En & Fn); [intros v Hw; destruct (Nd v Hw) as (p & _ & Hp); exists p; exact Hp|].
  unfold hierarchy_nodes. fold ws. rewrite En. cbn [bind snd app].
  eexists _, _, _. refine (conj eq_refl _). cbv zeta. split.
  - exists vs, (map (pair_point inf K) pairing). refine (conj Nv (conj Iv (conj _ (conj eq_refl (conj _ _))))).
    + clear -Fv. induction Fv as [|v q vs l [_ H] F IH]; cbn [map]; constructor; assumption.
    + cbn [points]. apply cpp_sort_perm.
    + cbn [points]. pose proof (cpp_sort_sorted point_ltb (filter (fun p => negb (fst p =? snd p)%Z) (map (pair_point inf K) pairing)) point_ltb_swo) as SS.
      revert SS. generalize (cpp_sort point_ltb (filter (fun p => negb (fst p =? snd p)%Z) (map (pair_point inf K) pairing))). clear. intros l SS. induction SS as [|a l SS IH HF]; [constructor|]. constructor; [exact IH|]. apply Forall_forall. intros x Hx. rewrite Forall_forall in HF. specialize (HF x Hx). apply not_true_iff_false in HF. rewrite point_ltb_true in HF. unfold before. lia.
  - exists edges, ws, ps. refine (conj HE (conj _ (conj Iw (conj _ (conj eq_refl _))))).
    + apply set_range_sorted. constructor.
    + revert Nd Fn. generalize ws as l. clear. intros l Nd Fn. induction Fn as [|v p l ps H F IH]; constructor; [|apply IH; intros; apply Nd; right; assumption].
      destruct (Nd v (or_introl eq_refl)) as (p' & Hl & Hp). specialize (H 0 []). rewrite Hp in H. injection H as <-. exact Hl.
    + unfold hierarchy_lines. assert (Hw : forall e, In e edges -> In (fst e) ws /\ In (snd e) ws) by (intros e He; split; apply Iw; eauto).
      clear -Hw. revert Hw. generalize ws as w. intros w Hw. induction edges as [|e es IH]; cbn [map]; constructor; [|apply IH; intros; apply Hw; right; assumption].
      destruct (Hw e (or_introl eq_refl)) as [H1 H2]. split; cbn [fst snd]; apply number_nth; assumption.
Qed.

(** An empty complex has no diagram at all *)
Theorem C167_empty : forall inf order K, (forall l, Permutation (order l) l) -> reachable K -> by_index K = [] -> hierarchy_output inf order K = UB.
Proof.
  intros inf order K Ho HR HN. destruct (C91_hierarchy order K Ho HR) as (pairs & unpaired & edges & E & P & U & _); [rewrite HN; intros s vs []|]. cbv zeta in P, U. rewrite HN in P, U. cbn [filter length] in P, U.
  assert (pairs = []). { destruct P as (js & _ & J & F). destruct F as [|k q js ps (y & o & d & i & Hm & _) F]; [reflexivity|]. exfalso. destruct (proj1 (J k) (or_introl eq_refl)) as [X _]. lia. }
  assert (unpaired = []). { destruct U as (rs & _ & _ & F). destruct F as [|r q rs ps (i & (s & Hs & _) & _) F]; [reflexivity|]. destruct i; discriminate. }
  subst pairs unpaired. unfold hierarchy_output. rewrite E. reflexivity.
Qed.

(** A component without any edge of the hierarchy is not displayed: a monotone function has a point at infinity, but its graph is empty. *)
Theorem C167_isolated_refuted : exists inf order K p, (forall l, Permutation (order l) l) /\ reachable K /\ closed (by_index K) /\ filtration_order (by_index K) /\
  (forall s, In s (by_index K) -> length (verts s) <= 2) /\ hierarchy_output inf order K = Ok (Diagram 0 [p], [], []).
Proof.
  exists 100%Z, (fun l => l), (mk [PushBack [0] 0; PushBack [1] 1; PushBack [0; 1] 1; PushBack [2] 2; PushBack [1; 2] 2]), (0, 100)%Z.
  refine (conj (fun l => Permutation_refl l) (conj (mk_reachable _) (conj _ (conj _ (conj _ _))))).
  - apply closed_check; [apply mk_reachable|vm_compute; reflexivity].
  - apply filtration_check. vm_compute. reflexivity.
  - vm_compute. intros s [<-|[<-|[<-|[<-|[<-|[]]]]]]; cbn; lia.
  - vm_compute. reflexivity.
Qed.

Example C167_example1 : hierarchy_output 100 (fun l => l) (k_sort data_cmp (functionComplex Z.max [1; 2; 0; 4; 3]%Z)) =
  Ok (Diagram 0 [(0, 100); (1, 2); (3, 4)]%Z, [(0, (1, 2)%Z); (1, (0, 100)%Z); (2, (3, 4)%Z)], [(1, 0); (1, 2)]).
Proof. vm_compute. reflexivity. Qed.
(** the same diagram with another hierarchy *)
Example C167_example2 : hierarchy_output 100 (fun l => l) (k_sort data_cmp (functionComplex Z.max [0; 2; 1; 4; 3]%Z)) =
  Ok (Diagram 0 [(0, 100); (1, 2); (3, 4)]%Z, [(0, (0, 100)%Z); (1, (1, 2)%Z); (2, (3, 4)%Z)], [(0, 1); (1, 2)]).
Proof. vm_compute. reflexivity. Qed.
Example C167_example3 : diagram_classes (@rev nat) [Diagram 0 [(0, 1)%Z]; Diagram 0 [(0, 2)%Z]; Diagram 1 [(0, 1)%Z]; Diagram 0 []; Diagram 0 [(0, 1)%Z]] = Ok (3, [[4; 2; 0]]).
Proof. vm_compute. reflexivity. Qed.

Print Assumptions C167_classes.
Print Assumptions C167_output.
Print Assumptions C167_empty.
Print Assumptions C167_isolated_refuted.
