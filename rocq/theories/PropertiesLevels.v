(** * Zero-dimensional diagrams count connected components between two levels. *)
From Coq Require Import List Arith Bool ZArith Lia Permutation Sorted Relations.
From Verif Require Import Base BaseFacts Matrix SpecMatrix PairingFacts RepFacts DualFacts ReductionFacts PropertiesMatrix
  Simplex SimplexFacts SpecComplex Complex ComplexFacts ClosureFacts FiltrationFacts History SubcomplexFacts PropertiesComplex
  RipsFacts PropertiesRips SpecDiagram SpecComponents Diagram DiagramFacts HomologyFacts PropertiesDiagram Components ComponentFacts
  PropertiesComponents.
Import ListNotations.

(** ** specification *)
(** [u] and [v] are joined by a path of edges in [L] *)
Definition linked (L : list simplex) : nat -> nat -> Prop :=
  clos_refl_sym_trans nat (fun u v => has L [u; v]).
(** [r] contains exactly one vertex of [A] for every connected component of [B] that has a vertex of [A]: the
    length of [r] is the number of these components *)
Definition representatives (A B : list simplex) (r : list nat) : Prop :=
  NoDup r /\ (forall u, In u r -> has A [u]) /\
  (forall w, has A [w] -> exists u, In u r /\ linked B u w) /\
  forall u v, In u r -> In v r -> linked B u v -> u = v.
Definition descending_data (L : list simplex) : Prop :=
  forall i j s t, i < j -> nth_error L i = Some s -> nth_error L j = Some t -> (data t <= data s)%Z.

(** ** prefixes of complexes *)
Lemma firstn_In {A} (l : list A) m x : In x (firstn m l) -> In x l.
Proof. intro H. rewrite <- (firstn_skipn m l). apply in_or_app. left. exact H. Qed.
Lemma nth_error_firstn_lt {A} (l : list A) m i : i < m -> nth_error (firstn m l) i = nth_error l i.
Proof. revert m i. induction l as [|x l IH]; intros [|m] [|i] H; cbn; auto; try lia. apply IH. lia. Qed.
Lemma nth_error_firstn_ge {A} (l : list A) m i : m <= i -> nth_error (firstn m l) i = None.
Proof. intro H. apply nth_error_None. rewrite firstn_length. lia. Qed.
Lemma nth_error_firstn_inv {A} (l : list A) m i x : nth_error (firstn m l) i = Some x -> i < m /\ nth_error l i = Some x.
Proof.
  intro H. destruct (Nat.lt_ge_cases i m) as [L|L]; [|rewrite nth_error_firstn_ge in H by exact L; discriminate].
  rewrite nth_error_firstn_lt in H by exact L. auto.
Qed.

Lemma prefix_complex K m : reachable K -> closed (by_index K) -> filtration_order (by_index K) ->
  exists P, reachable P /\ by_index P = firstn m (by_index K) /\ closed (by_index P) /\ filtration_order (by_index P).
Proof.
  intros HR HC HF. pose proof (reachable_kwf K HR) as HK.
  destruct (of_range_new (firstn m (by_index K))) as (P & EP & HP & EB).
  - intros s Hs. apply (kwf_good K HK). apply firstn_In in Hs. exact Hs.
  - rewrite <- firstn_map. pose proof (kwf_nodup K HK) as N. rewrite <- (firstn_skipn m (map verts (by_index K))) in N.
    clear -N. revert N. generalize (firstn m (map verts (by_index K))) (skipn m (map verts (by_index K))). intros a b. induction a as [|x a IH]; intro N; [constructor|].
    cbn [app] in N. apply NoDup_cons_iff in N. destruct N as [N1 N2]. constructor; [intro H; apply N1, in_or_app; left; exact H|apply IH; exact N2].
  - exists P. refine (conj _ (conj EB _)).
    + apply (of_range_reachable (firstn m (by_index K))); [|exact EP]. intros s Hs. apply (kwf_good K HK). apply firstn_In in Hs. exact Hs.
    + rewrite EB. split.
      * intros s vs Hs Hne Hsub. apply In_nth_error in Hs. destruct Hs as (i & Hi). apply nth_error_firstn_inv in Hi. destruct Hi as [Lm Hi].
        destruct (HC s vs (nth_error_In _ _ Hi) Hne Hsub) as (t & Ht & Et). apply In_nth_error in Ht. destruct Ht as (j & Hj).
        exists t. refine (conj _ Et). apply (nth_error_In _ j). rewrite nth_error_firstn_lt; [exact Hj|].
        destruct (Nat.eq_dec i j) as [<-|N]; [exact Lm|]. assert (j < i); [|lia]. apply (HF i j s t Hi Hj). split.
        -- intros v Hv. apply Hsub, Et, Hv.
        -- intro Hst. apply N.
           assert (EV : verts s = verts t).
           { apply wf_ext; try (apply (kwf_good K HK); eapply nth_error_In; eassumption). intro v. split; [apply Hst|]. intro Hv. apply Hsub, Et, Hv. }
           pose proof (kwf_nodup K HK) as ND. rewrite NoDup_nth_error in ND. apply ND.
           ++ rewrite map_length. apply nth_error_Some. congruence.
           ++ rewrite !nth_error_map, Hi, Hj. simpl. congruence.
      * intros i j s t Hi Hj. apply nth_error_firstn_inv in Hi, Hj. apply HF; tauto.
Qed.

Lemma prefix_entries K P m M M' : reachable K -> closed (by_index K) -> filtration_order (by_index K) ->
  reachable P -> closed (by_index P) -> filtration_order (by_index P) -> by_index P = firstn m (by_index K) ->
  makeBoundaryMatrix K 0 = Ok M -> makeBoundaryMatrix P 0 = Ok M' -> cols M' = firstn m (cols M).
Proof.
  intros HR HC HF HR' HC' HF' EB E E'.
  destruct (C09_boundary_matrix K HR HC HF) as (M1 & E1 & _ & L1 & C1 & _). rewrite E in E1. injection E1 as <-.
  destruct (C09_boundary_matrix P HR' HC' HF') as (M2 & E2 & _ & L2 & C2 & _). rewrite E' in E2. injection E2 as <-.
  unfold k_size in *. rewrite EB in L2.
  apply nth_ext with (d := []) (d' := []); [rewrite L2, !firstn_length, L1; reflexivity|].
  rewrite L2. intros j Hj. rewrite firstn_length in Hj.
  destruct (nth_error (by_index K) j) as [s|] eqn:Ej; [|apply nth_error_None in Ej; lia].
  destruct (C1 j s Ej) as (_ & c & Ec & Sc & Bc & Ic).
  destruct (C2 j s) as (_ & c' & Ec' & Sc' & Bc' & Ic'); [rewrite EB, nth_error_firstn_lt by lia; exact Ej|].
  unfold getColumn, at_ in Ec, Ec'.
  destruct (nth_error (cols M) j) as [x|] eqn:Ex; [|discriminate]. injection Ec as ->.
  destruct (nth_error (cols M') j) as [y|] eqn:Ey; [|discriminate]. injection Ec' as ->.
  rewrite (nth_error_nth _ _ _ Ey). symmetry. rewrite (nth_error_nth _ _ [] (x := c)) by (rewrite nth_error_firstn_lt by lia; exact Ex).
  apply BaseFacts.SSlt_ext; auto. intro r. rewrite Ic, Ic', EB. split; intros (t & Ht & Hx); exists t; refine (conj _ Hx).
  - rewrite nth_error_firstn_lt; [exact Ht|]. assert (r < j); [|lia]. apply Bc, Ic. exists t. auto.
  - apply nth_error_firstn_inv in Ht. tauto.
Qed.

Lemma entry_firstn C m r k : k < m -> entry (firstn m C) r k = entry C r k.
Proof. intro H. unfold entry. f_equal. clear r. revert m k H. induction C as [|c C IH]; intros [|m] [|k] H; cbn; auto; try lia. apply IH. lia. Qed.
Lemma sum_firstn C m S r : (forall k, In k S -> k < m) -> sum_cols (firstn m C) S r = sum_cols C S r.
Proof.
  induction S as [|k S IH]; intro H; [reflexivity|]. cbn [sum_cols fold_right]. rewrite entry_firstn by (apply H; left; reflexivity).
  f_equal. apply IH. intros; apply H; right; assumption.
Qed.
Lemma coset_firstn C m j x : j < m -> (coset (firstn m C) j x <-> coset C j x).
Proof.
  intro H. split; intros (S & HS & Hx); exists S; refine (conj HS _); intro r; rewrite Hx, entry_firstn by exact H; f_equal;
    [|symmetry]; apply sum_firstn; intros k Hk; specialize (HS k Hk); lia.
Qed.
Lemma min_low_firstn C m j o : j < m -> (min_low (firstn m C) j o <-> min_low C j o).
Proof.
  intro H. destruct o as [i|]; cbn [min_low].
  - split; intros [(x & Hx & Lx) A]; (split; [exists x; refine (conj _ Lx); apply (coset_firstn C m j x H); exact Hx|]);
      intros y Hy; apply A; apply (coset_firstn C m j y H); exact Hy.
  - split; intros (x & Hx & Zx); exists x; refine (conj _ Zx); apply (coset_firstn C m j x H); exact Hx.
Qed.

(** the unpaired creators of a prefix are the creators of the prefix that are not destroyed in it *)
Lemma prefix_unpaired C d d' p p' m : valid_boundary C d -> is_pairing C d true (fun _ => True) p -> is_pairing (firstn m C) d' true (fun _ => True) p' -> m <= length C ->
  forall c, In (c, None) p' <-> c < m /\ exists o, In (c, o) p /\ dies m (c, o) = false.
Proof.
  intros HV HP (S2 & A2 & B2) Hm c. pose proof (creators_NoDup C d HV p HP) as ND. pose proof (in_creators C d HV p HP) as IC.
  destruct HP as (S1 & A1 & B1). rewrite B2. rewrite firstn_length. split.
  - intros (Hc & Hz & Hn & _). split; [lia|]. apply min_low_firstn in Hz; [|lia].
    destruct (Exists_dec (fun v => In (c, Some v) p) (seq 0 (length C))) as [Y|N].
    { intro v. apply in_dec. repeat decide equality. }
    + apply Exists_exists in Y. destruct Y as (v & _ & Hv). exists (Some v). refine (conj Hv _). apply A1 in Hv. destruct Hv as (Lv & Mv & _).
      unfold dies. cbn [snd]. apply Nat.ltb_ge. apply Nat.nlt_ge. intro L. apply (Hn v); [lia|]. apply min_low_firstn; assumption.
    + exists None. refine (conj _ eq_refl). apply B1. refine (conj _ (conj Hz (conj _ (conj (or_introl eq_refl) I)))); [lia|].
      intros v Lv Mv. apply N, Exists_exists. exists v. refine (conj _ _); [apply in_seq; lia|]. apply A1. auto.
  - intros (Hc & [v|] & Ho & Hd).
    + unfold dies in Hd. cbn [snd] in Hd. apply Nat.ltb_ge in Hd. apply A1 in Ho. destruct Ho as (Lv & Mv & _).
      assert (P1 : In (c, Some v) p) by (apply A1; auto).
      assert (U : forall w, w < length C -> min_low C w (Some c) -> w = v).
      { intros w Lw Mw. assert (P2 : In (c, Some w) p) by (apply A1; auto). clear -ND P1 P2.
        induction p as [|q l IH]; [destruct P1|]. cbn [map] in ND. apply NoDup_cons_iff in ND. destruct ND as [N1 N2].
        destruct P1 as [E1|P1], P2 as [E2|P2]; try congruence.
        - exfalso. apply N1. rewrite E1. apply in_map_iff. exists (c, Some w). auto.
        - exfalso. apply N1. rewrite E2. apply in_map_iff. exists (c, Some v). auto.
        - apply IH; assumption. }
      refine (conj _ (conj _ (conj _ (conj (or_introl eq_refl) I)))); [lia| |].
      * apply min_low_firstn; [exact Hc|]. apply IC. apply in_map_iff. exists (c, Some v). auto.
      * intros w Lw Mw. apply min_low_firstn in Mw; [|lia]. assert (w = v) by (apply U; [lia|exact Mw]). lia.
    + apply B1 in Ho. destruct Ho as (Lc & Zc & Nc & _).
      refine (conj _ (conj _ (conj _ (conj (or_introl eq_refl) I)))); [lia|apply min_low_firstn; assumption|].
      intros w Lw Mw. apply min_low_firstn in Mw; [|lia]. apply (Nc w); [lia|exact Mw].
Qed.

(** the representatives are the creators before [m1] that are not destroyed before [m2] *)
Lemma prefix_represents K M p m1 m2 : reachable K -> closed (by_index K) -> filtration_order (by_index K) ->
  makeBoundaryMatrix K 0 = Ok M -> is_pairing (cols M) (dims M) true (fun _ => True) p -> m1 <= m2 -> m2 <= k_size K ->
  exists r, representatives (firstn m1 (by_index K)) (firstn m2 (by_index K)) r /\
    length r = length (filter (fun q => (fst q <? m1) && (dim_at K (fst q) =? 0) && negb (dies m2 q)) p).
Proof.
  intros HR HC HF E Hp L12 L2. pose proof (reachable_kwf K HR) as HK.
  destruct (prefix_complex K m2 HR HC HF) as (P & PR & PB & PC & PF).
  destruct (C09_boundary_matrix K HR HC HF) as (M0 & E0 & _ & HL & _ & HV). rewrite E in E0. injection E0 as <-.
  destruct (C09_boundary_matrix P PR PC PF) as (M' & E' & D' & HL' & _ & HV').
  pose proof (prefix_entries K P m2 M M' HR HC HF PR PC PF PB E E') as EC.
  assert (Hid : forall l : list nat, Permutation ((fun l => l) l) l) by (intro; apply Permutation_refl).
  destruct (C23_components 0 true (fun l => l) P Hid PR PC PF) as (pd & pp & EZ & Npp & CC).
  destruct (C23_agrees_with_matrix 0 true (fun l => l) (fun l => l) AStandard P Hid Hid PR PC PF) as (M1 & p' & pp1 & E1 & Ep & EZ1 & PP).
  rewrite E' in E1. injection E1 as <-. rewrite EZ in EZ1. injection EZ1 as _ <-.
  destruct (pairing_correct (fun l => l) AStandard M' true None Hid HV' D') as (p2 & Ep2 & Hp').
  rewrite Ep in Ep2. injection Ep2 as <-.
  assert (Hp2 : is_pairing (firstn m2 (cols M)) (dims M') true (fun _ => True) p').
  { rewrite <- EC. exact Hp'. }
  pose proof (prefix_unpaired (cols M) (dims M) (dims M') p p' m2 HV Hp Hp2) as PU. rewrite HL in PU. specialize (PU L2).
  set (f := fun q => (fst q <? m1) && (dim_at K (fst q) =? 0) && negb (dies m2 q)).
  set (vtx := fun i => hd 0 (verts (nth i (by_index K) dummy_simplex))).
  assert (Vx : forall i, i < k_size K -> dim_at K i = 0 -> exists s, nth_error (by_index K) i = Some s /\ verts s = [vtx i]).
  { intros i Li Di. unfold dim_at, vtx in *. destruct (nth_error (by_index K) i) as [s|] eqn:Es; [|apply nth_error_None in Es; unfold k_size in Li; lia].
    exists s. refine (conj eq_refl _). rewrite (nth_error_nth _ _ dummy_simplex Es) in *.
    destruct (kwf_good K HK s (nth_error_In _ _ Es)) as [_ Hne]. destruct (verts s) as [|v [|w t]]; [contradiction|reflexivity|simpl in Di; lia]. }
  assert (IF : forall i, (exists q, In q (filter f p) /\ fst q = i) -> i < m1 /\ dim_at K i = 0 /\ In (i, None) p').
  { intros i ([u o] & Hq & <-). apply filter_In in Hq. destruct Hq as [Hq Hf]. unfold f in Hf. cbn [fst] in *. apply andb_prop in Hf. destruct Hf as [Hf H3].
    apply andb_prop in Hf. destruct Hf as [H1 H2]. apply Nat.ltb_lt in H1. apply Nat.eqb_eq in H2. apply negb_true_iff in H3.
    refine (conj H1 (conj H2 _)). apply PU. split; [lia|]. exists o. auto. }
  assert (DA : forall i, i < m2 -> dim_at P i = dim_at K i).
  { intros i Li. unfold dim_at. rewrite PB. f_equal. f_equal. f_equal.
    destruct (nth_error (by_index K) i) as [s|] eqn:Es; [|apply nth_error_None in Es; unfold k_size in L2; lia].
    rewrite (nth_error_nth _ _ _ Es). apply nth_error_nth. rewrite nth_error_firstn_lt by exact Li. exact Es. }
  assert (IP : forall i, In (i, None) pp <-> In (i, None) p' /\ dim_at P i = 0).
  { intro i. split; intro H.
    - apply (Permutation_in _ PP) in H. apply filter_In in H. cbn [fst snd] in H. rewrite andb_true_r, Nat.eqb_eq in H. exact H.
    - apply (Permutation_in _ (Permutation_sym PP)). apply filter_In. cbn [fst snd]. rewrite andb_true_r, Nat.eqb_eq. exact H. }
  assert (PN : forall i s v, i < m2 -> nth_error (by_index K) i = Some s -> verts s = [v] -> nth_error (map verts (by_index P)) i = Some [v]).
  { intros i s v Li Hs Hv. rewrite PB, nth_error_map, nth_error_firstn_lt by exact Li. rewrite Hs. simpl. congruence. }
  assert (JL : forall u v, joined P u v <-> linked (firstn m2 (by_index K)) u v) by (intros u v; unfold joined, linked; rewrite PB; reflexivity).
  exists (map (fun q => vtx (fst q)) (filter f p)). split; [|apply map_length].
  pose proof (creators_NoDup (cols M) (dims M) HV p Hp) as ND.
  assert (NF : NoDup (map fst (filter f p))).
  { clear -ND. induction p as [|q l IH]; [constructor|]. cbn [map] in ND. apply NoDup_cons_iff in ND. destruct ND as [N1 N2]. cbn [filter].
    destruct (f q); [|apply IH; exact N2]. cbn [map]. constructor; [|apply IH; exact N2]. intro H. apply N1. apply in_map_iff in H.
    destruct H as (x & E & H). apply filter_In in H. apply in_map_iff. exists x. tauto. }
  assert (VI : forall i j, i < k_size K -> j < k_size K -> dim_at K i = 0 -> dim_at K j = 0 -> vtx i = vtx j -> i = j).
  { intros i j Li Lj Di Dj Ev. destruct (Vx i Li Di) as (s & Hs & Es), (Vx j Lj Dj) as (t & Ht & Et).
    pose proof (kwf_nodup K HK) as NV. rewrite NoDup_nth_error in NV. apply NV; [rewrite map_length; exact Li|].
    rewrite !nth_error_map, Hs, Ht. simpl. congruence. }
  unfold representatives. refine (conj _ (conj _ (conj _ _))).
  - rewrite <- (map_map fst vtx). apply NoDup_map_inj_in; [|exact NF]. intros i j Hi Hj Ev. apply in_map_iff in Hi, Hj.
    destruct Hi as (q1 & Eq1 & Hi), Hj as (q2 & Eq2 & Hj).
    destruct (IF i (ex_intro _ q1 (conj Hi Eq1))) as (Li & Di & _), (IF j (ex_intro _ q2 (conj Hj Eq2))) as (Lj & Dj & _). apply VI; auto; lia.
  - intros u Hu. apply in_map_iff in Hu. destruct Hu as (q & <- & Hq). destruct (IF (fst q) (ex_intro _ q (conj Hq eq_refl))) as (Li & Di & _).
    destruct (Vx (fst q)) as (s & Hs & Es); [lia|exact Di|]. exists s. rewrite Es. split; [|intro; reflexivity].
    apply (nth_error_In _ (fst q)). rewrite nth_error_firstn_lt by exact Li. exact Hs.
  - intros w (s & Hs & Es). apply In_nth_error in Hs. destruct Hs as (j & Hj). apply nth_error_firstn_inv in Hj. destruct Hj as [Lj Hj].
    assert (Ev : verts s = [w]).
    { apply (wf_ext s (Simplex [w] 0)); [apply (kwf_good K HK); eapply nth_error_In; exact Hj|repeat constructor|exact Es]. }
    assert (Ljm : j < m2) by lia. destruct (CC j w (PN j s w Ljm Hj Ev)) as (i & u & Hi & Hu & Hju & Lij & _).
    apply IP in Hi. destruct Hi as [Hi Di]. pose proof Hi as Hi'. apply PU in Hi'. destruct Hi' as (Lm & o & Ho & Hd).
    rewrite DA in Di by exact Lm. exists u. split; [|apply JL; exact Hju]. apply in_map_iff. exists (i, o). cbn [fst]. split.
    + rewrite PB, nth_error_map, nth_error_firstn_lt in Hu by exact Lm. destruct (Vx i) as (t & Ht & Et); [lia|exact Di|]. rewrite Ht in Hu. simpl in Hu. congruence.
    + apply filter_In. refine (conj Ho _). unfold f. cbn [fst]. rewrite Di, Hd. cbn [Nat.eqb negb]. rewrite !andb_true_r. apply Nat.ltb_lt. lia.
  - intros u v Hu Hv Huv. apply in_map_iff in Hu, Hv. destruct Hu as (q1 & <- & H1), Hv as (q2 & <- & H2).
    destruct (IF _ (ex_intro _ q1 (conj H1 eq_refl))) as (La & Da & Ia), (IF _ (ex_intro _ q2 (conj H2 eq_refl))) as (Lb & Db & Ib).
    destruct (Vx (fst q1)) as (s & Hs & Es); [lia|exact Da|]. destruct (Vx (fst q2)) as (t & Ht & Et); [lia|exact Db|].
    f_equal. assert (Lbm : fst q2 < m2) by lia. destruct (CC (fst q2) _ (PN _ t _ Lbm Ht Et)) as (i & z & _ & _ & _ & _ & U).
    transitivity i; [|symmetry].
    + apply (U (fst q1) (vtx (fst q1))); [apply IP; split; [exact Ia|rewrite DA by lia; exact Da]|apply (PN _ s); [lia|exact Hs|exact Es]|apply JL; exact Huv].
    + apply (U (fst q2) (vtx (fst q2))); [apply IP; split; [exact Ib|rewrite DA by lia; exact Db]|apply (PN _ t); [lia|exact Ht|exact Et]|apply rst_refl].
Qed.

(** ** levels *)
Definition initial (lev : simplex -> bool) (L : list simplex) : Prop :=
  forall i j s t, i < j -> nth_error L i = Some s -> nth_error L j = Some t -> lev t = true -> lev s = true.

Lemma initial_prefix lev L : initial lev L -> filter lev L = firstn (length (filter lev L)) L /\
  forall k s, nth_error L k = Some s -> (lev s = true <-> k < length (filter lev L)).
Proof.
  induction L as [|a L IH]; intro H; [split; [reflexivity|intros [|k] s E; discriminate]|].
  assert (HL : initial lev L).
  { intros i j s t Hij Hs Ht. apply (H (S i) (S j)); auto. lia. }
  destruct (IH HL) as [E K]. cbn [filter]. destruct (lev a) eqn:Ea.
  - cbn [length firstn]. split; [f_equal; exact E|]. intros [|k] s Es; cbn in Es.
    + injection Es as <-. rewrite Ea. split; [lia|reflexivity].
    + rewrite (K k s Es). lia.
  - assert (N : filter lev L = []).
    { apply filter_nil. intros t Ht. apply In_nth_error in Ht. destruct Ht as (k & Hk). destruct (lev t) eqn:Et; [|reflexivity].
      rewrite (H 0 (S k) a t) in Ea by (auto; lia). discriminate. }
    rewrite N. split; [reflexivity|]. intros k s Es. cbn [length]. split; [|lia]. intro Hs. exfalso. destruct k as [|k]; cbn in Es; [congruence|].
    apply nth_error_In in Es. assert (X : In s (filter lev L)) by (apply filter_In; auto). rewrite N in X. destruct X.
Qed.

Lemma levels_count inf K all : reachable K -> closed (by_index K) -> filtration_order (by_index K) ->
  (all = true \/ exists s, In s (by_index K) /\ 1 < length (verts s)) ->
  exists ds, (forall order a dual, (forall l, Permutation (order l) l) -> calculatePersistenceDiagrams inf order a K dual all = Ok ds) /\
  forall lo hi (g : point -> bool), initial lo (by_index K) -> initial hi (by_index K) -> (forall s, lo s = true -> hi s = true) ->
    (forall u, u < k_size K -> g (data_at K u, inf) = lo (nth u (by_index K) dummy_simplex)) ->
    (forall u v, u < k_size K -> v < k_size K -> g (data_at K u, data_at K v) =
       lo (nth u (by_index K) dummy_simplex) && negb (hi (nth v (by_index K) dummy_simplex))) ->
  exists r, representatives (filter lo (by_index K)) (filter hi (by_index K)) r /\ length r = length (filter g (points_of ds 0)).
Proof.
  intros HR HC HF Hd. destruct (pipeline inf K all HR HC HF) as (M & p & p1 & ds & E & HV & HL & Hdims & Hp & Hp1 & Hb & Ed & H).
  exists ds. refine (conj H _). intros lo hi g Ilo Ihi Hsub Gn Gp.
  assert (Hdim : forall u, u < k_size K -> nth u (dims M) 0 = dim_at K u).
  { intros u Hu. rewrite Hdims. unfold dim_at.
    destruct (nth_error (by_index K) u) as [s|] eqn:Es; [|apply nth_error_None in Es; unfold k_size in Hu; lia].
    rewrite (nth_error_nth _ _ dummy_simplex Es). apply (map_nth_error sdim) in Es. apply (nth_error_nth _ _ 0 Es). }
  assert (Hf : filter (fun q => dim_at K (fst q) =? 0) p1 = filter (fun q => dim_at K (fst q) =? 0) p).
  { subst p1. destruct all; auto. rewrite filter_filter. apply filter_ext_in. intros [u [v|]] Hq; simpl; auto.
    destruct (Nat.eqb_spec (dim_at K u) 0) as [Eu|Eu]; [|apply andb_false_r]. rewrite andb_true_r.
    apply negb_true_iff, Nat.eqb_neq. apply Hp in Hq. rewrite Hdim by (rewrite <- HL; tauto).
    destruct Hd as [Hd|(s & Hs & Hd)]; [discriminate|]. intro Ex.
    assert (sdim s <= list_max (dims M)).
    { assert (Q : Forall (fun k => k <= list_max (dims M)) (dims M)) by (apply list_max_le; auto).
      rewrite Forall_forall in Q. apply Q. rewrite Hdims. apply in_map; auto. }
    unfold sdim in *. lia. }
  destruct (initial_prefix lo _ Ilo) as [Elo Klo]. destruct (initial_prefix hi _ Ihi) as [Ehi Khi].
  set (m1 := length (filter lo (by_index K))) in *. set (m2 := length (filter hi (by_index K))) in *.
  assert (L2 : m2 <= k_size K) by (unfold m2, k_size; clear; induction (by_index K) as [|s L IH]; [reflexivity|]; cbn [filter length]; destruct (hi s); cbn [length]; lia).
  assert (L1 : m1 <= m2).
  { unfold m1, m2. clear -Hsub. induction (by_index K) as [|s L IH]; [reflexivity|]. cbn [filter]. destruct (lo s) eqn:A.
    - rewrite (Hsub s A). cbn [length]. lia.
    - destruct (hi s); cbn [length]; lia. }
  destruct (prefix_represents K M p m1 m2 HR HC HF E Hp L1 L2) as (r & Hr & Lr). exists r. rewrite Elo, Ehi. refine (conj Hr _).
  rewrite Lr, (points_of_pairs inf K p1 ds 0 (reachable_kwf _ HR) Hb Ed), Hf, filter_map_len, filter_filter. f_equal.
  assert (Blo : forall k, k < k_size K -> lo (nth k (by_index K) dummy_simplex) = (k <? m1)).
  { intros k Hk. destruct (nth_error (by_index K) k) as [s|] eqn:Es; [|apply nth_error_None in Es; unfold k_size in Hk; lia].
    rewrite (nth_error_nth _ _ dummy_simplex Es). apply eq_true_iff_eq. rewrite Nat.ltb_lt. apply Klo. exact Es. }
  assert (Bhi : forall k, k < k_size K -> hi (nth k (by_index K) dummy_simplex) = (k <? m2)).
  { intros k Hk. destruct (nth_error (by_index K) k) as [s|] eqn:Es; [|apply nth_error_None in Es; unfold k_size in Hk; lia].
    rewrite (nth_error_nth _ _ dummy_simplex Es). apply eq_true_iff_eq. rewrite Nat.ltb_lt. apply Khi. exact Es. }
  apply filter_ext_in. intros q Hq.
  assert (Hu : fst q < k_size K).
  { destruct q as [u [v|]]; apply Hp in Hq; simpl; rewrite <- HL; [|tauto].
    destruct Hq as (Hv & Hm & _). destruct (valid_low_facts M HV u v Hv Hm) as [Hlt _]. lia. }
  destruct q as [u [v|]]; unfold pair_point, dies; cbn [fst snd] in *.
  - apply Hp in Hq. destruct Hq as [Hv _]. rewrite HL in Hv. pose proof Hv as Hv'. unfold k_size in Hv'. apply Nat.ltb_lt in Hv'. rewrite Hv'.
    rewrite Gp, Blo, Bhi by assumption. destruct (u <? m1), (dim_at K u =? 0), (v <? m2); reflexivity.
  - rewrite Gn, Blo by assumption. destruct (u <? m1), (dim_at K u =? 0); reflexivity.
Qed.

(** ** C156 *)
Theorem C156_levels : forall inf order a K dual all,
  (forall l, Permutation (order l) l) -> reachable K -> closed (by_index K) -> filtration_order (by_index K) ->
  (all = true \/ exists s, In s (by_index K) /\ 1 < length (verts s)) ->
  exists ds, calculatePersistenceDiagrams inf order a K dual all = Ok ds /\
    (ascending_data (by_index K) -> forall x y, (x <= y < inf)%Z ->
       exists r, representatives (filter (fun s => (data s <=? x)%Z) (by_index K)) (filter (fun s => (data s <=? y)%Z) (by_index K)) r /\
         length r = length (filter (fun q => (fst q <=? x)%Z && (y <? snd q)%Z) (points_of ds 0))) /\
    (descending_data (by_index K) -> (forall s, In s (by_index K) -> (data s < inf)%Z) -> forall x y, (y <= x)%Z ->
       exists r, representatives (filter (fun s => (x <=? data s)%Z) (by_index K)) (filter (fun s => (y <=? data s)%Z) (by_index K)) r /\
         length r = length (filter (fun q => (x <=? fst q)%Z && ((snd q <? y)%Z || isUnpaired inf q)) (points_of ds 0))).
Proof.
  intros inf order a K dual all Ho HR HC HF Hd. destruct (levels_count inf K all HR HC HF Hd) as (ds & E & H).
  exists ds. refine (conj (E order a dual Ho) (conj _ _)).
  - intros HA x y Hxy. apply H.
    + intros i j s t Hij Hs Ht L. apply Z.leb_le in L. apply Z.leb_le. pose proof (HA i j s t Hij Hs Ht). lia.
    + intros i j s t Hij Hs Ht L. apply Z.leb_le in L. apply Z.leb_le. pose proof (HA i j s t Hij Hs Ht). lia.
    + intros s L. apply Z.leb_le in L. apply Z.leb_le. lia.
    + intros u Hu. cbn [fst snd]. unfold data_at. replace (y <? inf)%Z with true by (symmetry; apply Z.ltb_lt; lia). apply andb_true_r.
    + intros u v Hu Hv. cbn [fst snd]. unfold data_at. f_equal.
      rewrite Z.leb_antisym, negb_involutive. reflexivity.
  - intros HA HI x y Hxy. apply H.
    + intros i j s t Hij Hs Ht L. apply Z.leb_le in L. apply Z.leb_le. pose proof (HA i j s t Hij Hs Ht). lia.
    + intros i j s t Hij Hs Ht L. apply Z.leb_le in L. apply Z.leb_le. pose proof (HA i j s t Hij Hs Ht). lia.
    + intros s L. apply Z.leb_le in L. apply Z.leb_le. lia.
    + intros u Hu. unfold isUnpaired. cbn [fst snd]. unfold data_at. rewrite Z.eqb_refl, orb_true_r. apply andb_true_r.
    + intros u v Hu Hv. unfold isUnpaired. cbn [fst snd]. unfold data_at. 
      assert (Hl : (data (nth v (by_index K) dummy_simplex) < inf)%Z) by (apply HI, nth_In; exact Hv).
      replace (data (nth v (by_index K) dummy_simplex) =? inf)%Z with false by (symmetry; apply Z.eqb_neq; lia).
      rewrite orb_false_r. f_equal. rewrite Z.leb_antisym, negb_involutive. reflexivity.
Qed.

(** a path with values 0, 3, 1, 2, 1: at level 2, two components, which have vertices of level 1 *)
Definition wave : complex :=
  mk [PushBack [0] 0; PushBack [2] 1; PushBack [4] 1; PushBack [3] 2; PushBack [2;3] 2; PushBack [3;4] 2; PushBack [1] 3; PushBack [0;1] 3; PushBack [1;2] 3].
Example C156_example :
  calculatePersistenceDiagrams 99 (fun l => l) AStandard wave true false = Ok [Diagram 0 [(0, 99); (1, 3); (1, 2); (2, 2); (3, 3)]%Z] /\
  representatives (filter (fun s => (data s <=? 1)%Z) (by_index wave)) (filter (fun s => (data s <=? 2)%Z) (by_index wave)) [0; 2].
Proof.
  split; [vm_compute; reflexivity|]. unfold representatives. refine (conj _ (conj _ (conj _ _))).
  - repeat constructor; simpl; lia.
  - intros u [<-|[<-|[]]]; [exists (Simplex [0] 0%Z)|exists (Simplex [2] 1%Z)]; (split; [vm_compute; tauto|intro; reflexivity]).
  - intros w (s & Hs & Es). vm_compute in Hs. destruct Hs as [<-|[<-|[<-|[]]]]; cbn [verts] in Es.
    + exists 0. split; [left; reflexivity|]. replace w with 0; [apply rst_refl|]. destruct (proj1 (Es 0) (or_introl eq_refl)) as [->|[]]. reflexivity.
    + exists 2. split; [right; left; reflexivity|]. replace w with 2; [apply rst_refl|]. destruct (proj1 (Es 2) (or_introl eq_refl)) as [->|[]]. reflexivity.
    + exists 2. split; [right; left; reflexivity|]. replace w with 4; [|destruct (proj1 (Es 4) (or_introl eq_refl)) as [->|[]]; reflexivity].
      apply rst_trans with 3; apply rst_step; [exists (Simplex [3; 2] 2%Z)|exists (Simplex [4; 3] 2%Z)]; (split; [vm_compute; tauto|intro; simpl; tauto]).
  - assert (Q : forall u v, linked (filter (fun s => (data s <=? 2)%Z) (by_index wave)) u v -> (u = 0 <-> v = 0)).
    { induction 1 as [u v (s & Hs & Es)|u|u v _ IH|u v w _ IH1 _ IH2]; [|tauto|tauto|tauto].
      vm_compute in Hs. destruct Hs as [<-|[<-|[<-|[<-|[<-|[<-|[]]]]]]]; cbn [verts] in Es;
        destruct (proj2 (Es u) (or_introl eq_refl)) as [A|A]; destruct (proj2 (Es v) (or_intror (or_introl eq_refl))) as [B|B]; simpl in A, B; intuition lia. }
    intros u v [<-|[<-|[]]] [<-|[<-|[]]] Huv; try reflexivity; apply Q in Huv; lia.
Qed.

Example C156_hypotheses : reachable wave /\ closed (by_index wave) /\ filtration_order (by_index wave).
Proof.
  split; [apply mk_reachable|]. split; [apply closed_check; [apply mk_reachable|vm_compute; reflexivity]|].
  apply filtration_check. vm_compute. reflexivity.
Qed.

Print Assumptions C156_levels.
