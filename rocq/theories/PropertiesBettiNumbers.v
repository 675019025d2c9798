(** * C161: the first Betti numbers of a sequence of graphs. *)
From Coq Require Import String Ascii List Arith NArith Bool ZArith Lia Permutation Sorted.
From Verif Require Import Base BaseFacts SpecText LoadMatrix LoadFacts StringUtilities Pajek PropertiesPajek Filesystem PropertiesDataSets
  Matrix SpecMatrix SpecHomology Simplex SimplexFacts SpecComplex Complex ComplexFacts FiltrationFacts History SubcomplexFacts
  PropertiesComplex SpecDiagram Diagram DiagramFacts EnumerateFacts RepFacts BarycentricFacts PropertiesDiagram PropertiesComponents PropertiesDowker PropertiesDiagramDims PropertiesLevels
  PropertiesFunctionAnalysis Signatures PropertiesSignatures BettiNumbers.
Import ListNotations.
Local Open Scope list_scope.
Local Open Scope nat_scope.

(** ** specification *)
(** the first number in the name of a file without its directories; no end of line comes after it *)
Definition names_id (f : str) (v : N) : Prop :=
  exists a ds t, basename f = a ++ ds ++ t /\ Forall (fun c => ~ a_digit c) a /\ numeral ds v /\ stops a_digit t /\ Forall on_line t.
(** the number of independent loops: edges minus vertices plus components *)
Definition loops (K : complex) (b : nat) : Prop :=
  exists r, representatives (by_index K) (by_index K) r /\
    b + length (filter (fun s => length (verts s) =? 1) (by_index K)) = length (filter (fun s => length (verts s) =? 2) (by_index K)) + length r.
(** the first Betti number of a complex, in the order in which it is stored *)
Definition first_betti (K : complex) (b : nat) : Prop :=
  exists M, makeBoundaryMatrix K 0 = Ok M /\ betti (cols M) (dims M) (k_size K) 1 b.
Definition a_complex (inf : Z) (K : complex) : Prop :=
  reachable K /\ closed (by_index K) /\ (forall s, In s (by_index K) -> (data s < inf)%Z).
Definition a_graph (K : complex) : Prop := forall s, In s (by_index K) -> length (verts s) <= 2.
(** [x] is the last element of [l] with [P] *)
Definition last_with {A} (P : A -> Prop) (l : list A) (x : A) : Prop :=
  exists l1 l2, l = l1 ++ x :: l2 /\ P x /\ Forall (fun y => ~ P y) l2.

(** ** names of files *)
Lemma nondigit_spec c : negb (isdigit c) = true <-> ~ a_digit c.
Proof.
  rewrite negb_true_iff. split.
  - intros E H. apply isdigit_spec in H. congruence.
  - intro H. destruct (isdigit c) eqn:E; [|reflexivity]. exfalso. apply H, isdigit_spec, E.
Qed.

Theorem C161_name : forall name ds, reDataSetSuffix name = Some ds <->
  exists a t, name = a ++ ds ++ t /\ Forall (fun c => ~ a_digit c) a /\ some a_digit ds /\ stops a_digit t /\ Forall on_line t.
Proof.
  intros name ds. split.
  - unfold reDataSetSuffix. pose proof (span_spec _ _ nondigit_spec name) as S1. destruct (span (fun c => negb (isdigit c)) name) as [a rest].
    destruct S1 as (-> & Ha & _). pose proof (span_spec _ _ isdigit_spec rest) as S2. destruct (span isdigit rest) as [d t].
    destruct S2 as (-> & Hd & Ht). destruct d as [|d0 d]; [discriminate|]. destruct (forallb anychar t) eqn:E; [|discriminate].
    intro X. injection X as <-. exists a, t. refine (conj eq_refl (conj Ha (conj (conj _ Hd) (conj Ht _)))); [discriminate|].
    apply (all_class _ _ _ anychar_spec). exact E.
  - intros (a & t & -> & Ha & [Hne Hd] & Ht & Hl). unfold reDataSetSuffix. rewrite (span_app _ _ nondigit_spec a (ds ++ t) Ha).
    + rewrite (span_app _ _ isdigit_spec ds t Hd Ht). destruct ds as [|d0 d]; [contradiction|].
      rewrite (proj2 (all_class _ _ t anychar_spec) Hl). reflexivity.
    + intros c u E. destruct ds as [|d0 d]; [contradiction|]. injection E as -> _. apply Forall_inv in Hd. auto.
Qed.

Lemma names_regex f v : names_id f v <-> exists ds, reDataSetSuffix (basename f) = Some ds /\ numeral ds v.
Proof.
  split.
  - intros (a & ds & t & E & Ha & Hv & Ht & Hl). exists ds. split; [|exact Hv]. apply C161_name. exists a, t.
    refine (conj E (conj Ha (conj _ (conj Ht Hl)))). apply PropertiesDataSets.numeral_a_digit with v. exact Hv.
  - intros (ds & E & Hv). apply C161_name in E. destruct E as (a & t & E & Ha & _ & Ht & Hl). exists a, ds, t. auto.
Qed.

Lemma numeral_fun ds v w : numeral ds v -> numeral ds w -> v = w.
Proof.
  intros H1 H2. destruct (numeral_digits ds v H1) as (_ & _ & A). destruct (numeral_digits ds w H2) as (_ & _ & B).
  specialize (A [] 0%N). specialize (B [] 0%N). rewrite app_nil_r, N.mul_0_l, N.add_0_l in A, B. rewrite A in B. exact B.
Qed.
Lemma names_unique f v w : names_id f v -> names_id f w -> v = w.
Proof.
  intros H1 H2. apply names_regex in H1. apply names_regex in H2. destruct H1 as (d1 & E1 & V1). destruct H2 as (d2 & E2 & V2).
  rewrite E1 in E2. injection E2 as <-. exact (numeral_fun d1 v w V1 V2).
Qed.

(** ** the map *)
Lemma assign_spec id b : forall m, StronglySorted N.lt (map fst m) ->
  StronglySorted N.lt (map fst (assign_id m id b)) /\
  forall k c, In (k, c) (assign_id m id b) <-> (k = id /\ c = b) \/ (k <> id /\ In (k, c) m).
Proof.
  induction m as [|[k0 c0] m IH]; intro Hs.
  - cbn. split; [repeat constructor|]. intros k c. split; [intros [E|[]]; injection E; auto|]. intros [[-> ->]|[_ []]]. auto.
  - cbn [map fst] in Hs. apply StronglySorted_inv in Hs. destruct Hs as [Hs Hx]. destruct (IH Hs) as [I1 I2].
    rewrite Forall_forall in Hx.
    assert (Hx' : forall k c, In (k, c) m -> (k0 < k)%N) by (intros k c Hin; apply Hx; apply (in_map fst _ _ Hin)).
    cbn [assign_id]. destruct (N.eqb_spec k0 id) as [->|Hne]; [|destruct (N.ltb_spec id k0) as [Hlt|Hge]].
    + split.
      * cbn [map fst]. constructor; [exact Hs|apply Forall_forall; exact Hx].
      * intros k c. cbn [In]. split.
        -- intros [E|Hin]; [injection E; auto|]. right. pose proof (Hx' k c Hin). split; [lia|auto].
        -- intros [[-> ->]|[Hk [E|Hin]]]; [auto|injection E; intros; subst; contradiction|auto].
    + split.
      * cbn [map fst]. constructor; [constructor; [exact Hs|apply Forall_forall; exact Hx]|]. constructor; [exact Hlt|].
        apply Forall_forall. intros y Hy. apply Hx in Hy. lia.
      * intros k c. cbn [In]. split.
        -- intros [E|[E|Hin]]; [injection E; auto| |].
           ++ injection E as -> ->. right. split; [lia|auto].
           ++ right. pose proof (Hx' k c Hin). split; [lia|auto].
        -- intros [[-> ->]|[Hk [E|Hin]]]; auto.
    + split.
      * cbn [map fst]. constructor; [exact I1|]. apply Forall_forall. intros y Hy. apply in_map_iff in Hy. destruct Hy as ([k c] & <- & Hin).
        cbn [fst]. apply I2 in Hin. destruct Hin as [[-> ->]|[_ Hin]]; [lia|exact (Hx' k c Hin)].
      * intros k c. cbn [In]. rewrite I2. split.
        -- intros [E|[[-> ->]|[Hk Hin]]]; [|auto|auto]. injection E as -> ->. right. auto.
        -- intros [[-> ->]|[Hk [E|Hin]]]; auto.
Qed.

(** ** the number of a file *)
Lemma default_complex inf K : a_complex inf K -> a_complex inf (k_sort_default K) /\ filtration_order (by_index (k_sort_default K)) /\
  Permutation (by_index (k_sort_default K)) (by_index K).
Proof.
  intros (HR & HC & HI). destruct (C08_default_order K HR) as [HP HF]. refine (conj (conj _ (conj _ _)) (conj HF HP)).
  - apply sort_reachable. exact HR.
  - apply (closed_permutation (by_index K)); [apply Permutation_sym; exact HP|exact HC].
  - intros s Hs. apply HI. apply (Permutation_in _ HP). exact Hs.
Qed.

Definition first_number (inf : Z) (ds : list diagram) : nat := d_betti inf (Diagram 1 (points_of ds 1)).

Lemma number_of_second inf ds : map dgm_dim ds = seq 0 (length ds) ->
  (if 2 <=? length ds then let* D := get_ ds 1 in Ok (d_betti inf D) else Ok 0) = Ok (first_number inf ds).
Proof.
  intro E. unfold first_number. destruct (Nat.leb_spec 2 (length ds)) as [H|H].
  - destruct ds as [|D0 [|D1 ds]]; cbn [length] in H; try lia. cbn [get_ nth_error bind]. unfold d_betti. cbn [points].
    assert (E1 : dgm_dim D1 = 1) by (cbn [map length seq] in E; injection E; auto). rewrite <- E1.
    rewrite points_of_one; [reflexivity|rewrite E; apply seq_sorted|simpl; auto].
  - rewrite points_of_none; [reflexivity|]. intros D HD Hd. apply (in_map dgm_dim) in HD. rewrite E in HD. apply in_seq in HD. lia.
Qed.

Lemma count_dims (l : list simplex) :
  (forall s, In s l -> length (verts s) = 1 \/ length (verts s) = 2) ->
  sumZ (map (fun s => sgn (sdim s)) l) =
  (Z.of_nat (length (filter (fun s => (length (verts s) =? 1)%nat) l)) - Z.of_nat (length (filter (fun s => (length (verts s) =? 2)%nat) l)))%Z.
Proof.
  induction l as [|s l IH]; intro H; [reflexivity|]. cbn [map filter]. unfold sumZ in *. cbn [fold_right]. rewrite IH by (intros; apply H; simpl; auto).
  unfold sdim. destruct (H s (or_introl eq_refl)) as [-> | ->]; cbn [Nat.sub Nat.eqb sgn Nat.even length]; unfold sgn; cbn [Nat.even]; lia.
Qed.

Lemma euler_graph inf order a K ds : (forall l, Permutation (order l) l) -> a_complex inf K -> filtration_order (by_index K) -> a_graph K ->
  calculatePersistenceDiagrams inf order a K true true = Ok ds -> map dgm_dim ds = seq 0 (length ds) ->
  (Z.of_nat (d_betti inf (Diagram 0 (points_of ds 0))) - Z.of_nat (first_number inf ds))%Z =
  (Z.of_nat (length (filter (fun s => (length (verts s) =? 1)%nat) (by_index K))) - Z.of_nat (length (filter (fun s => (length (verts s) =? 2)%nat) (by_index K))))%Z.
Proof.
  intros Ho (HR & HC & HI) HF HG Ed Es. pose proof (reachable_kwf K HR) as HK.
  assert (H12 : forall s, In s (by_index K) -> length (verts s) = 1 \/ length (verts s) = 2).
  { intros s Hs. pose proof (HG s Hs). destruct (kwf_good K HK s Hs) as [_ Hne]. destruct (verts s); [contradiction|]. cbn [length] in *. lia. }
  rewrite <- (count_dims _ H12). destruct (by_index K) as [|s0 L] eqn:EL.
  - destruct (C159_dimensions inf order a K true true Ho HR) as (M & ds' & _ & Ed' & _ & _ & Hnil & _); [rewrite EL; exact HC|rewrite EL; exact HF|].
    rewrite Ed in Ed'. injection Ed' as <-. rewrite (Hnil EL). reflexivity.
  - rewrite <- EL in *. assert (HNE : by_index K <> []) by (rewrite EL; discriminate).
    destruct (C143_euler_poincare inf order a K true Ho HR HC HF HNE HI) as (ds' & n & b & Ed' & En & Eb & Ee). rewrite Ed in Ed'. injection Ed' as <-.
    destruct (dimension_spec K HK) as [_ HD]. destruct (HD HNE) as (n' & En' & (s & Hs & Hsn) & Hn). rewrite En in En'. injection En' as <-.
    assert (Hn1 : n <= 1) by (pose proof (HG s Hs); lia).
    assert (Hlen : length ds <= S n).
    { destruct (C159_dimensions inf order a K true true Ho HR HC HF) as (M & ds' & _ & Ed' & _ & _ & _ & Ht).
      rewrite Ed in Ed'. injection Ed' as <-. apply (Ht n); [exists s; split; [exact Hs|lia]|]. intros t Hin. apply Hn in Hin. lia. }
    assert (ND : NoDup (map dgm_dim ds)) by (rewrite Es; apply seq_NoDup).
    destruct (C143_signature inf ds n ND) as (b' & Eb' & Lb & B1 & B2).
    { intros D HD'. apply (in_map dgm_dim) in HD'. rewrite Es in HD'. apply in_seq in HD'. lia. }
    rewrite Eb in Eb'. injection Eb' as <-.
    assert (HB : forall d, nth d b 0 = d_betti inf (Diagram d (points_of ds d))).
    { intro d. destruct (in_dec Nat.eq_dec d (map dgm_dim ds)) as [Hd|Hd].
      - apply in_map_iff in Hd. destruct Hd as (D & <- & HD'). rewrite (B1 D HD'). unfold d_betti. cbn [points].
        rewrite points_of_one; [reflexivity|rewrite Es; apply seq_sorted|exact HD'].
      - rewrite (B2 d Hd), points_of_none; [reflexivity|]. intros D HD' E. apply Hd. rewrite <- E. apply in_map. exact HD'. }
    rewrite <- Ee, C143_euler, Lb. unfold first_number. rewrite <- (HB 0), <- (HB 1).
    destruct n as [|[|n]]; [| |lia]; cbn [Nat.add seq map]; unfold sumZ; cbn [fold_right]; unfold sgn; cbn [Nat.even]; [|lia].
    rewrite (@nth_overflow _ b 1 0) by (rewrite Lb; lia). lia.
Qed.

Lemma representatives_perm A B A' B' r : Permutation A A' -> Permutation B B' -> representatives A B r -> representatives A' B' r.
Proof.
  intros PA PB (H1 & H2 & H3 & H4).
  assert (L : forall u v, linked B u v <-> linked B' u v).
  { assert (G : forall C C', Permutation C C' -> forall u v, linked C u v -> linked C' u v).
    { intros C C' P u v H. induction H as [u v H| | |].
      - apply Relation_Operators.rst_step. apply (has_permutation C C' _ P). exact H.
      - apply Relation_Operators.rst_refl.
      - apply Relation_Operators.rst_sym. assumption.
      - eapply Relation_Operators.rst_trans; eassumption. }
    intros u v. split; apply G; [exact PB|apply Permutation_sym; exact PB]. }
  refine (conj H1 (conj _ (conj _ _))).
  - intros u Hu. apply (has_permutation A A' _ PA). auto.
  - intros w Hw. apply (has_permutation A' A _ (Permutation_sym PA)) in Hw. destruct (H3 w Hw) as (u & Hu & Hl). exists u. split; [exact Hu|apply L; exact Hl].
  - intros u v Hu Hv Hl. apply H4; auto. apply L. exact Hl.
Qed.

Lemma number_of_graph inf order a K : (forall l, Permutation (order l) l) -> a_complex inf K ->
  exists ds, calculatePersistenceDiagrams inf order a (k_sort_default K) true true = Ok ds /\ map dgm_dim ds = seq 0 (length ds) /\
    first_betti (k_sort_default K) (first_number inf ds) /\ (a_graph K -> loops K (first_number inf ds)).
Proof.
  intros Ho HK. destruct (default_complex inf K HK) as (HA & HF & HP). pose proof HA as (HR & HC & HI).
  destruct (C159_dimensions inf order a (k_sort_default K) true true Ho HR HC HF) as (M & ds & EM & Ed & Es & _).
  exists ds. refine (conj Ed (conj Es (conj _ _))).
  - destruct (C55_betti inf order a (k_sort_default K) true true Ho HR HC HF HI) as (M' & ds' & EM' & Ed' & HB).
    rewrite Ed in Ed'. injection Ed' as <-. exists M'. split; [exact EM'|]. apply HB. auto.
  - intro HG.
    destruct (levels_count inf (k_sort_default K) true HR HC HF (or_introl eq_refl)) as (ds' & Ed' & HL).
    rewrite (Ed' order a true Ho) in Ed. injection Ed as ->.
    destruct (HL (fun _ => true) (fun _ => true) (isUnpaired inf)) as (r & Hr & Lr).
    + intros ? ? ? ? _ _ _ _. reflexivity.
    + intros ? ? ? ? _ _ _ _. reflexivity.
    + intros. reflexivity.
    + intros u Hu. unfold isUnpaired. cbn [snd]. apply Z.eqb_refl.
    + intros u v Hu Hv. unfold isUnpaired. cbn [snd negb andb].
      assert (data_at (k_sort_default K) v < inf)%Z by (apply HI; apply nth_In; exact Hv). apply Z.eqb_neq. lia.
    + exists r. rewrite filter_all in Hr by reflexivity. split; [apply (representatives_perm _ _ _ _ r HP HP Hr)|].
      assert (HG' : a_graph (k_sort_default K)) by (intros s Hs; apply HG; apply (Permutation_in _ HP); exact Hs).
      pose proof (euler_graph inf order a (k_sort_default K) ds Ho HA HF HG' (Ed' order a true Ho) Es) as E.
      rewrite <- !(Permutation_length (filter_permutation _ _ _ HP)).
      assert (X : d_betti inf (Diagram 0 (points_of ds 0)) = length r) by (rewrite Lr; reflexivity). rewrite X in E. lia.
Qed.

(** ** C161: the table of numbers *)
Lemma step_ok inf order a m f v : (forall l, Permutation (order l) l) -> a_complex inf (snd f) -> names_id (fst f) v -> (v < 2 ^ 64)%N ->
  exists b, betti_step inf order a m f = Ok (assign_id m (v mod 2 ^ 32)%N b) /\
    first_betti (k_sort_default (snd f)) b /\ (a_graph (snd f) -> loops (snd f) b).
Proof.
  intros Ho HK Hn Hv. destruct (number_of_graph inf order a (snd f) Ho HK) as (ds & Ed & Es & H1 & H2).
  apply names_regex in Hn. destruct Hn as (digits & En & Nv).
  exists (first_number inf ds). refine (conj _ (conj H1 H2)). unfold betti_step. rewrite Ed. cbn [bind]. rewrite En, (numeral_stoul digits v Nv Hv). cbn [bind].
  pose proof (number_of_second inf ds Es) as N2. destruct (2 <=? length ds).
  - destruct (get_ ds 1) as [D| | |]; cbn [bind] in *; try discriminate. injection N2 as ->. reflexivity.
  - injection N2 as <-. reflexivity.
Qed.

Definition has_id (id : N) (f : str * complex) : Prop := exists v, names_id (fst f) v /\ id = (v mod 2 ^ 32)%N.

Lemma numbers_fold inf order a : (forall l, Permutation (order l) l) -> forall files done m,
  Forall (fun f => a_complex inf (snd f) /\ exists v, names_id (fst f) v /\ (v < 2 ^ 64)%N) files ->
  StronglySorted N.lt (map fst m) ->
  (forall id, In id (map fst m) <-> exists f, In f done /\ has_id id f) ->
  (forall id b, In (id, b) m -> exists f, last_with (has_id id) done f /\ first_betti (k_sort_default (snd f)) b /\ (a_graph (snd f) -> loops (snd f) b)) ->
  exists out, foldM (betti_step inf order a) files m = Ok out /\
  StronglySorted N.lt (map fst out) /\
  (forall id, In id (map fst out) <-> exists f, In f (done ++ files) /\ has_id id f) /\
  (forall id b, In (id, b) out -> exists f, last_with (has_id id) (done ++ files) f /\ first_betti (k_sort_default (snd f)) b /\ (a_graph (snd f) -> loops (snd f) b)).
Proof.
  intro Ho. induction files as [|f files IH]; intros done m Hf Hs Hid Hb.
  - exists m. rewrite app_nil_r. cbn [foldM]. auto.
  - pose proof (Forall_inv Hf) as (HK & v & Hv & Hlt). apply Forall_inv_tail in Hf.
    destruct (step_ok inf order a m f v Ho HK Hv Hlt) as (b & Es & B1 & B2). cbn [foldM]. rewrite Es. cbn [bind].
    destruct (assign_spec (v mod 2 ^ 32)%N b m Hs) as [S1 S2].
    assert (HU : forall id, has_id id f -> id = (v mod 2 ^ 32)%N).
    { intros id (w & Hw & ->). rewrite (names_unique (fst f) w v Hw Hv). reflexivity. }
    destruct (IH (done ++ [f]) _ Hf S1) as (out & E & O1 & O2 & O3).
    + intro id. split.
      * intro Hin. apply in_map_iff in Hin. destruct Hin as ([k c] & <- & Hin). cbn [fst]. apply S2 in Hin. destruct Hin as [[-> ->]|[_ Hin]].
        -- exists f. split; [apply in_or_app; simpl; auto|]. exists v. auto.
        -- apply (in_map fst) in Hin. apply Hid in Hin. destruct Hin as (g & Hg & Hi). exists g. split; [apply in_or_app; auto|exact Hi].
      * intros (g & Hg & Hi). apply in_map_iff. destruct (N.eq_dec id (v mod 2 ^ 32)) as [->|Hne].
        -- exists ((v mod 2 ^ 32)%N, b). split; [reflexivity|]. apply S2. auto.
        -- apply in_app_or in Hg. destruct Hg as [Hg|[<-|[]]]; [|elim Hne; apply HU; exact Hi].
           assert (Hin : In id (map fst m)) by (apply Hid; eauto). apply in_map_iff in Hin. destruct Hin as ([k c] & <- & Hin).
           exists (k, c). split; [reflexivity|]. apply S2. right. auto.
    + intros id c Hin. apply S2 in Hin. destruct Hin as [[-> ->]|[Hne Hin]].
      * exists f. refine (conj _ (conj B1 B2)). exists done, []. refine (conj eq_refl (conj _ (Forall_nil _))). exists v. auto.
      * destruct (Hb id c Hin) as (g & (l1 & l2 & -> & Hg & Hl) & G). exists g. refine (conj _ G). exists l1, (l2 ++ [f]).
        rewrite <- app_assoc. refine (conj eq_refl (conj Hg _)). apply Forall_app. split; [exact Hl|]. constructor; [|constructor].
        intro Hi. apply Hne, HU, Hi.
    + rewrite <- app_assoc in O2, O3. exists out. auto.
Qed.

Theorem C161_numbers : forall inf order a files,
  (forall l, Permutation (order l) l) ->
  Forall (fun f => a_complex inf (snd f) /\ exists v, names_id (fst f) v /\ (v < 2 ^ 64)%N) files ->
  exists out, betti_numbers inf order a files = Ok out /\
    StronglySorted N.lt (map fst out) /\
    (forall id, In id (map fst out) <-> exists f, In f files /\ has_id id f) /\
    (forall id b, In (id, b) out -> exists f, last_with (has_id id) files f /\
       first_betti (k_sort_default (snd f)) b /\ (a_graph (snd f) -> loops (snd f) b)).
Proof.
  intros inf order a files Ho Hf. destruct (numbers_fold inf order a Ho files [] [] Hf) as (out & E & H1 & H2 & H3).
  - constructor.
  - intro id. split; [intros []|intros (f & [] & _)].
  - intros id b [].
  - exists out. auto.
Qed.

Theorem C161_failures : forall inf order a files f more,
  (forall l, Permutation (order l) l) ->
  Forall (fun f => a_complex inf (snd f) /\ exists v, names_id (fst f) v /\ (v < 2 ^ 64)%N) files -> a_complex inf (snd f) ->
  ((forall v, ~ names_id (fst f) v) -> betti_numbers inf order a (files ++ f :: more) = Throw RuntimeError) /\
  (forall v, names_id (fst f) v -> (2 ^ 64 <= v)%N -> betti_numbers inf order a (files ++ f :: more) = Throw OutOfRange).
Proof.
  intros inf order a files f more Ho Hf HK. destruct (C161_numbers inf order a files Ho Hf) as (m & E & _).
  unfold betti_numbers in *. destruct (number_of_graph inf order a (snd f) Ho HK) as (ds & Ed & _).
  assert (G : foldM (betti_step inf order a) (files ++ f :: more) [] = let* m' := betti_step inf order a m f in foldM (betti_step inf order a) more m').
  { rewrite foldM_app, E. reflexivity. }
  rewrite G. unfold betti_step at 1. unfold betti_step at 2. rewrite Ed. cbn [bind]. split.
  - intro Hn. destruct (reDataSetSuffix (basename (fst f))) as [d|] eqn:Er; [|reflexivity]. exfalso.
    pose proof Er as Er'. apply C161_name in Er'. destruct Er' as (_ & _ & _ & _ & Hd & _). destruct (digits_numeral d Hd) as [v Hv].
    apply (Hn v). apply names_regex. eauto.
  - intros v Hn Hv. apply names_regex in Hn. destruct Hn as (d & Er & Nv). rewrite Er, (numeral_stoul_large d v Nv Hv). reflexivity.
Qed.

(** ** data sets may be lost: the last file of a number counts *)
Lemma name_check name d v : reDataSetSuffix (basename name) = Some d -> stoul d = Ok v -> names_id name v /\ (v < 2 ^ 64)%N.
Proof.
  intros E H. pose proof E as E'. apply C161_name in E'. destruct E' as (_ & _ & _ & _ & Hd & _). destruct (digits_numeral d Hd) as [w Hw].
  destruct (N.lt_ge_cases w (2 ^ 64)) as [L|L].
  - rewrite (numeral_stoul d w Hw L) in H. injection H as <-. split; [apply names_regex; eauto|exact L].
  - rewrite (numeral_stoul_large d w Hw L) in H. discriminate.
Qed.
Lemma complex_check inf K : reachable K -> closed (by_index K) -> forallb (fun s => (data s <? inf)%Z) (by_index K) = true -> a_complex inf K.
Proof. intros HR HC HD. refine (conj HR (conj HC _)). intros s Hs. rewrite forallb_forall in HD. apply Z.ltb_lt. apply HD. exact Hs. Qed.

Lemma circle_complex : a_complex 99 circle.
Proof. apply complex_check; [apply mk_reachable|apply closed_check; [apply mk_reachable|vm_compute; reflexivity]|vm_compute; reflexivity]. Qed.
Lemma tree_complex : a_complex 99 tree.
Proof. apply complex_check; [apply mk_reachable|apply closed_check; [apply mk_reachable|vm_compute; reflexivity]|vm_compute; reflexivity]. Qed.
Lemma points_complex : a_complex 99 three_points.
Proof. apply complex_check; [apply mk_reachable|apply closed_check; [apply mk_reachable|vm_compute; reflexivity]|vm_compute; reflexivity]. Qed.

Definition same_files : list (str * complex) :=
  [(chars "run2_step10.gml", circle); (chars "run2_step11.gml", tree); (chars "run4294967298_a.gml", three_points)].
Theorem C161_all_files_refuted : ~ forall inf order a files,
  (forall l, Permutation (order l) l) ->
  Forall (fun f => a_complex inf (snd f) /\ exists v, names_id (fst f) v /\ (v < 2 ^ 64)%N) files ->
  NoDup (map fst files) ->
  exists out, betti_numbers inf order a files = Ok out /\ length out = length files.
Proof.
  intro H. destruct (H 99%Z (fun l => l) ATwist same_files) as (out & E & L).
  - intro l. apply Permutation_refl.
  - repeat apply Forall_cons; [| | |apply Forall_nil]; cbn [fst snd].
    + split; [apply circle_complex|]. exists 2%N. apply (name_check _ (chars "2")); vm_compute; reflexivity.
    + split; [apply tree_complex|]. exists 2%N. apply (name_check _ (chars "2")); vm_compute; reflexivity.
    + split; [apply points_complex|]. exists 4294967298%N. apply (name_check _ (chars "4294967298")); vm_compute; reflexivity.
  - vm_compute. repeat constructor; simpl; intuition discriminate.
  - vm_compute in E. injection E as <-. discriminate L.
Qed.

Definition graph_files : list (str * complex) :=
  [(chars "day7/g_012.gml", circle); (chars "g_3.gml", tree); (chars "x11_5.gml", three_points); (chars "g00.gml", circle)].
Example C161_example :
  Forall (fun f => a_complex 99 (snd f) /\ exists v, names_id (fst f) v /\ (v < 2 ^ 64)%N) graph_files /\
  betti_numbers 99 (fun l => l) ATwist graph_files = Ok [(0%N, 1); (3%N, 0); (11%N, 0); (12%N, 1)] /\
  loops circle 1 /\ names_id (chars "day7/g_012.gml") 12 /\
  betti_numbers 99 (fun l => l) ATwist same_files = Ok [(2%N, 0)] /\
  betti_numbers 99 (fun l => l) ATwist [(chars "12/circle.gml", circle)] = Throw RuntimeError /\
  betti_numbers 99 (fun l => l) ATwist [(chars "g_18446744073709551616", circle)] = Throw OutOfRange.
Proof.
  refine (conj _ (conj _ (conj _ (conj _ (conj _ (conj _ _)))))).
  - repeat apply Forall_cons; [| | | |apply Forall_nil]; cbn [fst snd].
    + split; [apply circle_complex|]. exists 12%N. apply (name_check _ (chars "012")); vm_compute; reflexivity.
    + split; [apply tree_complex|]. exists 3%N. apply (name_check _ (chars "3")); vm_compute; reflexivity.
    + split; [apply points_complex|]. exists 11%N. apply (name_check _ (chars "11")); vm_compute; reflexivity.
    + split; [apply circle_complex|]. exists 0%N. apply (name_check _ (chars "00")); vm_compute; reflexivity.
  - vm_compute. reflexivity.
  - destruct (number_of_graph 99 (fun l => l) ATwist circle (fun l => Permutation_refl l) circle_complex) as (ds & E & _ & _ & HG).
    vm_compute in E. injection E as <-. apply HG. intros s Hs. cbn in Hs. do 6 (destruct Hs as [<-|Hs]; [cbn; lia|]). destruct Hs.
  - apply (name_check _ (chars "012")); vm_compute; reflexivity.
  - vm_compute. reflexivity.
  - vm_compute. reflexivity.
  - vm_compute. reflexivity.
Qed.

Print Assumptions C161_name.
Print Assumptions C161_numbers.
Print Assumptions C161_failures.
Print Assumptions C161_all_files_refuted.
