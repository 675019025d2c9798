(** * C159: the dimensions of persistence diagrams. *)
From Coq Require Import List Arith Bool ZArith Lia Permutation Sorted.
From Verif Require Import Base BaseFacts Matrix SpecMatrix PairingFacts DualFacts RepFacts PropertiesMatrix
  SpecHomology HomologyFacts Simplex SimplexFacts SpecComplex Complex ComplexFacts FiltrationFacts History SubcomplexFacts
  PropertiesComplex PropertiesHomology SpecDiagram Diagram DiagramFacts PropertiesDiagram PropertiesComponents PropertiesDowker.
Import ListNotations.

(** ** Columns of the first simplices of a dimension *)
Lemma least (P : nat -> bool) n : (exists j, j < n /\ P j = true) ->
  exists j, j < n /\ P j = true /\ forall k, k < j -> P k = false.
Proof.
  induction n as [|n IH]; intros (j & Hj & H); [lia|].
  destruct (existsb P (seq 0 n)) eqn:X.
  - apply existsb_exists in X. destruct X as (k & Hk & Pk). apply in_seq in Hk.
    destruct IH as (i & Hi & Pi & Q); [exists k; split; auto; lia|]. exists i. split; [lia|auto].
  - exists j. refine (conj Hj (conj H _)). intros k Hk. destruct (P k) eqn:Y; auto. exfalso.
    apply not_true_iff_false in X. apply X. apply existsb_exists. exists k. split; auto. apply in_seq. lia.
Qed.

Lemma sum_cols_none C r S : (forall k, In k S -> entry C r k = false) -> sum_cols C S r = false.
Proof.
  induction S as [|k S IH]; intro H; [reflexivity|]. unfold sum_cols in *. cbn [fold_right].
  rewrite (H k) by (left; auto). rewrite IH; auto. intros; apply H; right; auto.
Qed.

Lemma first_destroys M p d : valid_boundary (cols M) (dims M) ->
  (forall j, j < length (cols M) -> 0 < nth j (dims M) 0 -> exists r, entry (cols M) r j = true) ->
  is_pairing (cols M) (dims M) true (fun _ => True) p ->
  (exists j, j < length (cols M) /\ nth j (dims M) 0 = S d) ->
  exists u v, In (u, Some v) p /\ u < length (cols M) /\ nth u (dims M) 0 = d.
Proof.
  intros HV Hne Hp (j0 & Hj0 & Ej0).
  destruct (least (fun j => nth j (dims M) 0 =? S d) (length (cols M))) as (j & Hj & Ej & Hmin).
  { exists j0. split; auto. apply Nat.eqb_eq; auto. }
  apply Nat.eqb_eq in Ej.
  destruct (pairing_structure M p HV Hp) as [HP HD].
  assert (Hin : In j (pair_indices p)) by (apply (Permutation_in _ (Permutation_sym HP)), in_seq; lia).
  unfold pair_indices in Hin. apply in_flat_map in Hin. destruct Hin as ([u o] & Hq & Hin). cbn [fst snd] in Hin.
  assert (Hc : fst (u, o) <> j).
  { cbn [fst]. intros ->. assert (Hm : min_low (cols M) j None).
    { apply (in_creators (cols M) (dims M) HV p Hp j). change j with (fst (j, o)). apply in_map; auto. }
    destruct Hm as (x & (S0 & HS & Hx) & Hz). destruct (Hne j Hj ltac:(lia)) as (r & Hr).
    destruct HV as (_ & _ & Hg & _). destruct (Hg j r Hr) as [_ Er].
    specialize (Hz r). rewrite Hx, Hr, sum_cols_none in Hz; [discriminate|].
    intros k Hk. apply HS in Hk. destruct (entry (cols M) r k) eqn:X; auto. exfalso.
    destruct (Hg k r X) as [_ Ek]. specialize (Hmin k Hk). apply Nat.eqb_neq in Hmin. lia. }
  cbn [fst] in Hc. destruct Hin as [->|Hin]; [congruence|]. destruct o as [v|]; [|destruct Hin].
  destruct Hin as [->|[]]. exists u, j. destruct (HD u j Hq) as [A B]. refine (conj Hq (conj _ _)); lia.
Qed.

(** all smaller dimensions occur *)
Lemma all_below M p top : valid_boundary (cols M) (dims M) ->
  (forall j, j < length (cols M) -> 0 < nth j (dims M) 0 -> exists r, entry (cols M) r j = true) ->
  is_pairing (cols M) (dims M) true (fun _ => True) p ->
  (exists j, j < length (cols M) /\ nth j (dims M) 0 = top) ->
  forall d, d < top -> exists u v, In (u, Some v) p /\ u < length (cols M) /\ nth u (dims M) 0 = d.
Proof.
  intros HV Hne Hp. induction top as [|t IH]; intros Ht d Hd; [lia|].
  destruct (first_destroys M p t HV Hne Hp Ht) as (u & v & H1 & H2 & H3).
  destruct (Nat.eq_dec d t) as [->|Hn]; [exists u, v; auto|]. apply IH; [exists u; auto|lia].
Qed.

Lemma nonempty_columns K M : reachable K -> closed (by_index K) -> filtration_order (by_index K) ->
  makeBoundaryMatrix K 0 = Ok M ->
  forall j, j < length (cols M) -> 0 < nth j (dims M) 0 -> exists r, entry (cols M) r j = true.
Proof.
  intros HR HC HF E j Hj Hd. pose proof (reachable_kwf K HR) as HK.
  destruct (C09_boundary_matrix K HR HC HF) as (M' & E' & _ & HL & HB & _). rewrite E in E'. injection E' as <-.
  assert (Hdims : dims M = map sdim (by_index K)).
  { rewrite (matrix_value K 0 HK) in E. injection E as <-. auto. }
  rewrite HL in Hj. unfold k_size in Hj.
  destruct (nth_error (by_index K) j) as [s|] eqn:Es; [|apply nth_error_None in Es; lia].
  destruct (HB j s Es) as (_ & c & Ec & _ & _ & Hc).
  assert (Hs : In s (by_index K)) by (eapply nth_error_In; eauto).
  rewrite Hdims in Hd. rewrite (nth_error_nth _ _ 0 (map_nth_error sdim _ _ Es)) in Hd. unfold sdim in Hd.
  destruct (verts s) as [|a [|b l]] eqn:Ev; cbn in Hd; try lia.
  destruct (HC s (b :: l)) as (t & Ht & Et0); auto; [discriminate|rewrite Ev; intros x Hx; right; auto|].
  assert (Et : verts t = b :: l).
  { pose proof (kwf_good K HK s Hs) as [Hg _]. pose proof (kwf_good K HK t Ht) as [Hgt _]. unfold wf in *. rewrite Ev in Hg.
    apply StronglySorted_inv in Hg. destruct Hg as [Hg _].
    change (verts t = verts (Simplex (b :: l) 0%Z)). apply wf_ext; auto. }
  destruct (In_nth_error _ _ Ht) as (r & Er).
  exists r. unfold entry. apply existsb_exists. exists r. split; [|apply Nat.eqb_refl].
  assert (Hn : nth j (cols M) [] = c).
  { unfold getColumn, at_ in Ec. destruct (nth_error (cols M) j) eqn:X; [|discriminate]. injection Ec as <-. apply nth_error_nth; auto. }
  rewrite Hn. apply Hc. exists t. refine (conj Er (conj _ _)); rewrite Et; rewrite ?Ev; [intros x Hx; right; auto|reflexivity].
Qed.

Lemma nonzero_cycle M p d : valid_boundary (cols M) (dims M) ->
  is_pairing (cols M) (dims M) true (fun _ => True) p ->
  (exists q, In q p /\ nth (fst q) (dims M) 0 = d) <-> exists x, cycles (cols M) (dims M) (length (cols M)) d x /\ ~ veq x vzero.
Proof.
  intros HV Hp. set (L := filter (fun u => (nth u (dims M) 0 =? d) && existsb (Nat.eqb u) (map fst p)) (seq 0 (length (cols M)))).
  assert (HL : forall l, In l L <-> l < length (cols M) /\ nth l (dims M) 0 = d /\ min_low (cols M) l None).
  { intro l. unfold L. rewrite filter_In, in_seq, andb_true_iff, Nat.eqb_eq, existsb_exists.
    pose proof (in_creators (cols M) (dims M) HV p Hp l) as HI. split.
    - intros (H1 & H2 & x & Hx & E). apply Nat.eqb_eq in E. subst x. apply HI in Hx. tauto.
    - intros (H1 & H2 & H3). refine (conj _ (conj H2 _)); [lia|]. exists l. split; [apply HI; auto|apply Nat.eqb_refl]. }
  assert (HD : has_dim (cycles (cols M) (dims M) (length (cols M)) d) (length L)).
  { apply dim_cycles; auto. apply filter_sorted, seq_sorted. }
  destruct HD as (B & HB & HBc & HBi & HBs). split.
  - intros (q & Hq & Eq). assert (Hin : In (fst q) L).
    { apply HL. assert (In (fst q) (map fst p)) as X by (apply in_map; auto). apply (in_creators (cols M) (dims M) HV p Hp) in X. tauto. }
    destruct B as [|b B]; [destruct L; [destruct Hin|discriminate]|].
    exists b. split; [apply HBc; left; auto|]. intro Hz.
    assert (E : true = false); [|discriminate]. apply (HBi (true :: repeat false (length B))); [cbn; rewrite repeat_length; auto| |left; auto].
    intro r. cbn [comb]. unfold vadd. rewrite Hz. replace (comb (repeat false (length B)) B r) with false; auto.
    clear. induction B as [|x B IH]; auto.
  - intros (x & Hx & Hn). destruct L as [|u L'] eqn:EL.
    + exfalso. apply Hn. destruct B; [|discriminate]. destruct (HBs x Hx) as (c & Hc & E). destruct c; [|discriminate]. exact E.
    + destruct (proj1 (HL u) (or_introl eq_refl)) as (H1 & H2 & H3).
      assert (Hu : In u (map fst p)) by (apply (in_creators (cols M) (dims M) HV p Hp); auto).
      apply in_map_iff in Hu. destruct Hu as (q & <- & Hq). exists q. auto.
Qed.

(** ** The dimensions *)
Theorem C159_dimensions : forall inf order a K dual all,
  (forall l, Permutation (order l) l) ->
  reachable K -> closed (by_index K) -> filtration_order (by_index K) ->
  exists M ds, makeBoundaryMatrix K 0 = Ok M /\
    calculatePersistenceDiagrams inf order a K dual all = Ok ds /\
    (* the diagram at position [d] is the one of dimension [d], and it is not empty *)
    map dgm_dim ds = seq 0 (length ds) /\ (forall D, In D ds -> points D <> []) /\
    (* their number: *)
    (by_index K = [] -> ds = []) /\
    forall top, (exists s, In s (by_index K) /\ length (verts s) = S top) ->
      (forall s, In s (by_index K) -> length (verts s) <= S top) ->
      if all then top <= length ds <= S top /\
        (length ds = S top <-> exists x, cycles (cols M) (dims M) (k_size K) top x /\ ~ veq x vzero)
      else length ds = top.
Proof.
  intros inf order a K dual all Ho HR HC HF. pose proof (reachable_kwf K HR) as HK.
  destruct (pipeline inf K all HR HC HF) as (M & p & p1 & ds & E & HV & HL & Hdims & Hp & Hp1 & Hb & Ed & H).
  exists M, ds. refine (conj E (conj (H order a dual Ho) _)).
  pose proof (nonempty_columns K M HR HC HF E) as Hne.
  destruct (tabulates_pairing inf K p1 HK Hb) as (ds0 & E0 & Hs & H1 & H2). rewrite Ed in E0. injection E0 as <-.
  assert (Hdim : forall u, u < k_size K -> nth u (dims M) 0 = dim_at K u).
  { intros u Hu. rewrite Hdims. unfold dim_at.
    destruct (nth_error (by_index K) u) as [s|] eqn:Es; [|apply nth_error_None in Es; unfold k_size in Hu; lia].
    rewrite (nth_error_nth _ _ dummy_simplex Es). apply (map_nth_error sdim) in Es. apply (nth_error_nth _ _ 0 Es). }
  assert (Hdd : forall d, In d (map dgm_dim ds) <-> exists q, In q p1 /\ nth (fst q) (dims M) 0 = d).
  { intro d. rewrite in_map_iff. split.
    - intros (D & <- & HD). destruct (H1 D HD) as [Hn Hpt]. rewrite Hpt in Hn.
      destruct (filter (fun q => dim_at K (fst q) =? dgm_dim D) p1) as [|q l] eqn:Ef; [exfalso; apply Hn; reflexivity|].
      assert (Hq : In q (filter (fun q => dim_at K (fst q) =? dgm_dim D) p1)) by (rewrite Ef; left; auto).
      apply filter_In in Hq. destruct Hq as [Hq Eq]. apply Nat.eqb_eq in Eq. exists q. split; auto. rewrite Hdim; auto.
    - intros (q & Hq & <-). destruct (H2 q Hq) as (D & HD & Ed'). exists D. split; auto. rewrite Hdim; auto. }
  assert (Hsub : forall q, In q p1 -> In q p) by (subst p1; intros q Hq; destruct all; auto; apply filter_In in Hq; tauto).
  assert (Hkeep : forall u v, In (u, Some v) p -> In (u, Some v) p1) by (subst p1; intros u v Hq; destruct all; auto; apply filter_In; auto).
  (* the dimensions form an initial segment *)
  assert (Hseg : forall m, (forall d, In d (map dgm_dim ds) <-> d < m) -> map dgm_dim ds = seq 0 m /\ length ds = m).
  { intros m Hm. assert (X : map dgm_dim ds = seq 0 m).
    { apply SSlt_ext; auto; [apply seq_sorted|]. intro d. rewrite Hm, in_seq. lia. }
    split; auto. rewrite <- (map_length dgm_dim), X, seq_length. auto. }
  assert (Hbelow : forall t, (exists s, In s (by_index K) /\ length (verts s) = S t) -> forall d, d < t -> In d (map dgm_dim ds)).
  { intros t (s & Hin & Hv) d Hd. destruct (In_nth_error _ _ Hin) as (j & Ej).
    assert (Hj : j < length (by_index K)) by (apply nth_error_Some; congruence).
    destruct (all_below M p t HV Hne Hp) with (d := d) as (u & v & A & B & C'); auto.
    - exists j. rewrite HL. split; [exact Hj|]. rewrite Hdims, (nth_error_nth _ _ 0 (map_nth_error sdim _ _ Ej)). unfold sdim. lia.
    - apply Hdd. exists (u, Some v). split; auto. }
  assert (Hlast : forall t, (forall s, In s (by_index K) -> length (verts s) <= S t) -> forall d, In d (map dgm_dim ds) -> d <= t).
  { intros t Ht d Hd. apply Hdd in Hd. destruct Hd as (q & Hq & <-). specialize (Hb q Hq). rewrite Hdims.
    destruct (nth_error (by_index K) (fst q)) as [s|] eqn:Es; [|apply nth_error_None in Es; unfold k_size in Hb; lia].
    rewrite (nth_error_nth _ _ 0 (map_nth_error sdim _ _ Es)). unfold sdim. specialize (Ht s (nth_error_In _ _ Es)). lia. }
  assert (Hmain : forall t, (exists s, In s (by_index K) /\ length (verts s) = S t) -> (forall s, In s (by_index K) -> length (verts s) <= S t) ->
    map dgm_dim ds = seq 0 (length ds) /\
    if all then t <= length ds <= S t /\
        (length ds = S t <-> exists x, cycles (cols M) (dims M) (k_size K) t x /\ ~ veq x vzero)
    else length ds = t).
  { intros t Ha Hbd. pose proof (Hbelow t Ha) as Hlo. pose proof (Hlast t Hbd) as Hhi.
    assert (Hnone : forall v, v < length (cols M) -> nth v (dims M) 0 <= t).
    { intros v Hv. rewrite HL in Hv. unfold k_size in Hv. rewrite Hdims.
      destruct (nth_error (by_index K) v) as [s|] eqn:Es; [|apply nth_error_None in Es; lia].
      rewrite (nth_error_nth _ _ 0 (map_nth_error sdim _ _ Es)). unfold sdim. specialize (Hbd s (nth_error_In _ _ Es)). lia. }
    assert (Hlm : list_max (dims M) = t).
    { apply Nat.le_antisymm.
      - apply list_max_le, Forall_forall. intros k Hk. destruct (In_nth _ _ 0 Hk) as (v & Hv & <-). apply Hnone. destruct HV as [Hlen _]. lia.
      - destruct Ha as (s & Hin & Hv). assert (Q : Forall (fun k => k <= list_max (dims M)) (dims M)) by (apply list_max_le; auto).
        rewrite Forall_forall in Q. specialize (Q (sdim s)). rewrite Hdims in Q at 1. specialize (Q (in_map _ _ _ Hin)). unfold sdim in Q. lia. }
    assert (Htop : forall u v, In (u, Some v) p -> nth u (dims M) 0 <> t).
    { intros u v Hq Eu. destruct (pairing_structure M p HV Hp) as [_ HD]. destruct (HD u v Hq) as [_ Hv].
      apply Hp in Hq. destruct Hq as [Hl _]. specialize (Hnone v Hl). lia. }
    destruct all.
    - subst p1. destruct (in_dec Nat.eq_dec t (map dgm_dim ds)) as [Hin|Hout].
      + destruct (Hseg (S t)) as [A B].
        { intro d. split; [intro Hd; specialize (Hhi d Hd); lia|]. intro Hd. destruct (Nat.eq_dec d t) as [->|Hn]; auto. apply Hlo. lia. }
        rewrite A, B. refine (conj eq_refl (conj _ _)); [lia|]. split; [intros _|auto].
        rewrite <- HL. apply (nonzero_cycle M p t HV Hp). apply Hdd; auto.
      + destruct (Hseg t) as [A B].
        { intro d. split; [|apply Hlo]. intro Hd. specialize (Hhi d Hd). destruct (Nat.eq_dec d t) as [->|Hn]; [contradiction|lia]. }
        rewrite A, B. refine (conj eq_refl (conj _ _)); [lia|]. split; [lia|].
        intro Hx. exfalso. apply Hout, Hdd. rewrite <- HL in Hx. apply (nonzero_cycle M p t HV Hp); auto.
    - destruct (Hseg t) as [A B]; [|rewrite A, B; auto].
      intro d. split; [|apply Hlo]. intro Hd. specialize (Hhi d Hd). destruct (Nat.eq_dec d t) as [->|Hn]; [|lia]. exfalso.
      apply Hdd in Hd. destruct Hd as (q & Hq & Eq). subst p1. apply filter_In in Hq. destruct Hq as [Hq Hf].
      destruct q as [u [v|]]; cbn [fst snd] in *; [apply (Htop u v Hq Eq)|]. rewrite Eq, Hlm, Nat.eqb_refl in Hf. discriminate. }
  assert (Hex : by_index K <> [] -> exists t, (exists s, In s (by_index K) /\ length (verts s) = S t) /\ (forall s, In s (by_index K) -> length (verts s) <= S t)).
  { intro Hn. clear - Hn HK. assert (Hpos : forall s, In s (by_index K) -> 1 <= length (verts s)).
    { intros s Hs. destruct (kwf_good K HK s Hs) as [_ Hv]. destruct (verts s); [congruence|cbn; lia]. }
    induction (by_index K) as [|s L IH]; [congruence|]. destruct L as [|s' L'].
    - exists (length (verts s) - 1). specialize (Hpos s (or_introl eq_refl)). split; [exists s; split; [left; auto|lia]|]. intros x [<-|[]]. lia.
    - destruct IH as (t & (x & Hx & Ex) & Hb); [discriminate|intros; apply Hpos; right; auto|].
      specialize (Hpos s (or_introl eq_refl)). destruct (le_lt_dec (length (verts s)) (S t)) as [Hl|Hl].
      + exists t. split; [exists x; split; [right; auto|auto]|]. intros y [<-|Hy]; auto.
      + exists (length (verts s) - 1). split; [exists s; split; [left; auto|lia]|]. intros y [<-|Hy]; [lia|]. specialize (Hb y Hy). lia. }
  destruct (by_index K) as [|s0 L0] eqn:EK.
  { assert (p1 = []) as Hnil.
    { destruct p1 as [|q l]; auto. specialize (Hb q (or_introl eq_refl)). unfold k_size in Hb. rewrite EK in Hb. cbn in Hb. lia. }
    destruct (Hseg 0) as [A B].
    { intro d. rewrite Hdd, Hnil. split; [intros (q & [] & _)|lia]. }
    rewrite A, B. refine (conj eq_refl (conj (fun D HD => proj1 (H1 D HD)) (conj (fun _ => proj1 (length_zero_iff_nil _) B) _))).
    intros top (s & [] & _). }
  destruct Hex as (t & Ha & Hbd); [discriminate|]. destruct (Hmain t Ha Hbd) as [A _].
  refine (conj A (conj (fun D HD => proj1 (H1 D HD)) (conj _ (fun top X Y => proj2 (Hmain top X Y))))). discriminate.
Qed.

(** A circle: with the unpaired creators of the largest dimension there are two
    diagrams, without them one; a tree has one in both cases. *)
Definition circle : complex := mk [PushBack [0] 0; PushBack [1] 0; PushBack [2] 0; PushBack [0;1] 1; PushBack [1;2] 2; PushBack [0;2] 3].
Definition tree : complex := mk [PushBack [0] 0; PushBack [1] 0; PushBack [2] 0; PushBack [0;1] 1; PushBack [1;2] 2].
Definition three_points : complex := mk [PushBack [0] 0; PushBack [1] 0; PushBack [2] 0].
Example C159_example :
  reachable circle /\ closed (by_index circle) /\ filtration_order (by_index circle) /\
  calculatePersistenceDiagrams 99 (fun l => l) ATwist circle true true
  = Ok [Diagram 0 [(0,99); (0,1); (0,2)]; Diagram 1 [(3,99)]]%Z /\
  calculatePersistenceDiagrams 99 (fun l => l) ATwist circle true false = Ok [Diagram 0 [(0,99); (0,1); (0,2)]]%Z /\
  calculatePersistenceDiagrams 99 (fun l => l) AStandard tree false true = Ok [Diagram 0 [(0,99); (0,1); (0,2)]]%Z /\
  calculatePersistenceDiagrams 99 (fun l => l) AStandard three_points false true = Ok [Diagram 0 [(0,99); (0,99); (0,99)]]%Z /\
  calculatePersistenceDiagrams 99 (fun l => l) AStandard three_points false false = Ok [].
Proof.
  refine (conj _ (conj _ (conj _ _))); [apply mk_reachable|apply closed_check; [apply mk_reachable|vm_compute; reflexivity]|apply filtration_check; vm_compute; reflexivity|].
  repeat (split; [reflexivity|]). reflexivity.
Qed.

Print Assumptions C159_dimensions.
