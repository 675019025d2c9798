(** * Proofs about [Bottleneck]. *)
From Coq Require Import List Arith Bool ZArith Lia Permutation Sorted.
From Verif Require Import Base BaseFacts Diagram Wasserstein Bottleneck.
Import ListNotations.

(** ** perfect matchings *)
Lemma same_ends_refl u v : same_ends u v (u, v) = true.
Proof. unfold same_ends. cbn. rewrite !Nat.eqb_refl. reflexivity. Qed.

Lemma adjacent_mono g g' u v : incl g g' -> adjacent g u v = true -> adjacent g' u v = true.
Proof. unfold adjacent. rewrite !existsb_exists. intros I (e & He & E). exists e. split; [apply I, He|exact E]. Qed.

Lemma match_rows_mono g g' size rows : incl g g' -> forall used, match_rows g size rows used = true -> match_rows g' size rows used = true.
Proof.
  intro I. induction rows as [|r rows IH]; intros used H; [reflexivity|]. cbn [match_rows] in *. apply existsb_exists in H as (t & Ht & H). apply existsb_exists. exists t. split; [exact Ht|].
  apply andb_true_iff in H as [H H3]. apply andb_true_iff in H as [H1 H2]. rewrite (adjacent_mono g g' r t I H1), H2, (IH _ H3). reflexivity.
Qed.
Lemma perfect_mono size g g' : incl g g' -> perfect size g = true -> perfect size g' = true.
Proof. intro I. apply match_rows_mono, I. Qed.

(** the targets of a perfect matching *)
Definition perfect_targets (size : nat) (g : graph) (ts : list nat) : Prop :=
  length ts = size /\ NoDup ts /\ (forall t, In t ts -> size <= t < 2 * size) /\ forall i, i < size -> adjacent g i (nth i ts 0) = true.

Lemma match_rows_spec g size rows : forall used, match_rows g size rows used = true <->
  exists ts, length ts = length rows /\ NoDup ts /\ (forall t, In t ts -> size <= t < 2 * size /\ ~ In t used) /\ forall r t, In (r, t) (combine rows ts) -> adjacent g r t = true.
Proof.
  induction rows as [|r rows IH]; intro used; cbn [match_rows].
  - split; [intros _|reflexivity]. exists []. refine (conj eq_refl (conj (NoDup_nil _) (conj _ _))); intros ? *; intros [].
  - rewrite existsb_exists. split.
    + intros (t & Ht & H). apply in_seq in Ht. apply andb_true_iff in H as [H H3]. apply andb_true_iff in H as [H1 H2]. apply IH in H3 as (ts & L & N & B & A).
      exists (t :: ts). refine (conj _ (conj _ (conj _ _))).
      * cbn. lia.
      * constructor; [|exact N]. intro Hin. apply (B t Hin). left. reflexivity.
      * intros t' [<-|Ht']; [split; [lia|]|].
        -- apply negb_true_iff in H2. intro Hu. assert (existsb (Nat.eqb t) used = true); [|congruence]. apply existsb_exists. exists t. split; [exact Hu|apply Nat.eqb_refl].
        -- destruct (B t' Ht') as [B1 B2]. split; [exact B1|]. intro Hu. apply B2. right. exact Hu.
      * intros r' t' [[= <- <-]|Hin]; [exact H1|apply A, Hin].
    + intros ([|t ts] & L & N & B & A); [cbn in L; lia|]. inversion N as [|? ? Nt N']; subst. exists t. destruct (B t (or_introl eq_refl)) as [B1 B2]. split; [apply in_seq; lia|].
      rewrite (A r t (or_introl eq_refl)). replace (existsb (Nat.eqb t) used) with false.
      * cbn. apply IH. exists ts. refine (conj _ (conj N' (conj _ _))); [cbn in L; lia| |intros r' t' H; apply A; right; exact H].
        intros t' Ht'. destruct (B t' (or_intror Ht')) as [C1 C2]. split; [exact C1|]. intros [<-|Hu]; contradiction.
      * symmetry. destruct (existsb (Nat.eqb t) used) eqn:E; [|reflexivity]. apply existsb_exists in E as (x & Hx & Ex). apply Nat.eqb_eq in Ex. subst x. contradiction.
Qed.

Lemma combine_seq (ts : list nat) : forall s i t, In (i, t) (combine (seq s (length ts)) ts) <-> s <= i < s + length ts /\ t = nth (i - s) ts 0.
Proof.
  induction ts as [|x ts IH]; intros s i t; cbn [length seq combine]; [split; [intros []|intros [? ?]; cbn in *; lia]|]. cbn [In]. rewrite IH. cbn [length]. split.
  - intros [[= <- <-]|[H1 H2]]; [split; [lia|rewrite Nat.sub_diag; reflexivity]|]. split; [lia|]. replace (i - s) with (S (i - S s)) by lia. exact H2.
  - intros [H1 H2]. destruct (Nat.eq_dec i s) as [->|Hne]; [left; rewrite Nat.sub_diag in H2; subst; reflexivity|]. right. split; [lia|]. replace (i - s) with (S (i - S s)) in H2 by lia. exact H2.
Qed.

Lemma perfect_spec size g : perfect size g = true <-> exists ts, perfect_targets size g ts.
Proof.
  unfold perfect. rewrite match_rows_spec. rewrite seq_length. split; intros (ts & L & N & B & A); exists ts.
  - refine (conj L (conj N (conj (fun t Ht => proj1 (B t Ht)) _))). intros i Hi. apply A. rewrite <- L. apply combine_seq. rewrite L, Nat.sub_0_r. split; [lia|reflexivity].
  - refine (conj L (conj N (conj (fun t Ht => conj (B t Ht) (fun H => H)) _))). intros r t H. rewrite <- L in H. apply combine_seq in H as [H ->]. rewrite Nat.sub_0_r. apply A. lia.
Qed.

(** ** the binary search *)
Section Search.
  Variables (size : nat) (E : list bedge) (bad : nat * nat -> bool).
  Notation N := (length E).
  Notation en := (ends E).
  Hypothesis bipartite : forall e, In e E -> b_source e < size <= b_target e.
  (** pairs of vertices that are not bad are joined by at most one edge *)
  Hypothesis unique : forall i j, i < N -> j < N -> en i = en j -> bad (en i) = false -> i = j.

  (** the state describes the edges up to [last], except for bad pairs *)
  Definition describes (s : nat * graph) : Prop :=
    fst s < N /\ (forall i, i <= fst s -> bad (en i) = false -> In (en i) (snd s)) /\ (forall e, In e (snd s) -> exists i, i <= fst s /\ e = en i).

  Lemma ends_bip i : i < N -> fst (en i) < size <= snd (en i).
  Proof. intro H. unfold ends. destruct (nth_error E i) as [e|] eqn:He; [|apply nth_error_None in He; lia]. apply bipartite. eapply nth_error_In, He. Qed.

  Lemma same_ends_iff i j : i < N -> j < N -> same_ends (fst (en i)) (snd (en i)) (en j) = true <-> en j = en i.
  Proof.
    intros Hi Hj. assert (A := ends_bip i Hi). assert (B := ends_bip j Hj). unfold same_ends. destruct (en i) as [a b], (en j) as [c d]. cbn [fst snd] in *.
    rewrite orb_true_iff, !andb_true_iff, !Nat.eqb_eq. split; [intros [[-> ->]|[-> ->]]; [reflexivity|lia]|]. intros [= -> ->]. auto.
  Qed.

  Lemma adds_spec k : forall s g, describes (s, g) -> s + k < N -> describes (s + k, fold_left (fun g i => add_edge (fst (en i)) (snd (en i)) g) (seq (S s) k) g).
  Proof.
    induction k as [|k IH]; intros s g D H; [rewrite Nat.add_0_r; exact D|]. cbn [seq fold_left]. replace (s + S k) with (S s + k) by lia. apply IH; [|lia].
    destruct D as (D1 & D2 & D3). cbn [fst snd] in *. unfold describes, add_edge. cbn [fst snd]. refine (conj _ (conj _ _)); [lia| |].
    - intros i Hi Hb. apply in_app_iff. destruct (Nat.eq_dec i (S s)) as [->|]; [right; left; destruct (en (S s)); reflexivity|]. left. apply D2; [lia|exact Hb].
    - intros e He. apply in_app_iff in He as [He|[<-|[]]]; [destruct (D3 e He) as (i & Hi & ->); exists i; split; [lia|reflexivity]|]. exists (S s). split; [lia|destruct (en (S s)); reflexivity].
  Qed.

  Lemma remove_spec s g : describes (S s, g) -> describes (s, remove_edge (fst (en (S s))) (snd (en (S s))) g).
  Proof.
    intros (D1 & D2 & D3). cbn [fst snd] in *. unfold describes, remove_edge. cbn [fst snd]. refine (conj _ (conj _ _)); [lia| |].
    - intros i Hi Hb. apply filter_In. split; [apply D2; [lia|exact Hb]|]. apply negb_true_iff. destruct (same_ends _ _ _) eqn:Es; [|reflexivity].
      apply same_ends_iff in Es; [|lia|lia]. assert (i = S s) by (apply unique; [lia|lia|exact Es|exact Hb]). lia.
    - intros e He. apply filter_In in He as [He Hn]. destruct (D3 e He) as (i & Hi & ->). destruct (Nat.eq_dec i (S s)) as [->|]; [|exists i; split; [lia|reflexivity]].
      apply negb_true_iff in Hn. assert (X : same_ends (fst (en (S s))) (snd (en (S s))) (en (S s)) = true) by (apply same_ends_iff; auto). congruence.
  Qed.

  Lemma removes_spec k : forall s g, describes (s + k, g) -> describes (s, fold_left (fun g i => remove_edge (fst (en i)) (snd (en i)) g) (rev (seq (S s) k)) g).
  Proof.
    induction k as [|k IH]; intros s g D; [rewrite Nat.add_0_r in D; exact D|]. rewrite seq_S, rev_app_distr. cbn [rev app fold_left]. apply IH. replace (S s + k) with (S (s + k)) by lia. apply remove_spec. replace (S (s + k)) with (s + S k) by lia. exact D.
  Qed.

  (** the edges up to an index, and those of them that are not bad *)
  Definition upto (k : nat) : graph := map en (seq 0 (S k)).
  Definition core (k : nat) : graph := filter (fun e => negb (bad e)) (upto k).

  Lemma describes_core s g : describes (s, g) -> incl (core s) g.
  Proof. intros (_ & D & _) e He. apply filter_In in He as [He Hb]. apply in_map_iff in He as (i & <- & Hi). apply in_seq in Hi. apply D; [cbn; lia|apply negb_true_iff, Hb]. Qed.
  Lemma describes_upto s g : describes (s, g) -> incl g (upto s).
  Proof. intros (_ & _ & D) e He. destruct (D e He) as (i & Hi & ->). apply in_map. apply in_seq. cbn in Hi. lia. Qed.

  Lemma check_spec it2 s : describes s -> it2 < N -> it2 <> fst s -> exists g, check size E it2 s = Ok (perfect size g, (it2, g)) /\ describes (it2, g).
  Proof.
    destruct s as [last g]. cbn [fst]. intros D H Hne. unfold check. destruct (Nat.eqb_spec it2 last) as [|_]; [contradiction|]. destruct (Nat.ltb_spec last it2) as [L|L]; eexists; (split; [reflexivity|]).
    - assert (Q := adds_spec (it2 - last) last g D ltac:(lia)). replace (last + (it2 - last)) with it2 in Q by lia. exact Q.
    - apply removes_spec. replace (it2 + (last - it2)) with last by lia. exact D.
  Qed.

  (** The search returns a position at most the first one from which on the core has a
      perfect matching, and at least the first one at which all edges have one. *)
  Lemma search_spec K K' : (forall k, K <= k < N -> perfect size (core k) = true) -> (forall k, k < K' -> perfect size (upto k) = false) ->
    forall fuel first len s, len <= fuel -> describes s -> first + len <= N -> first <= K -> K' <= first + len ->
    (fst s < first \/ first + len <= fst s \/ (fst s = first /\ 2 <= len)) ->
    exists r, upper_bound size E fuel first len s = Ok r /\ first <= r <= first + len /\ r <= K /\ K' <= r.
  Proof.
    intros HK HK'. induction fuel as [|fuel IH]; intros first len s Hf D B HKb HKb' Hl.
    - assert (len = 0) by lia. subst len. exists first. split; [reflexivity|lia].
    - destruct len as [|len']; [exists first; split; [reflexivity|lia]|]. set (len := S len') in *. change (upper_bound size E (S fuel) first len s) with
        (let* r := check size E (first + len / 2) s in if fst r then upper_bound size E fuel first (len / 2) (snd r) else upper_bound size E fuel (first + len / 2 + 1) (len - len / 2 - 1) (snd r)).
      assert (Hlt : len / 2 < len) by (apply Nat.div_lt; lia). assert (Hh : 2 <= len -> 1 <= len / 2) by (intro H2; assert (2 / 2 <= len / 2) by (apply Nat.div_le_mono; lia); exact H).
      destruct (check_spec (first + len / 2) s D ltac:(lia) ltac:(lia)) as (g & -> & D'). cbn [bind fst snd].
      destruct (perfect size g) eqn:P.
      + destruct (IH first (len / 2) (first + len / 2, g)) as (r & Hr & R1 & R2 & R3); [lia|exact D'|lia|lia| |cbn; lia|exists r; split; [exact Hr|lia]].
        destruct (Nat.le_gt_cases K' (first + len / 2)) as [?|Hlt']; [lia|]. specialize (HK' _ Hlt'). assert (X := perfect_mono size g _ (describes_upto _ _ D') P). congruence.
      + assert (first + len / 2 < K). { destruct (Nat.lt_ge_cases (first + len / 2) K) as [|Hge]; [assumption|]. assert (X := perfect_mono size _ g (describes_core _ _ D') (HK (first + len / 2) ltac:(lia))). congruence. }
        destruct (IH (first + len / 2 + 1) (len - len / 2 - 1) (first + len / 2, g)) as (r & Hr & R1 & R2 & R3); [lia|exact D'|lia|lia|lia|cbn; lia|]. exists r. split; [exact Hr|lia].
  Qed.
End Search.

(** ** thresholds *)
Lemma bedge_swo : swo bedge_lt.
Proof. unfold swo, bedge_lt. split; intros; rewrite ?Z.ltb_ge, ?Z.ltb_lt in *; lia. Qed.

Lemma least (P : nat -> bool) n : P n = true -> exists k, k <= n /\ P k = true /\ forall j, j < k -> P j = false.
Proof.
  revert P. induction n as [|n IH]; intros P H; [exists 0; split; [lia|split; [exact H|intros; lia]]|].
  destruct (P 0) eqn:E0; [exists 0; split; [lia|split; [exact E0|intros; lia]]|].
  destruct (IH (fun k => P (S k)) H) as (k & Hk & Pk & Hj). exists (S k). split; [lia|split; [exact Pk|]]. intros [|j] Hlt; [exact E0|apply Hj; lia].
Qed.

Definition pair_of (e : bedge) : nat * nat := (b_source e, b_target e).

(** a perfect matching with edges of weight at most [w] that are not bad *)
Definition admits (size : nat) (bad : nat * nat -> bool) (B : list bedge) (w : Z) : Prop :=
  exists ts, length ts = size /\ NoDup ts /\ (forall t, In t ts -> size <= t < 2 * size) /\
    forall i, i < size -> exists e, In e B /\ pair_of e = (i, nth i ts 0) /\ (b_weight e <= w)%Z /\ bad (pair_of e) = false.

Lemma admits_perm size bad B B' w : (forall e, In e B -> In e B') -> admits size bad B w -> admits size bad B' w.
Proof. intros H (ts & L & Nd & R & A). exists ts. refine (conj L (conj Nd (conj R _))). intros i Hi. destruct (A i Hi) as (e & He & X). exists e. split; [apply H, He|exact X]. Qed.

Lemma NoDup_filter_nth {A} (f : A -> bool) l i j x : NoDup (filter f l) -> nth_error l i = Some x -> nth_error l j = Some x -> f x = true -> i = j.
Proof.
  revert i j. induction l as [|y l IH]; intros i j N Hi Hj Hf; [destruct i; discriminate|].
  destruct i as [|i], j as [|j]; cbn in Hi, Hj; [reflexivity| | |].
  - injection Hi as ->. cbn in N. rewrite Hf in N. inversion N; subst. exfalso. apply H1. apply filter_In. split; [eapply nth_error_In, Hj|exact Hf].
  - injection Hj as ->. cbn in N. rewrite Hf in N. inversion N; subst. exfalso. apply H1. apply filter_In. split; [eapply nth_error_In, Hi|exact Hf].
  - f_equal. apply IH; auto. cbn in N. destruct (f y); [inversion N; auto|exact N].
Qed.

Lemma NoDup_filter_perm {A} (f : A -> bool) l l' : Permutation l l' -> NoDup (filter f l) -> NoDup (filter f l').
Proof.
  intros P. apply Permutation_NoDup. induction P; cbn; [constructor| | |econstructor; eauto].
  - destruct (f x); [constructor|]; exact IHP.
  - destruct (f x), (f y); try apply Permutation_refl. constructor.
Qed.

Section Threshold.
  Variables (size : nat) (B : list bedge) (bad : nat * nat -> bool).
  Hypothesis bipartite : forall e, In e B -> b_source e < size <= b_target e.
  Hypothesis unique : NoDup (filter (fun e => negb (bad e)) (map pair_of B)).
  Hypothesis enough : 2 <= length B.
  Notation E := (cpp_sort bedge_lt B).

  Definition search : outcome Z :=
    match E with
    | [] => UB
    | e :: _ =>
        let* i := upper_bound size E (length E) 0 (length E) (0, add_edge (b_source e) (b_target e) []) in
        match nth_error E i with Some e => Ok (b_weight e) | None => UB end
    end.

  Lemma E_In e : In e E <-> In e B. Proof. apply cpp_sort_In. Qed.
  Lemma E_length : length E = length B. Proof. apply cpp_sort_length. Qed.
  Lemma ends_nth i e : nth_error E i = Some e -> ends E i = pair_of e.
  Proof. intro H. unfold ends. rewrite H. reflexivity. Qed.

  Lemma E_unique i j : i < length E -> j < length E -> ends E i = ends E j -> bad (ends E i) = false -> i = j.
  Proof.
    intros Hi Hj He Hb. destruct (nth_error_ex E i Hi) as (a & Ha). destruct (nth_error_ex E j Hj) as (b & Hb').
    rewrite (ends_nth i a Ha), (ends_nth j b Hb') in He. rewrite (ends_nth i a Ha) in Hb.
    apply (NoDup_filter_nth (fun e => negb (bad e)) (map pair_of E) i j (pair_of a)).
    - eapply NoDup_filter_perm; [|exact unique]. apply Permutation_map, Permutation_sym, cpp_sort_perm.
    - rewrite nth_error_map, Ha. reflexivity.
    - rewrite nth_error_map, Hb'. cbn. congruence.
    - rewrite Hb. reflexivity.
  Qed.

  Lemma E_sorted i j a b : i <= j -> nth_error E i = Some a -> nth_error E j = Some b -> (b_weight a <= b_weight b)%Z.
  Proof.
    intros H Ha Hb. destruct (Nat.eq_dec i j) as [->|Hne]; [assert (a = b) by congruence; subst; lia|].
    assert (Q := StronglySorted_nth _ E i j a b (cpp_sort_sorted bedge_lt B bedge_swo)). assert (X : bedge_lt b a = false) by (apply Q; auto; lia). unfold bedge_lt in X. apply Z.ltb_ge in X. exact X.
  Qed.

  Lemma adjacent_upto k i t : i < size <= t -> k < length E -> adjacent (upto E k) i t = true -> exists j e, j <= k /\ nth_error E j = Some e /\ pair_of e = (i, t).
  Proof.
    intros Hit Hk H. unfold adjacent in H. apply existsb_exists in H as (p & Hp & Hs). unfold upto in Hp. apply in_map_iff in Hp as (j & <- & Hj). apply in_seq in Hj.
    destruct (nth_error_ex E j ltac:(lia)) as (e & He). rewrite (ends_nth j e He) in Hs. assert (Bp := bipartite e (proj1 (E_In e) (nth_error_In _ _ He))).
    exists j, e. split; [lia|split; [exact He|]]. unfold same_ends, pair_of in *. cbn [fst snd] in *. apply orb_true_iff in Hs. rewrite !andb_true_iff, !Nat.eqb_eq in Hs. destruct Hs as [[-> ->]|[Hx Hy]]; [reflexivity|lia].
  Qed.

  Lemma perfect_admits k : k < length E -> perfect size (upto E k) = true -> forall w, (forall j e, j <= k -> nth_error E j = Some e -> (b_weight e <= w)%Z) -> admits size (fun _ => false) B w.
  Proof.
    intros Hk H w Hw. apply perfect_spec in H as (ts & L & Nd & R & A). exists ts. refine (conj L (conj Nd (conj R _))). intros i Hi.
    assert (Ht := R (nth i ts 0) ltac:(apply nth_In; lia)). destruct (adjacent_upto k i (nth i ts 0) ltac:(lia) Hk (A i Hi)) as (j & e & Hj & He & Hp).
    exists e. refine (conj _ (conj Hp (conj _ eq_refl))); [apply E_In; eapply nth_error_In, He|eapply Hw; eauto].
  Qed.

  Lemma admits_perfect k w : k < length E -> (forall j e, nth_error E j = Some e -> (b_weight e <= w)%Z -> j <= k) -> admits size bad B w -> perfect size (core E bad k) = true.
  Proof.
    intros Hk Hw (ts & L & Nd & R & A). apply perfect_spec. exists ts. refine (conj L (conj Nd (conj R _))). intros i Hi. destruct (A i Hi) as (e & He & Hp & Hle & Hb).
    apply E_In in He. apply In_nth_error in He as (j & Hj). assert (Hjk := Hw j e Hj Hle). unfold adjacent. apply existsb_exists. exists (i, nth i ts 0). split; [|apply same_ends_refl].
    unfold core. apply filter_In. split; [|rewrite <- Hp, Hb; reflexivity]. unfold upto. rewrite <- Hp, <- (ends_nth j e Hj). apply in_map, in_seq. lia.
  Qed.

  (** The result is a threshold at which a perfect matching exists, and at most every
      threshold at which one exists without bad edges. *)
  Lemma search_threshold w0 : 0 < size -> admits size bad B w0 ->
    exists v, search = Ok v /\ admits size (fun _ => false) B v /\ forall w, admits size bad B w -> (v <= w)%Z.
  Proof.
    intros Hsize H0. assert (LE := E_length).
    assert (Hall : perfect size (core E bad (length E - 1)) = true).
    { apply (admits_perfect _ w0); [lia| |exact H0]. intros j e Hj _. apply nth_error_lt in Hj. lia. }
    assert (Hup : perfect size (upto E (length E - 1)) = true).
    { eapply perfect_mono; [|exact Hall]. unfold core. intros x Hx. apply filter_In in Hx. tauto. }
    destruct (least (fun k => perfect size (core E bad k)) _ Hall) as (K & HK & PK & LK).
    destruct (least (fun k => perfect size (upto E k)) _ Hup) as (K' & HK' & PK' & LK').
    assert (Mono : forall k, K <= k < length E -> perfect size (core E bad k) = true).
    { intros k Hk. eapply perfect_mono; [|exact PK]. unfold core. intros x Hx. apply filter_In in Hx as [Hx Hb]. apply filter_In. split; [|exact Hb]. unfold upto in *. apply in_map_iff in Hx as (j & <- & Hj). apply in_map. apply in_seq in Hj. apply in_seq. lia. }
    destruct E as [|e0 E'] eqn:EE; [cbn in LE; lia|]. rewrite <- EE in *.
    assert (D0 : describes E bad (0, add_edge (b_source e0) (b_target e0) [])).
    { unfold describes, add_edge. cbn [fst snd app]. assert (X : ends E 0 = (b_source e0, b_target e0)) by (unfold ends; rewrite EE; reflexivity). refine (conj _ (conj _ _)); [lia| |].
      - intros i Hi _. replace i with 0 by lia. rewrite X. left. reflexivity.
      - intros e [<-|[]]. exists 0. rewrite X. split; [lia|reflexivity]. }
    destruct (search_spec size E bad) with (K := K) (K' := K') (fuel := length E) (first := 0) (len := length E) (s := (0, add_edge (b_source e0) (b_target e0) [])) as (r & Hr & R1 & R2 & R3).
    - intros e He. apply bipartite, E_In, He.
    - apply E_unique.
    - exact Mono.
    - exact LK'.
    - lia.
    - exact D0.
    - lia.
    - lia.
    - lia.
    - right. right. cbn. lia.
    - destruct (nth_error_ex E r ltac:(lia)) as (e & He). exists (b_weight e). split; [|split].
      + unfold search. rewrite EE. rewrite <- EE. rewrite Hr. cbn [bind]. rewrite He. reflexivity.
      + apply (perfect_admits K'); [lia|exact PK'|]. intros j a Hj Ha. eapply E_sorted; [|exact Ha|exact He]. lia.
      + intros w Hw. destruct (Z.le_gt_cases (b_weight e) w) as [|Hgt]; [assumption|exfalso].
        assert (Hlt : forall j a, nth_error E j = Some a -> (b_weight a <= w)%Z -> j < r).
        { intros j a Ha Hle. destruct (Nat.lt_ge_cases j r) as [|Hge]; [assumption|]. assert (Q := E_sorted r j e a Hge He Ha). lia. }
        destruct r as [|r].
        * destruct Hw as (ts & L & Nd & R & A). destruct (A 0 Hsize) as (a & Ha & _ & Hle & _). apply E_In in Ha. apply In_nth_error in Ha as (j & Hj). specialize (Hlt j a Hj Hle). lia.
        * assert (X := admits_perfect r w ltac:(lia) ltac:(intros j a Ha Hle; specialize (Hlt j a Ha Hle); lia) Hw). rewrite (LK r ltac:(lia)) in X. discriminate.
  Qed.
End Threshold.

(** ** the edges that are built *)
Lemma NoDup_flat_pairs {A} (f : A -> nat) (g : A -> list nat) l : NoDup (map f l) -> (forall a, In a l -> NoDup (g a)) -> NoDup (flat_map (fun a => map (fun j => (f a, j)) (g a)) l).
Proof.
  induction l as [|a l IH]; intros N H; [constructor|]. cbn in N. inversion N as [|? ? Na N']; subst. cbn [flat_map].
  assert (X : forall (l l' : list (nat * nat)), NoDup l -> NoDup l' -> (forall x, In x l -> ~ In x l') -> NoDup (l ++ l')).
  { induction l0 as [|x l0 IH0]; intros l' Hl Hl' Hd; [exact Hl'|]. inversion Hl; subst. cbn. constructor; [|apply IH0; auto; intros; apply Hd; simpl; auto]. rewrite in_app_iff. intros [?|?]; [contradiction|]. apply (Hd x); simpl; auto. }
  apply X.
  - assert (Na' := H a (or_introl eq_refl)). clear -Na'. induction Na' as [|y l Ny N IH]; cbn; constructor; auto. intro Hin. apply in_map_iff in Hin as (z & [= ->] & Hz). contradiction.
  - apply IH; [exact N'|]. intros; apply H; simpl; auto.
  - intros x Hx Hy. apply in_map_iff in Hx as (j & <- & Hj). apply in_flat_map in Hy as (b & Hb & Hy). apply in_map_iff in Hy as (j' & [= E _] & _). apply Na. rewrite <- E. apply in_map, Hb.
Qed.

Lemma NoDup_app_intro {A} (l l' : list A) : NoDup l -> NoDup l' -> (forall x, In x l -> ~ In x l') -> NoDup (l ++ l').
Proof.
  induction l as [|x l IH]; intros Hl Hl' Hd; [exact Hl'|]. inversion Hl; subst. cbn. constructor; [|apply IH; auto; intros; apply Hd; simpl; auto]. rewrite in_app_iff. intros [?|?]; [contradiction|]. apply (Hd x); simpl; auto.
Qed.

Section Edges.
  Variables (dist : point -> point -> Z) (orth : point -> Z) (D1 D2 : list point).
  Notation n := (length D1).
  Notation m := (length D2).
  Notation B := (bottleneck_edges dist orth D1 D2).

  Lemma enum_spec {A} (D : list A) (dflt : A) : enum D = map (fun i => (i, nth i D dflt)) (seq 0 (length D)).
  Proof.
    unfold enum. assert (G : forall (D pre : list A), combine (seq (length pre) (length D)) D = map (fun i => (i, nth i (pre ++ D) dflt)) (seq (length pre) (length D))).
    { induction D0 as [|x D0 IH]; intro pre; [reflexivity|]. cbn [length seq combine map]. f_equal; [f_equal; rewrite app_nth2, Nat.sub_diag by lia; reflexivity|].
      specialize (IH (pre ++ [x])). rewrite app_length in IH. cbn [length] in IH. rewrite Nat.add_1_r, <- app_assoc in IH. exact IH. }
    exact (G D []).
  Qed.

  Notation P := (fun D i => nth i D (0%Z, 0%Z)).

  Lemma edges_In e : In e B <->
    (exists i j, n <= i < n + m /\ n + m + i <= j < 2 * (n + m) /\ e = BEdge i j 0%Z) \/
    (exists i j, i < n /\ j < m /\ e = BEdge i (n + m + j) (dist (P D1 i) (P D2 j))) \/
    (exists i, i < n /\ e = BEdge i (n + m + m + i) (orth (P D1 i))) \/
    (exists j, j < m /\ e = BEdge n (n + m) (orth (P D2 j))).
  Proof.
    unfold bottleneck_edges. rewrite !in_app_iff. unfold diagonal_edges, regular_edges, first_edges, second_edges.
    rewrite (enum_spec D1 (0%Z, 0%Z)), (enum_spec D2 (0%Z, 0%Z)). split.
    - intros [H|[H|[H|H]]].
      + left. apply in_flat_map in H as (i & Hi & H). apply in_seq in Hi. apply in_map_iff in H as (j & <- & Hj). apply in_seq in Hj. exists i, j. split; [lia|split; [lia|reflexivity]].
      + right. left. apply in_flat_map in H as (p & Hi & H). apply in_map_iff in Hi as (i & <- & Hi). apply in_seq in Hi. apply in_map_iff in H as (q & <- & Hj). apply in_map_iff in Hj as (j & <- & Hj). apply in_seq in Hj. exists i, j. split; [lia|split; [lia|reflexivity]].
      + right. right. left. apply in_map_iff in H as (p & <- & Hi). apply in_map_iff in Hi as (i & <- & Hi). apply in_seq in Hi. exists i. split; [lia|reflexivity].
      + right. right. right. apply in_map_iff in H as (p & <- & Hi). destruct (In_nth D2 p (0%Z, 0%Z) Hi) as (j & Hj & <-). exists j. split; [lia|reflexivity].
    - intros [(i & j & Hi & Hj & ->)|[(i & j & Hi & Hj & ->)|[(i & Hi & ->)|(j & Hj & ->)]]].
      + left. apply in_flat_map. exists i. split; [apply in_seq; lia|]. apply in_map_iff. exists j. split; [reflexivity|apply in_seq; lia].
      + right. left. apply in_flat_map. exists (i, P D1 i). split; [apply in_map_iff; exists i; split; [reflexivity|apply in_seq; lia]|]. apply in_map_iff. exists (j, P D2 j). split; [reflexivity|]. apply in_map_iff. exists j. split; [reflexivity|apply in_seq; lia].
      + right. right. left. apply in_map_iff. exists (i, P D1 i). split; [reflexivity|]. apply in_map_iff. exists i. split; [reflexivity|apply in_seq; lia].
      + right. right. right. apply in_map_iff. exists (P D2 j). split; [reflexivity|apply nth_In, Hj].
  Qed.

  Lemma edges_bipartite e : In e B -> b_source e < n + m <= b_target e.
  Proof. intro H. apply edges_In in H as [(i & j & Hi & Hj & ->)|[(i & j & Hi & Hj & ->)|[(i & Hi & ->)|(j & Hj & ->)]]]; cbn; lia. Qed.

  (** the only pair of vertices with parallel edges *)
  Definition parallel (e : nat * nat) : bool := (fst e =? n) && (snd e =? n + m).

  Lemma map_flat {A B C} (f : B -> C) (g : A -> list B) l : map f (flat_map g l) = flat_map (fun a => map f (g a)) l.
  Proof. induction l as [|a l IH]; [reflexivity|]. cbn. rewrite map_app, IH. reflexivity. Qed.

  Definition diagonal_pairs : list (nat * nat) := flat_map (fun i => map (fun j => (i, j)) (seq (n + m + i) (2 * (n + m) - (n + m + i)))) (seq n m).
  Definition regular_pairs : list (nat * nat) := flat_map (fun i => map (fun j => (i, j)) (map (fun j => n + m + j) (seq 0 m))) (seq 0 n).
  Definition first_pairs : list (nat * nat) := map (fun i => (i, n + m + m + i)) (seq 0 n).
  Lemma pairs_eq : map pair_of (diagonal_edges n m ++ regular_edges dist D1 D2 ++ first_edges orth D1 D2) = diagonal_pairs ++ regular_pairs ++ first_pairs.
  Proof.
    unfold diagonal_edges, regular_edges, first_edges. rewrite (enum_spec D1 (0%Z, 0%Z)), (enum_spec D2 (0%Z, 0%Z)). rewrite !map_app. f_equal; [|f_equal].
    - rewrite map_flat. apply flat_map_ext. intro i. rewrite map_map. reflexivity.
    - rewrite map_flat. unfold regular_pairs. assert (G : forall l, flat_map (fun a : nat * point => map pair_of (map (fun p2 : nat * point => BEdge (fst a) (n + m + fst p2) (dist (snd a) (snd p2))) (map (fun i => (i, nth i D2 (0%Z, 0%Z))) (seq 0 m)))) (map (fun i => (i, nth i D1 (0%Z, 0%Z))) l)
        = flat_map (fun i => map (fun j => (i, j)) (map (fun j => n + m + j) (seq 0 m))) l); [|apply G].
      induction l as [|i l IH]; [reflexivity|]. cbn [map flat_map]. rewrite IH. f_equal. rewrite !map_map. reflexivity.
    - rewrite !map_map. reflexivity.
  Qed.
  Lemma diagonal_pairs_In i j : In (i, j) diagonal_pairs -> n <= i.
  Proof. intro H. apply in_flat_map in H as (i' & Hi & H). apply in_map_iff in H as (j' & [= <- _] & _). apply in_seq in Hi. lia. Qed.
  Lemma regular_pairs_In i j : In (i, j) regular_pairs -> i < n /\ j < n + m + m.
  Proof. intro H. apply in_flat_map in H as (i' & Hi & H). apply in_map_iff in H as (j' & [= <- <-] & H). apply in_map_iff in H as (k & <- & Hk). apply in_seq in Hi. apply in_seq in Hk. lia. Qed.
  Lemma first_pairs_In i j : In (i, j) first_pairs -> i < n /\ n + m + m <= j.
  Proof. intro H. apply in_map_iff in H as (i' & [= <- <-] & H). apply in_seq in H. lia. Qed.

  Lemma firsts_NoDup : NoDup (diagonal_pairs ++ regular_pairs ++ first_pairs).
  Proof.
    apply NoDup_app_intro; [|apply NoDup_app_intro|].
    - apply (NoDup_flat_pairs (fun i => i) (fun i => seq (n + m + i) (2 * (n + m) - (n + m + i)))); [rewrite map_id; apply seq_NoDup|]. intros; apply seq_NoDup.
    - apply (NoDup_flat_pairs (fun i => i) (fun i => map (fun j => n + m + j) (seq 0 m))); [rewrite map_id; apply seq_NoDup|]. intros i _. apply FinFun.Injective_map_NoDup; [intros x y E; lia|apply seq_NoDup].
    - apply FinFun.Injective_map_NoDup; [intros x y [= E _]; exact E|apply seq_NoDup].
    - intros [i j] Hx Hy. apply regular_pairs_In in Hx. apply first_pairs_In in Hy. lia.
    - intros [i j] Hx Hy. apply diagonal_pairs_In in Hx. apply in_app_iff in Hy as [Hy|Hy]; [apply regular_pairs_In in Hy|apply first_pairs_In in Hy]; lia.
  Qed.

  Lemma second_pairs : map pair_of (second_edges orth D1 D2) = map (fun _ => (n, n + m)) D2.
  Proof. unfold second_edges. rewrite map_map. reflexivity. Qed.

  Lemma edges_unique : NoDup (filter (fun e => negb (parallel e)) (map pair_of B)).
  Proof.
    unfold bottleneck_edges. rewrite (app_assoc (regular_edges dist D1 D2)), app_assoc. rewrite map_app, filter_app, pairs_eq, second_pairs. apply NoDup_app_intro.
    - apply NoDup_filter. exact firsts_NoDup.
    - assert (X : forall (l : list point), filter (fun e => negb (parallel e)) (map (fun _ => (n, n + m)) l) = []); [|rewrite X; constructor].
      induction l as [|p l IH]; [reflexivity|]. cbn [map filter]. unfold parallel at 1. cbn [fst snd]. rewrite !Nat.eqb_refl. exact IH.
    - intros x _ Hx. apply filter_In in Hx as [Hx Hp]. apply in_map_iff in Hx as (p & <- & _). unfold parallel in Hp. cbn [fst snd] in Hp. rewrite !Nat.eqb_refl in Hp. discriminate.
  Qed.

  Lemma edges_single : m <= 1 -> 1 <= n -> NoDup (filter (fun e => negb ((fun _ => false) e)) (map pair_of B)).
  Proof.
    intros Hm Hn. apply NoDup_filter. unfold bottleneck_edges. rewrite (app_assoc (regular_edges dist D1 D2)), app_assoc. rewrite map_app, pairs_eq, second_pairs. apply NoDup_app_intro; [exact firsts_NoDup| |].
    - destruct D2 as [|p [|q D]]; cbn in Hm |- *; [constructor|constructor; [easy|constructor]|lia].
    - intros x Hx Hy. apply in_map_iff in Hy as (p & <- & _). rewrite !in_app_iff in Hx. destruct Hx as [Hx|[Hx|Hx]]; [|apply regular_pairs_In in Hx; lia|apply first_pairs_In in Hx; lia].
      apply in_flat_map in Hx as (i' & Hi & H). apply in_map_iff in H as (j' & [= -> ->] & Hj). apply in_seq in Hj. lia.
  Qed.

  Lemma edges_length : length B = length (diagonal_edges n m) + n * m + n + m.
  Proof.
    unfold bottleneck_edges. rewrite !app_length. unfold first_edges, second_edges. rewrite !map_length. unfold enum. rewrite combine_length, seq_length, Nat.min_id.
    assert (X : length (regular_edges dist D1 D2) = n * m); [|lia]. unfold regular_edges. assert (G : forall l : list (nat * point), length (flat_map (fun p1 => map (fun p2 => BEdge (fst p1) (n + m + fst p2) (dist (snd p1) (snd p2))) (enum D2)) l) = length l * m).
    { induction l as [|p l IH]; [reflexivity|]. cbn [flat_map]. rewrite app_length, IH, map_length. unfold enum. rewrite combine_length, seq_length, Nat.min_id. cbn. lia. }
    rewrite G. unfold enum. rewrite combine_length, seq_length, Nat.min_id. reflexivity.
  Qed.

  (** A perfect matching without parallel edges always exists if the first diagram is not empty. *)
  Lemma always_admits : 1 <= n -> exists w, admits (n + m) parallel B w.
  Proof.
    intro Hn. set (w := fold_right Z.max 0%Z (map b_weight B)). assert (Hw : forall e, In e B -> (b_weight e <= w)%Z).
    { intros e He. unfold w. induction B as [|x l IH]; [easy|]. cbn. destruct He as [->|He]; [lia|specialize (IH He); lia]. }
    set (t := fun i => if i <? n then if n <=? m then n + m + i else if i <? n - m then n + m + m + i else n + m + (i - (n - m)) else n + m + i).
    exists w, (map t (seq 0 (n + m))). refine (conj _ (conj _ (conj _ _))).
    - rewrite map_length, seq_length. reflexivity.
    - assert (X : forall l, NoDup l -> (forall x y, In x l -> In y l -> t x = t y -> x = y) -> NoDup (map t l)).
      { induction l as [|x l IH]; intros Nl Hi; [constructor|]. inversion Nl as [|? ? Nx Nl']; subst. cbn. constructor; [|apply IH; [exact Nl'|intros; apply Hi; simpl; auto]].
        intro Hin. apply in_map_iff in Hin as (y & E & Hy). assert (x = y) by (apply Hi; [left; auto|right; auto|auto]). congruence. }
      apply X; [apply seq_NoDup|]. intros x y Hx Hy. apply in_seq in Hx. apply in_seq in Hy. unfold t.
      destruct (Nat.ltb_spec x n), (Nat.ltb_spec y n), (Nat.leb_spec n m), (Nat.ltb_spec x (n - m)), (Nat.ltb_spec y (n - m)); lia.
    - intros x Hx. apply in_map_iff in Hx as (i & <- & Hi). apply in_seq in Hi. unfold t. destruct (Nat.ltb_spec i n), (Nat.leb_spec n m), (Nat.ltb_spec i (n - m)); lia.
    - intros i Hi. replace (nth i (map t (seq 0 (n + m))) 0) with (t i) by (rewrite (nth_indep _ 0 (t 0)) by (rewrite map_length, seq_length; auto); rewrite map_nth, seq_nth by auto; reflexivity).
      assert (X : exists e, In e B /\ pair_of e = (i, t i)).
      { unfold t. destruct (Nat.ltb_spec i n) as [L|L].
        - destruct (Nat.leb_spec n m) as [L1|L1].
          + exists (BEdge i (n + m + i) (dist (P D1 i) (P D2 i))). split; [|reflexivity]. apply edges_In. right. left. exists i, i. split; [lia|split; [lia|reflexivity]].
          + destruct (Nat.ltb_spec i (n - m)) as [L2|L2].
            * exists (BEdge i (n + m + m + i) (orth (P D1 i))). split; [|reflexivity]. apply edges_In. right. right. left. exists i. split; [lia|reflexivity].
            * exists (BEdge i (n + m + (i - (n - m))) (dist (P D1 i) (P D2 (i - (n - m))))). split; [|reflexivity]. apply edges_In. right. left. exists i, (i - (n - m)). split; [lia|split; [lia|reflexivity]].
        - exists (BEdge i (n + m + i) 0%Z). split; [|reflexivity]. apply edges_In. left. exists i, (n + m + i). split; [lia|split; [lia|reflexivity]]. }
      destruct X as (e & He & Hp). exists e. refine (conj He (conj Hp (conj (Hw e He) _))). rewrite Hp. unfold parallel, t. cbn [fst snd].
      destruct (Nat.eqb_spec i n) as [->|]; [|reflexivity]. rewrite Nat.ltb_irrefl. cbn. apply Nat.eqb_neq. lia.
  Qed.
End Edges.

Lemma bottleneck_search dist orth D1 D2 : bottleneckDistance dist orth D1 D2 = search (length (points D1) + length (points D2)) (bottleneck_edges dist orth (points D1) (points D2)).
Proof. reflexivity. Qed.
