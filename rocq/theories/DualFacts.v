(** * Dualization: anti-transpose, and invariance of the pairing. *)

From Coq Require Import List Arith Lia Bool Permutation Sorted.
From Verif Require Import Base BaseFacts SpecMatrix Matrix ReductionFacts AlgorithmFacts PairingFacts.
Import ListNotations.

Lemma nth_upd {A} (l : list A) i k a d :
  nth k (upd l i a) d = if (k =? i) && (i <? length l) then a else nth k l d.
Proof.
  destruct (Nat.eqb_spec k i); simpl.
  - subst. destruct (Nat.ltb_spec i (length l)).
    + apply nth_error_nth. apply nth_error_upd_eq; auto.
    + rewrite upd_oob; auto.
  - revert i k n; induction l; destruct i, k; simpl; intros; try lia; auto.
Qed.

Lemma nth_error_nth_some {A} (l : list A) i d : i < length l -> nth_error l i = Some (nth i l d).
Proof. intro H. apply nth_error_nth'; auto. Qed.

Lemma dual_add_fold n j c D :
  NoDup c -> (forall i, In i c -> i < n) -> length D = n ->
  exists D', foldM (dual_add n j) c D = Ok D' /\ length D' = n /\
    forall k, k < n -> nth k D' [] = nth k D [] ++ (if mem (n - 1 - k) c then [n - 1 - j] else []).
Proof.
  revert D; induction c as [|i c IH]; intros D Hn Hb HL; simpl.
  - exists D. split; auto. split; auto. intros. rewrite app_nil_r. auto.
  - inversion Hn; subst. unfold dual_add at 1.
    assert (Hi : i < length D) by (apply Hb; simpl; auto).
    destruct (Nat.ltb_spec i (length D)); [|lia].
    unfold get_. rewrite (nth_error_nth_some D (length D - 1 - i) []) by lia. simpl.
    destruct (IH (upd D (length D - 1 - i) (nth (length D - 1 - i) D [] ++ [length D - 1 - j])))
      as (D' & E & L & HD); auto.
    + intros; apply Hb; simpl; auto.
    + apply upd_length.
    + rewrite E. exists D'. split; auto. split; auto. intros k Hk. rewrite HD by auto.
      rewrite nth_upd. destruct (Nat.ltb_spec (length D - 1 - i) (length D)); [|lia].
      rewrite andb_true_r. destruct (Nat.eqb_spec k (length D - 1 - i)).
      * subst k. replace (length D - 1 - (length D - 1 - i)) with i by lia.
        rewrite Nat.eqb_refl. simpl.
        rewrite (proj2 (mem_false i c)) by auto. rewrite app_nil_r. auto.
      * destruct (Nat.eqb_spec (length D - 1 - k) i); [lia|]. reflexivity.
Qed.

Definition dual_col (C : list (list nat)) (c m : nat) : list nat :=
  let n := length C in
  map (fun j => n - 1 - j) (filter (fun j => entry C (n - 1 - c) j) (seq 0 m)).

Lemma dual_columns_spec M :
  sorted_cols (cols M) -> square (cols M) ->
  let n := length (cols M) in
  exists D, foldM (dual_column M) (seq 0 n) (repeat [] n) = Ok D /\ length D = n /\
    forall c, c < n -> nth c D [] = dual_col (cols M) c n.
Proof.
  intros Hs Hq n.
  destruct (foldM_seq_inv (dual_column M)
     (fun m D => length D = n /\ forall c, c < n -> nth c D [] = dual_col (cols M) c m) n 0 (repeat [] n))
    as (D & E & HL & HD).
  - intros m D Hm [HL HD]. unfold dual_column, getColumn, at_.
    rewrite (nth_error_nth_some (cols M) m []) by (fold n; lia). simpl.
    destruct (dual_add_fold n m (nth m (cols M) []) D) as (D' & E & L' & HD'); auto.
    + apply SSlt_NoDup, nth_sorted; auto.
    + intros i Hi. eapply Hq; eauto. apply nth_In. fold n. lia.
    + exists D'. split; [exact E|]. split; auto. intros c Hc. rewrite HD', HD by auto.
      unfold dual_col. rewrite seq_S, filter_app, map_app. fold n. simpl.
      unfold entry at 3. fold (mem (n - 1 - c) (nth m (cols M) [])).
      destruct (mem (n - 1 - c) (nth m (cols M) [])); reflexivity.
  - split; [apply repeat_length|]. intros c Hc. simpl.
    rewrite nth_repeat. reflexivity.
  - exists D. auto.
Qed.

Lemma dual_dims_spec M :
  length (dims M) = length (cols M) ->
  let n := length (cols M) in
  exists D, foldM (dual_dim M) (seq 0 n) (repeat 0 n) = Ok D /\ length D = n /\
    forall j, j < n -> nth (n - 1 - j) D 0 = getMaxDimension M - dimof M j.
Proof.
  intros Hd n.
  destruct (foldM_seq_inv (dual_dim M)
     (fun m D => length D = n /\ forall j, j < m -> nth (n - 1 - j) D 0 = getMaxDimension M - dimof M j)
     n 0 (repeat 0 n)) as (D & E & HL & HD).
  - intros m D Hm [HL HD]. unfold dual_dim, getDimension, at_, getNumColumns.
    rewrite (nth_error_nth_some (dims M) m 0) by (rewrite Hd; fold n; lia). cbn [bind].
    eexists. split; [reflexivity|]. fold n. split; [rewrite upd_length; auto|].
    intros j Hj. rewrite nth_upd. destruct (Nat.ltb_spec (n - 1 - m) (length D)); [|lia].
    rewrite andb_true_r. destruct (Nat.eqb_spec (n - 1 - j) (n - 1 - m)).
    + assert (j = m) as -> by lia. reflexivity.
    + apply HD. assert (j <> m) by (intros ->; lia). lia.
  - split; [apply repeat_length|]. lia.
  - exists D. auto.
Qed.

Lemma resize_nil {A} n (x : A) : resize [] n x = repeat x n.
Proof. unfold resize. rewrite firstn_nil. simpl. rewrite Nat.sub_0_r. auto. Qed.

Lemma dual_set_spec n D dd :
  length D = n -> length dd = n ->
  exists M', foldM (dual_set D dd) (seq 0 n) (setNumColumns empty_matrix n) = Ok M' /\
    length (cols M') = n /\ length (dims M') = n /\
    forall j, j < n -> nth j (cols M') [] = cpp_sort Nat.ltb (cpp_sort Nat.ltb (nth j D [])) /\
                       nth j (dims M') 0 = nth j dd 0.
Proof.
  intros HL Hd.
  destruct (foldM_seq_inv (dual_set D dd)
     (fun m M => length (cols M) = n /\ length (dims M) = n /\
        forall j, j < m -> nth j (cols M) [] = cpp_sort Nat.ltb (cpp_sort Nat.ltb (nth j D [])) /\
                           nth j (dims M) 0 = nth j dd 0)
     n 0 (setNumColumns empty_matrix n)) as (M' & E & H1 & H2 & H3).
  - intros m M Hm (L1 & L2 & HM). unfold dual_set, setColumn, setDimension, at_.
    rewrite (nth_error_nth_some D m []) by lia. cbn [bind].
    rewrite (nth_error_nth_some (cols M) m []) by lia. cbn [bind].
    rewrite (nth_error_nth_some (dims M) m 0) by lia. cbn [bind dims].
    rewrite (nth_error_nth_some dd m 0) by lia. cbn [bind].
    rewrite (nth_error_upd_eq (dims M) m) by lia. cbn [bind].
    eexists. split; [reflexivity|]. simpl. rewrite !upd_length. split; auto. split; auto.
    intros j Hj. rewrite !nth_upd, !upd_length.
    destruct (Nat.ltb_spec m (length (cols M))); [|lia].
    destruct (Nat.ltb_spec m (length (dims M))); [|lia].
    rewrite !andb_true_r. destruct (Nat.eqb_spec j m).
    + subst. auto.
    + apply HM. lia.
  - simpl. rewrite !resize_nil, !repeat_length. repeat split; auto; lia.
  - exists M'. auto.
Qed.

Lemma cpp_sort_strict l : NoDup l -> StronglySorted lt (cpp_sort Nat.ltb l).
Proof.
  intro Hn.
  assert (Hn' : NoDup (cpp_sort Nat.ltb l)).
  { eapply Permutation_NoDup; [symmetry; apply cpp_sort_perm|auto]. }
  pose proof (cpp_sort_le l) as Hs. induction Hs; constructor.
  - inversion Hn'; auto.
  - inversion Hn'; subst. rewrite Forall_forall in *. intros b Hb.
    specialize (H b Hb). assert (a <> b) by (intros ->; easy). lia.
Qed.

Lemma NoDup_map_inj_in {A B} (f : A -> B) l :
  (forall x y, In x l -> In y l -> f x = f y -> x = y) -> NoDup l -> NoDup (map f l).
Proof.
  intros Hf Hn. induction Hn; simpl; constructor.
  - rewrite in_map_iff. intros (y & E & Hy). apply Hf in E; simpl; auto. congruence.
  - apply IHHn. intros; apply Hf; simpl; auto.
Qed.

Lemma dual_col_In C c x : c < length C ->
  (In x (dual_col C c (length C)) <-> x < length C /\ entry C (length C - 1 - c) (length C - 1 - x) = true).
Proof.
  intro Hc. unfold dual_col. rewrite in_map_iff. split.
  - intros (j & <- & Hj). apply filter_In in Hj. destruct Hj as [Hj He]. apply in_seq in Hj.
    split; [lia|]. replace (length C - 1 - (length C - 1 - j)) with j by lia. auto.
  - intros [Hx He]. exists (length C - 1 - x). split; [lia|]. apply filter_In. split; auto.
    apply in_seq. lia.
Qed.

Lemma dual_col_NoDup C c : NoDup (dual_col C c (length C)).
Proof.
  unfold dual_col. apply NoDup_map_inj_in.
  - intros x y Hx Hy. apply filter_In in Hx, Hy. destruct Hx as [Hx _], Hy as [Hy _].
    apply in_seq in Hx, Hy. lia.
  - apply NoDup_filter, seq_NoDup.
Qed.

(** [D] is the anti-transpose of [M] *)
Definition anti_transpose (C D : list (list nat)) : Prop :=
  let n := length C in
  length D = n /\ sorted_cols D /\ square D /\
  forall r c, r < n -> c < n -> entry D r c = entry C (n - 1 - c) (n - 1 - r).

Theorem dualize_correct M :
  sorted_cols (cols M) -> square (cols M) -> length (dims M) = length (cols M) ->
  exists D, dualize M = Ok D /\ dualized D = negb (dualized M) /\
    anti_transpose (cols M) (cols D) /\ length (dims D) = length (cols M) /\
    forall j, j < length (cols M) -> dimof D (length (cols M) - 1 - j) = max_dim (dims M) - dimof M j.
Proof.
  intros Hs Hq Hd. unfold dualize, getNumColumns.
  set (n := length (cols M)) in *.
  destruct (dual_columns_spec M Hs Hq) as (D & ED & LD & HD). fold n in ED, LD, HD. rewrite ED. cbn [bind].
  destruct (dual_dims_spec M Hd) as (dd & Edd & Ldd & Hdd). fold n in Edd, Ldd, Hdd. rewrite Edd. cbn [bind].
  destruct (dual_set_spec n D dd LD Ldd) as (M' & E' & L1 & L2 & H'). rewrite E'. cbn [bind].
  assert (Hcol : forall j, j < n -> forall x, In x (nth j (cols M') []) <->
              x < n /\ entry (cols M) (n - 1 - j) (n - 1 - x) = true).
  { intros j Hj x. destruct (H' j Hj) as [-> _]. rewrite !cpp_sort_In, HD by auto.
    apply dual_col_In; auto. }
  eexists. split; [reflexivity|]. split; [reflexivity|]. split; [|split; [exact L2|]].
  - refine (conj L1 (conj _ (conj _ _))); simpl.
    + intros c Hc. destruct (In_nth _ _ [] Hc) as (j & Hj & <-). rewrite L1 in Hj.
      destruct (H' j Hj) as [-> _]. apply cpp_sort_strict.
      eapply Permutation_NoDup; [symmetry; apply cpp_sort_perm|].
      rewrite HD by auto. apply dual_col_NoDup.
    + intros c r Hc Hr. destruct (In_nth _ _ [] Hc) as (j & Hj & <-). rewrite L1 in *.
      apply Hcol in Hr; auto. tauto.
    + intros r c Hr Hc. apply eq_true_iff_eq. unfold entry at 1.
      rewrite (mem_In r (nth c (cols M') [])), Hcol by auto. fold n. tauto.
  - intros j Hj. unfold dimof at 1. simpl. destruct (H' (n - 1 - j)) as [_ ->]; [lia|].
    apply Hdd; auto.
Qed.

(** ** lows under anti-transposition *)
Lemma sum_cols_rows_dual C D S r :
  anti_transpose C D -> (forall k, In k S -> k < length C) -> r < length C ->
  sum_cols D (map (fun k => length C - 1 - k) S) r = sum_rows C S (length C - 1 - r).
Proof.
  intros (HL & Hs & Hq & HE) HS Hr. induction S as [|a S IH]; [reflexivity|].
  simpl. rewrite IH by (intros; apply HS; simpl; auto).
  assert (a < length C) by (apply HS; simpl; auto).
  rewrite HE by lia. replace (length C - 1 - (length C - 1 - a)) with a by lia. reflexivity.
Qed.

Lemma sum_rows_cols_dual C D S k :
  anti_transpose C D -> (forall k, In k S -> k < length C) -> k < length C ->
  sum_rows D (map (fun k => length C - 1 - k) S) k = sum_cols C S (length C - 1 - k).
Proof.
  intros (HL & Hs & Hq & HE) HS Hr. induction S as [|a S IH]; [reflexivity|].
  simpl. rewrite IH by (intros; apply HS; simpl; auto).
  assert (a < length C) by (apply HS; simpl; auto).
  rewrite HE by lia. replace (length C - 1 - (length C - 1 - a)) with a by lia. reflexivity.
Qed.

Lemma cert_bounds C i j : square C -> cert C i j -> i < length C /\ j < length C.
Proof.
  intros Hq (S & T & HS & HT & HSz & HTz & H1).
  assert (Hj : j < length C).
  { destruct (lt_dec j (length C)); auto. exfalso.
    (* value at (i,j): pair T with S *)
    assert (E : dsum C (i :: T) (j :: S) = true).
    { rewrite dsum_swap, bigx_cons, H1, (bigx_zero _ T) by auto. reflexivity. }
    unfold dsum in E. rewrite bigx_cons, (bigx_zero _ S), xorb_false_r in E by auto.
    apply bigx_true in E. destruct E as (r & _ & E). rewrite entry_oob in E by lia. discriminate. }
  split; auto. apply bigx_true in H1. destruct H1 as (k & Hk & E).
  apply entry_square in E; tauto.
Qed.

Lemma sum_rows_filter C T k :
  square C -> sum_rows C (filter (fun r => r <? length C) T) k = sum_rows C T k.
Proof.
  intro Hq. induction T as [|t T IH]; [reflexivity|]. simpl.
  destruct (Nat.ltb_spec t (length C)); simpl; rewrite IH; auto.
  destruct (entry C t k) eqn:E; [apply entry_square in E; auto; lia|].
  destruct (sum_rows C T k); auto.
Qed.

Lemma cert_dual C D i j :
  square C -> anti_transpose C D -> cert C i j ->
  cert D (length C - 1 - j) (length C - 1 - i).
Proof.
  intros Hq HA Hc. destruct (cert_bounds C i j Hq Hc) as [Hi Hj].
  destruct Hc as (S & T & HS & HT & HSz & HTz & H1).
  set (n := length C) in *. pose proof HA as (HL & Hs & HqD & HE). fold n in HL, HE.
  set (T' := filter (fun r => r <? n) T).
  assert (HT' : forall r, In r (i :: T') -> r < n).
  { intros r [<-|Hr]; auto. unfold T' in Hr. apply filter_In in Hr. destruct Hr as [_ Hr].
    apply Nat.ltb_lt; auto. }
  assert (HTz' : forall k, k < j -> sum_rows C (i :: T') k = false).
  { intros k Hk. rewrite <- (HTz k Hk). simpl. f_equal. apply sum_rows_filter; auto. }
  assert (HSn : forall k, In k (j :: S) -> k < n).
  { intros k [<-|Hk]; auto. apply HS in Hk. lia. }
  assert (Eij : sum_rows C (i :: T') j = true).
  { assert (E : dsum C (i :: T') (j :: S) = true).
    { rewrite dsum_swap, bigx_cons, H1, (bigx_zero _ T'); auto.
      intros r Hr. apply HSz. unfold T' in Hr. apply filter_In in Hr. apply HT; tauto. }
    unfold dsum in E. rewrite bigx_cons, (bigx_zero _ S), xorb_false_r in E by auto. exact E. }
  exists (map (fun k => n - 1 - k) T'), (map (fun k => n - 1 - k) S).
  change ((n - 1 - i) :: map (fun k => n - 1 - k) T') with (map (fun k => n - 1 - k) (i :: T')).
  change ((n - 1 - j) :: map (fun k => n - 1 - k) S) with (map (fun k => n - 1 - k) (j :: S)).
  refine (conj _ (conj _ (conj _ (conj _ _)))).
  - intros k Hk. apply in_map_iff in Hk. destruct Hk as (r & <- & Hr).
    assert (i < r) by (apply HT; unfold T' in Hr; apply filter_In in Hr; tauto). specialize (HT' r (or_intror Hr)). lia.
  - intros k Hk. apply in_map_iff in Hk. destruct Hk as (r & <- & Hr). apply HS in Hr. lia.
  - intros r Hr. destruct (lt_dec r n).
    + unfold n. rewrite (sum_cols_rows_dual C D) by auto. apply HTz'. fold n. lia.
    + apply bigx_zero. intros k Hk. destruct (entry D r k) eqn:E; auto.
      apply entry_square in E; auto. lia.
  - intros k Hk. unfold n. rewrite (sum_rows_cols_dual C D); auto; [|fold n; lia].
    apply HSz. fold n. lia.
  - unfold n. rewrite (sum_cols_rows_dual C D); auto; [|fold n; lia].
    replace (length C - 1 - (length C - 1 - j)) with j by (fold n; lia). exact Eij.
Qed.

Lemma min_low_ex C j : sorted_cols C -> square C -> j < length C -> exists o, min_low C j o.
Proof.
  intros Hs Hq Hj.
  destruct (standard_correct (Matrix C (repeat 0 (length C)) false) Hs Hq) as (R & E & HR).
  exists (lowof (cols R) j). destruct HR as (_ & _ & Hs' & _ & HE & HR). apply lowof_min_low; auto.
Qed.

Lemma min_low_cert C i j : sorted_cols C -> square C -> j < length C ->
  (min_low C j (Some i) <-> cert C i j).
Proof.
  intros Hs Hq Hj. split; [|apply cert_min_low].
  intro Hm.
  destruct (standard_correct (Matrix C (repeat 0 (length C)) false) Hs Hq) as (R & E & HR).
  destruct HR as (_ & _ & Hs' & _ & HE & HR). simpl in *.
  pose proof (lowof_min_low C (cols R) Hs' HE HR j Hj) as Hm'.
  assert (L : lowof (cols R) j = Some i) by (eapply min_low_unique; eauto).
  apply lowof_some in L; auto. eapply reduced_cert; eauto.
Qed.

Lemma anti_transpose_sym C D : sorted_cols C -> square C -> anti_transpose C D -> anti_transpose D C.
Proof.
  intros Hs Hq (HL & HsD & HqD & HE). refine (conj _ (conj Hs (conj Hq _))); auto.
  intros r c Hr Hc. rewrite HL in *. rewrite HE by lia. f_equal; lia.
Qed.

Theorem min_low_dual C D i j :
  sorted_cols C -> square C -> anti_transpose C D -> i < length C -> j < length C ->
  (min_low C j (Some i) <-> min_low D (length C - 1 - i) (Some (length C - 1 - j))).
Proof.
  intros Hs Hq HA Hi Hj. pose proof HA as (HL & HsD & HqD & HE).
  rewrite !min_low_cert by (auto; lia). split.
  - intro H. apply cert_dual; auto.
  - intro H. apply (cert_dual D C) in H; auto.
    + rewrite HL in H.
      replace (length C - 1 - (length C - 1 - i)) with i in H by lia.
      replace (length C - 1 - (length C - 1 - j)) with j in H by lia. exact H.
    + apply anti_transpose_sym; auto.
Qed.

Lemma min_low_some_bound C i j : square C -> j < length C -> min_low C j (Some i) -> i < length C.
Proof.
  intros Hq Hj [(x & (S & HS & E) & [H1 _]) _].
  rewrite E in H1. change (sum_cols C (j :: S) i = true) in H1.
  apply bigx_true in H1. destruct H1 as (k & _ & H1). apply entry_square in H1; tauto.
Qed.

Lemma min_low_none C j : sorted_cols C -> square C -> j < length C ->
  (min_low C j None <-> forall i, i < length C -> ~ min_low C j (Some i)).
Proof.
  intros Hs Hq Hj. split.
  - intros H i Hi H'. pose proof (min_low_unique _ _ _ _ H H'). discriminate.
  - intro H. destruct (min_low_ex C j Hs Hq Hj) as [[i|] Ho]; auto.
    exfalso. apply (H i); auto. eapply min_low_some_bound; eauto.
Qed.

Lemma bigx_restrict f l s :
  NoDup l -> (forall x, In x l -> In x s) -> NoDup s ->
  bigx f l = bigx (fun k => f k && existsb (Nat.eqb k) l) s.
Proof.
  intros Hsl. revert s. induction l as [|y l IH]; intros s Hin Hn.
  - symmetry. apply bigx_zero. intros. apply andb_false_r.
  - inversion Hsl as [|? ? Hy Hl]; subst. rewrite bigx_cons, (IH Hl s); auto; [|intros; apply Hin; simpl; auto].
    assert (Ha : In y s) by (apply Hin; simpl; auto). clear - Ha Hn Hy.
    induction s as [|z s IHs]; [easy|]. inversion Hn as [|? ? Hz Hs]; subst. rewrite !bigx_cons.
    destruct (Nat.eq_dec z y) as [->|Hne].
    + simpl existsb. rewrite Nat.eqb_refl. simpl.
      assert (Em : existsb (Nat.eqb y) l = false) by (apply mem_false; auto). rewrite Em.
      rewrite andb_false_r, andb_true_r, xorb_false_l. f_equal.
      clear - Hz. induction s as [|w s IH]; auto. rewrite !bigx_cons, IH by (intro; apply Hz; simpl; auto).
      simpl. destruct (Nat.eqb_spec w y); [subst; exfalso; apply Hz; simpl; auto|]. reflexivity.
    + destruct Ha as [->|Ha]; [easy|]. rewrite <- (IHs Hs Ha). simpl.
      destruct (Nat.eqb_spec z y); [easy|]. simpl.
      destruct (f y), (f z && existsb (Nat.eqb z) l), (bigx (fun k => f k && existsb (Nat.eqb k) l) s); auto.
Qed.

(** ** validity of the dual *)
Lemma dual_valid_square_zero C D :
  sorted_cols C -> square C -> anti_transpose C D ->
  (forall j r, sum_cols C (nth j C []) r = false) ->
  forall j r, sum_cols D (nth j D []) r = false.
Proof.
  intros Hs Hq HA Hz j r. pose proof HA as (HL & HsD & HqD & HE). set (n := length C) in *.
  destruct (lt_dec j n) as [Hj|]; [|rewrite nth_overflow by lia; reflexivity].
  destruct (lt_dec r n) as [Hr|].
  2: { apply bigx_zero. intros k Hk. destruct (entry D r k) eqn:E; auto.
       apply entry_square in E; auto. lia. }
  (* product entries as sums over all indices *)
  assert (Hprod : forall X a b, sorted_cols X -> square X -> length X = n -> b < n ->
            sum_cols X (nth b X []) a = bigx (fun k => entry X a k && entry X k b) (seq 0 n)).
  { intros X a b HsX HqX HLX Hb.
    assert (Hsl : NoDup (nth b X [])) by (apply SSlt_NoDup, nth_sorted; auto).
    assert (Hin : forall x, In x (nth b X []) -> In x (seq 0 n)).
    { intros x Hx. apply in_seq. assert (x < length X) by (eapply HqX; eauto; apply nth_In; lia). lia. }
    assert (Hn : NoDup (seq 0 n)) by apply seq_NoDup.
    exact (bigx_restrict (fun k => entry X a k) (nth b X []) (seq 0 n) Hsl Hin Hn). }
  rewrite (Hprod D r j) by auto.
  specialize (Hz (n - 1 - r) (n - 1 - j)). rewrite Hprod in Hz by (auto; lia).
  rewrite <- Hz.
  (* reverse the summation *)
  assert (Hrev : forall f, bigx f (seq 0 n) = bigx (fun k => f (n - 1 - k)) (seq 0 n)).
  { intro f.
    assert (Hperm : forall l l', Permutation l l' -> bigx f l = bigx f l').
    { induction 1; auto.
      - rewrite !bigx_cons. congruence.
      - rewrite !bigx_cons. destruct (f x), (f y), (bigx f l); auto.
      - congruence. }
    rewrite (Hperm _ (map (fun k => n - 1 - k) (seq 0 n))).
    - generalize (seq 0 n). induction l; auto. simpl map. rewrite !bigx_cons, IHl. auto.
    - apply NoDup_Permutation.
      + apply seq_NoDup.
      + apply NoDup_map_inj_in; [|apply seq_NoDup]. intros x y Hx Hy. apply in_seq in Hx, Hy. lia.
      + intro x. rewrite in_seq, in_map_iff. split.
        * intro H. exists (n - 1 - x). rewrite in_seq. lia.
        * intros (k & <- & Hk). apply in_seq in Hk. lia. }
  rewrite Hrev.
  assert (Hext : forall f g l, (forall x, In x l -> f x = g x) -> bigx f l = bigx g l).
  { intros f g. induction l; intro H; auto. rewrite !bigx_cons, H by (simpl; auto). f_equal.
    apply IHl. intros; apply H; simpl; auto. }
  apply Hext. intros k Hk. apply in_seq in Hk. rewrite !HE by lia.
  replace (n - 1 - (n - 1 - k)) with k by lia. apply andb_comm.
Qed.

Lemma max_dim_ge dims j : nth j dims 0 <= max_dim dims.
Proof.
  unfold max_dim. destruct (lt_dec j (length dims)).
  - pose proof (proj1 (list_max_le dims (list_max dims)) (le_n _)) as F.
    rewrite Forall_forall in F. apply F. apply nth_In; auto.
  - rewrite nth_overflow by lia. lia.
Qed.

Theorem dual_valid M D :
  valid_boundary (cols M) (dims M) -> dualize M = Ok D ->
  valid_boundary (cols D) (dims D).
Proof.
  intros HV E. pose proof HV as (HLd & Hs & Hg & Hz). pose proof (valid_square M HV) as Hq.
  destruct (dualize_correct M Hs Hq HLd) as (D' & E' & Hdu & HA & HLdD & HdD).
  rewrite E in E'. injection E' as <-. pose proof HA as (HL & HsD & HqD & HE).
  set (n := length (cols M)) in *.
  refine (conj _ (conj HsD (conj _ _))).
  - lia.
  - intros j r H. destruct (entry_square _ _ _ HqD H) as [Hr Hj].
    rewrite HE in H by lia. apply Hg in H. destruct H as [H1 H2].
    split; [lia|].
    pose proof (HdD (n - 1 - r)) as D1. pose proof (HdD (n - 1 - j)) as D2.
    unfold dimof in *.
    replace (n - 1 - (n - 1 - r)) with r in D1 by lia.
    replace (n - 1 - (n - 1 - j)) with j in D2 by lia.
    rewrite D1, D2 by lia. pose proof (max_dim_ge (dims M) (n - 1 - r)). lia.
  - apply dual_valid_square_zero with (C := cols M); auto.
Qed.

(** Pairing calculated from the dual matrix. *)
Theorem pairing_dual order M D R all mx :
  (forall l, Permutation (order l) l) ->
  valid_boundary (cols M) (dims M) -> dualized M = false ->
  dualize M = Ok D -> reduction_of D R ->
  exists p, pairing_of_reduced order R all mx = Ok p /\
    is_pairing (cols M) (dims M) all (ok_of mx (length (cols M))) p.
Proof.
  intros Hord HV Hdu0 ED HR.
  pose proof (dual_valid M D HV ED) as HVD.
  pose proof HV as (HLd & Hs & Hg & Hz). pose proof (valid_square M HV) as Hq.
  destruct (dualize_correct M Hs Hq HLd) as (D' & E' & Hdu & HA & HLdD & HdD).
  rewrite ED in E'. injection E' as <-. pose proof HA as (HL & HsD & HqD & HE).
  set (n := length (cols M)) in *.
  destruct (reduction_facts D R HVD HR) as (H1 & H2 & H3 & H4 & H5 & H6).
  destruct (pairing_of_reduced_spec order R all mx Hord H1 H2 H3 H4) as (p & E & Hsp & Hp & Hu).
  exists p. split; auto. split; auto.
  pose proof HR as (Hd & Hdu' & _).
  assert (Hdual : dualized R = true) by (rewrite Hdu', Hdu, Hdu0; reflexivity).
  assert (HLR : length (cols R) = n) by lia.
  rewrite HLR, Hdual in Hp, Hu.
  assert (HlowD : forall j o, j < n -> (min_low (cols D) j o <-> lowof (cols R) j = o)).
  { intros j o Hj. apply min_low_iff_lowof; auto. lia. }
  split.
  - intros u v. rewrite Hp. unfold tr. split.
    + intros (i & j & Hj & L & [= -> ->] & Ha).
      pose proof (H3 _ _ L) as Hij.
      split; [lia|]. split; [|apply allowed_ok; auto].
      apply (proj2 (HlowD j (Some i) Hj)) in L.
      apply (min_low_dual (cols M) (cols D)); auto; fold n; try lia.
      replace (n - 1 - (n - 1 - j)) with j by lia.
      replace (n - 1 - (n - 1 - i)) with i by lia. exact L.
    + intros (Hv & Hm & Ha).
      pose proof (min_low_some_bound _ _ _ Hq Hv Hm) as Hub. fold n in Hub.
      exists (n - 1 - v), (n - 1 - u). split; [lia|]. split.
      * apply HlowD; [lia|]. apply (min_low_dual (cols M) (cols D)) in Hm; auto.
      * split; [f_equal; lia|]. apply allowed_ok; auto.
  - intro c. rewrite Hu. unfold tr1, top_ok, dimof. rewrite Hd, Hdual. split.
    + intros (k & Hk & Lk & Ht & Hno & -> & Ha). split; [lia|].
      split; [|split; [|split]].
      * apply min_low_none; auto; [fold n; lia|]. fold n. intros i Hi Hm.
        apply (min_low_dual (cols M) (cols D)) in Hm; auto; fold n; try lia. fold n in Hm.
        replace (n - 1 - (n - 1 - k)) with k in Hm by lia.
        apply HlowD in Hm; [|lia]. apply (Hno (n - 1 - i)); auto. lia.
      * intros v Hv Hm. fold n in Hv.
        apply (min_low_dual (cols M) (cols D)) in Hm; auto; fold n; try lia. fold n in Hm.
        replace (n - 1 - (n - 1 - k)) with k in Hm by lia.
        apply HlowD in Hm; [|lia]. congruence.
      * destruct Ht as [Ht|Ht]; auto. right.
        specialize (HdD (n - 1 - k)). unfold dimof in HdD.
        replace (n - 1 - (n - 1 - k)) with k in HdD by lia. rewrite HdD in Ht by lia.
        intro Hc. apply Ht. lia.
      * apply allowed_ok; auto.
    + intros (Hc & Hm & Hno & Ht & Ha). fold n in Hc, Hno.
      exists (n - 1 - c). split; [lia|]. split; [|split; [|split; [|split]]].
      * apply HlowD; [lia|]. apply min_low_none; auto; [lia|].
        rewrite HL. intros i Hi Hm'.
        apply (Hno (n - 1 - i)); [lia|].
        apply (min_low_dual (cols M) (cols D)); auto; fold n; try lia.
        replace (n - 1 - (n - 1 - i)) with i by lia. exact Hm'.
      * destruct Ht as [Ht|Ht]; auto. right. specialize (HdD c). unfold dimof in HdD.
        rewrite HdD by lia. pose proof (max_dim_ge (dims M) c). lia.
      * intros j Hj L. apply HlowD in L; auto.
        assert (Hm' : min_low (cols M) c (Some (n - 1 - j))).
        { apply (min_low_dual (cols M) (cols D)); auto; fold n; try lia.
          replace (n - 1 - (n - 1 - j)) with j by lia. exact L. }
        pose proof (min_low_unique _ _ _ _ Hm Hm'). discriminate.
      * lia.
      * apply allowed_ok; auto.
Qed.
