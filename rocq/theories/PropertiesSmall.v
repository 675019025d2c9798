(** * C32, C33, C43, C46, C50: Euler characteristic, symmetric matrices,
      perversities, envelopes, medians. *)

From Coq Require Import List Arith Bool ZArith Lia Permutation Sorted.
From Verif Require Import Base BaseFacts Simplex SimplexFacts SpecComplex Complex ComplexFacts WeightFacts
  History Subcomplex SubcomplexFacts PropertiesComplex Diagram DiagramFacts
  SymmetricMatrix Quantiles Euler Perversity Envelope.
Import ListNotations.

(** ** C33 *)
Definition tri (n : nat) : nat := n * (n + 1) / 2.
Lemma tri_double n : 2 * tri n = n * (n + 1).
Proof.
  unfold tri. assert (n * (n + 1) mod 2 = 0).
  { induction n as [|n IH]; [reflexivity|]. replace (S n * (S n + 1)) with (n * (n + 1) + (n + 1) * 2) by lia.
    rewrite Nat.mod_add by lia. exact IH. }
  pose proof (Nat.div_mod (n * (n + 1)) 2). lia.
Qed.
Lemma tri_S n : tri (S n) = tri n + n + 1.
Proof. pose proof (tri_double n). pose proof (tri_double (S n)). lia. Qed.

(** number of cells before those of row [r] *)
Definition row_start (n r : nat) : nat := r * n - tri r + r.
Lemma row_start_S n r : r < n -> row_start n (S r) = row_start n r + (n - r).
Proof.
  intro H. unfold row_start. rewrite tri_S. pose proof (tri_double r).
  assert (tri r <= r * n) by nia. nia.
Qed.
Lemma row_start_le n r r' : r <= r' -> r' <= n -> row_start n r <= row_start n r'.
Proof. intros H. induction H as [|r' H IH]; intro; [lia|]. rewrite row_start_S by lia. specialize (IH ltac:(lia)). lia. Qed.
Lemma row_start_n n : row_start n n = tri n.
Proof. unfold row_start. pose proof (tri_double n). nia. Qed.

Lemma sm_index_eq n r c : r <= c -> c < n -> r * n - r * (r + 1) / 2 + c = row_start n r + (c - r).
Proof. intros H1 H2. fold (tri r). unfold row_start. lia. Qed.

Lemma sm_index_bounds n r c : r <= c -> c < n ->
  row_start n r <= r * n - r * (r + 1) / 2 + c < row_start n (S r).
Proof. intros H1 H2. rewrite sm_index_eq by auto. rewrite row_start_S by lia. lia. Qed.

Lemma sm_index_inj n r c r' c' : r <= c -> c < n -> r' <= c' -> c' < n ->
  r * n - r * (r + 1) / 2 + c = r' * n - r' * (r' + 1) / 2 + c' -> r = r' /\ c = c'.
Proof.
  intros H1 H2 H3 H4 E. pose proof (sm_index_bounds n r c H1 H2) as B. pose proof (sm_index_bounds n r' c' H3 H4) as B'.
  destruct (lt_eq_lt_dec r r') as [[H|H]|H].
  - pose proof (row_start_le n (S r) r'). lia.
  - subst r'. split; [auto|]. fold (tri r) in E. lia.
  - pose proof (row_start_le n (S r') r). lia.
Qed.

(** matrices that arise by construction, copies and assignments to elements *)
Inductive sm_made {A} (zero : A) : symmetric A -> Prop :=
| made_empty : sm_made zero sm_empty
| made_new n : sm_made zero (sm_make zero n)
| made_copy M : sm_made zero M -> sm_made zero (sm_copy zero M)
| made_set M i j x M' : sm_made zero M -> sm_set M i j x = Ok M' -> sm_made zero M'.

Definition sm_ok {A} (M : symmetric A) : Prop := sm_size M = tri (sm_rows M) /\ length (sm_data M) = tri (sm_rows M).

Lemma sm_copy_id {A} (zero : A) M : sm_ok M -> sm_copy zero M = M.
Proof.
  destruct M as [n k l]. intros [H1 H2]. simpl in H1, H2. unfold sm_copy, sm_make. cbn [sm_rows sm_size sm_data].
  fold (tri n). subst k. f_equal. rewrite firstn_all2 by lia. rewrite skipn_all2 by (rewrite repeat_length; lia). apply app_nil_r.
Qed.

Lemma sm_made_ok {A} (zero : A) M : sm_made zero M -> sm_ok M.
Proof.
  induction 1 as [|n|M HM IH|M i j x M' HM IH H].
  - split; reflexivity.
  - split; simpl; [reflexivity|]. rewrite repeat_length. reflexivity.
  - rewrite sm_copy_id; auto.
  - unfold sm_set in H. destruct (sm_cell M i j); try discriminate. cbn [bind] in H.
    destruct (a <? length (sm_data M)); [|discriminate]. injection H as <-. destruct IH.
    split; simpl; auto. rewrite upd_length. auto.
Qed.

Lemma sm_cell_spec {A} (M : symmetric A) i j : sm_ok M -> i < sm_rows M -> j < sm_rows M ->
  exists a, sm_cell M i j = Ok a /\ a < length (sm_data M) /\
    a = Nat.min i j * sm_rows M - Nat.min i j * (Nat.min i j + 1) / 2 + Nat.max i j.
Proof.
  intros [H1 H2] Hi Hj. unfold sm_cell. set (n := sm_rows M) in *.
  destruct (Nat.leb_spec n i); [lia|]. destruct (Nat.leb_spec n j); [lia|]. cbn [orb].
  assert (B : Nat.min i j * n - Nat.min i j * (Nat.min i j + 1) / 2 + Nat.max i j < tri n).
  { pose proof (sm_index_bounds n (Nat.min i j) (Nat.max i j) ltac:(lia) ltac:(lia)).
    pose proof (row_start_le n (S (Nat.min i j)) n ltac:(lia) ltac:(lia)). rewrite row_start_n in *. lia. }
  destruct (Nat.ltb_spec j i).
  - rewrite Nat.min_r, Nat.max_l in * by lia. rewrite H1.
    destruct (Nat.leb_spec (tri n) (j * n - j * (j + 1) / 2 + i)); [lia|]. eexists. split; [reflexivity|]. split; [lia|reflexivity].
  - rewrite Nat.min_l, Nat.max_r in * by lia. rewrite H1.
    destruct (Nat.leb_spec (tri n) (i * n - i * (i + 1) / 2 + j)); [lia|]. eexists. split; [reflexivity|]. split; [lia|reflexivity].
Qed.

(** Reads and writes succeed exactly for valid indices, entries are symmetric
    and a write changes exactly one entry together with its mirror image. *)
Theorem C33_symmetric_storage : forall (A : Type) (zero : A) M, sm_made zero M ->
  (forall i j, i < sm_rows M -> j < sm_rows M -> exists x, sm_get M i j = Ok x /\ sm_get M j i = Ok x) /\
  (forall i j, sm_rows M <= i \/ sm_rows M <= j ->
     sm_get M i j = Throw OutOfRange /\ forall x, sm_set M i j x = Throw OutOfRange) /\
  (forall i j x, i < sm_rows M -> j < sm_rows M -> exists M', sm_set M i j x = Ok M' /\ sm_rows M' = sm_rows M /\
     forall k l, k < sm_rows M -> l < sm_rows M ->
       (k = i /\ l = j \/ k = j /\ l = i -> sm_get M' k l = Ok x) /\
       (~ (k = i /\ l = j \/ k = j /\ l = i) -> sm_get M' k l = sm_get M k l)) /\
  sm_copy zero M = M.
Proof.
  intros A zero M HM. pose proof (sm_made_ok zero M HM) as Hok. refine (conj _ (conj _ (conj _ (sm_copy_id zero M Hok)))).
  - intros i j Hi Hj. destruct (sm_cell_spec M i j Hok Hi Hj) as (a & Ea & La & Da).
    destruct (sm_cell_spec M j i Hok Hj Hi) as (b & Eb & Lb & Db).
    rewrite Nat.min_comm, Nat.max_comm, <- Da in Db. subst b.
    destruct (nth_error_ex (sm_data M) a La) as [x Hx]. exists x. unfold sm_get, get_. rewrite Ea, Eb. cbn [bind]. rewrite Hx. auto.
  - intros i j H. unfold sm_get, sm_set, sm_cell.
    assert (E : (sm_rows M <=? i) || (sm_rows M <=? j) = true) by (apply orb_true_iff; destruct H; [left|right]; apply Nat.leb_le; auto).
    rewrite E. cbn [bind]. auto.
  - intros i j x Hi Hj. destruct (sm_cell_spec M i j Hok Hi Hj) as (a & Ea & La & Da).
    unfold sm_set. rewrite Ea. cbn [bind]. destruct (Nat.ltb_spec a (length (sm_data M))); [|lia].
    eexists. split; [reflexivity|]. split; [reflexivity|]. intros k l Hk Hl.
    assert (Hok' : sm_ok (Symmetric (sm_rows M) (sm_size M) (upd (sm_data M) a x))).
    { destruct Hok. split; simpl; auto. rewrite upd_length; auto. }
    destruct (sm_cell_spec _ k l Hok' Hk Hl) as (b & Eb & Lb & Db). cbn [sm_rows] in Db.
    destruct (sm_cell_spec M k l Hok Hk Hl) as (c & Ec & Lc & Dc). assert (Ecb : c = b) by congruence. rewrite Ecb in Ec.
    unfold sm_get. rewrite Eb, Ec. cbn [bind sm_data]. unfold get_. split.
    + intro Hkl. assert (b = a). { rewrite Da, Db. destruct Hkl as [[-> ->]|[-> ->]]; [auto|]. rewrite Nat.min_comm, Nat.max_comm. auto. }
      replace b with a by auto. rewrite nth_error_upd_eq by auto. auto.
    + intro Hkl. assert (Hab : a <> b).
      { intro E. apply Hkl. rewrite Da, Db in E. apply sm_index_inj in E; lia. }
      rewrite nth_error_upd_neq; auto.
Qed.

Example C33_example : exists M, sm_set (sm_make 0%Z 3) 2 1 7%Z = Ok M /\
  map (fun q => sm_get M (fst q) (snd q)) [(1, 2); (2, 1); (2, 2); (0, 2); (1, 1); (3, 0)] =
  [Ok 7%Z; Ok 7%Z; Ok 0%Z; Ok 0%Z; Ok 0%Z; Throw OutOfRange].
Proof. eexists. split; vm_compute; reflexivity. Qed.

(** ** C43 *)
Theorem C43_perversity : forall values,
  length (perversity values) = length values /\
  (forall k x, nth_error values k = Some x -> (-1 <= x <= Z.of_nat k)%Z -> nth_error (perversity values) k = Some x) /\
  (forall d, 1 <= d <= length values -> exists p, perversity_at (perversity values) d = Ok p /\ (-1 <= p <= Z.of_nat d - 1)%Z) /\
  (forall d, length values < d -> perversity_at (perversity values) d = Ok 0%Z).
Proof.
  intro values. assert (Hn : forall k x, nth_error values k = Some x -> nth_error (perversity values) k = Some (clamp k x)).
  { intros k x Hx. unfold perversity. rewrite nth_error_map.
    assert (G : forall l a k, nth_error l k = Some x -> nth_error (combine (seq a (length l)) l) k = Some (a + k, x)).
    { clear. induction l as [|y l IH]; intros a [|k] H; simpl in *; try discriminate.
      - injection H as ->. rewrite Nat.add_0_r. auto.
      - rewrite (IH (S a) k H). do 2 f_equal. lia. }
    rewrite (G values 0 k Hx). reflexivity. }
  assert (Hl : length (perversity values) = length values).
  { unfold perversity. rewrite map_length, combine_length, seq_length. lia. }
  refine (conj Hl (conj _ (conj _ _))).
  - intros k x Hx B. rewrite (Hn k x Hx). f_equal. unfold clamp.
    destruct (Z.ltb_spec x (-1)); [lia|]. destruct (Z.ltb_spec (Z.of_nat k) x); lia.
  - intros d Hd. unfold perversity_at. rewrite Hl. destruct (Nat.ltb_spec d (length values + 1)); [|lia].
    destruct d as [|k]; [lia|]. destruct (nth_error_ex values k ltac:(lia)) as [x Hx].
    unfold get_. rewrite (Hn k x Hx). eexists. split; [reflexivity|]. unfold clamp.
    destruct (Z.ltb_spec x (-1)); [lia|]. destruct (Z.ltb_spec (Z.of_nat k) x); lia.
  - intros d Hd. unfold perversity_at. rewrite Hl. destruct (Nat.ltb_spec d (length values + 1)); [lia|auto].
Qed.

(** A query for dimension 0 reads outside of the vector, whatever the values. *)
Theorem C43_dimension_zero_refuted : forall values, perversity_at (perversity values) 0 = UB.
Proof. intro values. unfold perversity_at. rewrite Nat.add_1_r. reflexivity. Qed.

Theorem C43_goresky_macpherson : forall values,
  length (perversityGM values) = length values /\
  hd_error (perversityGM values) = hd_error values /\
  (forall k x y, nth_error (perversityGM values) k = Some x -> nth_error (perversityGM values) (S k) = Some y -> y = x \/ y = x + 1) /\
  (forall d, 2 <= d < length values + 2 -> exists p, perversityGM_at (perversityGM values) d = Ok p /\ nth_error (perversityGM values) (d - 2) = Some p) /\
  (forall d, length values + 2 <= d -> perversityGM_at (perversityGM values) d = Ok 0) /\
  ((forall k x y, nth_error values k = Some x -> nth_error values (S k) = Some y -> y = x \/ y = x + 1) ->
   perversityGM values = values).
Proof.
  assert (L : forall t x, length (gm_from x t) = length t) by (induction t; intros; simpl; auto).
  intro values. assert (Hl : length (perversityGM values) = length values) by (destruct values; simpl; auto).
  refine (conj Hl (conj _ (conj _ (conj _ (conj _ _))))).
  - destruct values; auto.
  - destruct values as [|a t]; [intros [|k]; discriminate|]. cbn [perversityGM]. clear Hl. revert a.
    induction t as [|b t IH]; intros a k x y H1 H2; [destruct k; discriminate|]. cbn [gm_from] in *.
    set (b' := if negb (b =? a) && negb (b =? a + 1) then a + 1 else b) in *.
    destruct k as [|k].
    + cbn in H1, H2. injection H1 as <-. injection H2 as <-. unfold b'.
      destruct (Nat.eqb_spec b a), (Nat.eqb_spec b (a + 1)); cbn; auto.
    + apply (IH b' k); auto.
  - intros d Hd. unfold perversityGM_at. rewrite Hl. destruct (Nat.ltb_spec d (length values + 2)); [|lia].
    destruct d as [|[|k]]; [lia|lia|]. destruct (nth_error_ex (perversityGM values) k ltac:(lia)) as [x Hx].
    exists x. unfold get_. cbn [Nat.sub]. rewrite Nat.sub_0_r, Hx. auto.
  - intros d Hd. unfold perversityGM_at. rewrite Hl. destruct (Nat.ltb_spec d (length values + 2)); [lia|auto].
  - destruct values as [|a t]; auto. cbn [perversityGM]. clear Hl. revert a. induction t as [|b t IH]; intros a H; auto. cbn [gm_from].
    assert (E : (if negb (b =? a) && negb (b =? a + 1) then a + 1 else b) = b).
    { destruct (H 0 a b eq_refl eq_refl) as [->| ->]; rewrite Nat.eqb_refl; cbn; auto. rewrite andb_false_r. auto. }
    rewrite E, IH; auto. intros k x y H1 H2. apply (H (S k)); auto.
Qed.

(** The documented normalization [p_2 = 0] is not established, and dimensions 0
    and 1 are read outside of the vector. *)
Theorem C43_goresky_macpherson_refuted :
  perversityGM_at (perversityGM [5; 6]) 2 = Ok 5 /\
  forall values, perversityGM_at (perversityGM values) 0 = UB /\ perversityGM_at (perversityGM values) 1 = UB.
Proof.
  split; [reflexivity|]. intro values. unfold perversityGM_at. rewrite Nat.add_comm. split; reflexivity.
Qed.

Example C43_example : perversity [3; -7; 1; 9]%Z = [0; -1; 1; 3]%Z /\ perversityGM [0; 4; 1; 2; 2] = [0; 1; 1; 2; 2].
Proof. split; reflexivity. Qed.

(** ** C46 *)
(** The loop only ever stops without reading [end()] if an abscissa larger
    than the current one follows; for the largest there is none. *)
Lemma zset_insert_ne x l : zset_insert x l <> [].
Proof. destruct l; simpl; [easy|]. destruct (z <? x)%Z; [easy|]. destruct (x <? z)%Z; easy. Qed.
Lemma zset_insert_In x y l : In y (zset_insert x l) <-> y = x \/ In y l.
Proof.
  induction l as [|z l IH]; simpl; [intuition|]. destruct (Z.ltb_spec z x).
  - simpl. rewrite IH. intuition.
  - destruct (Z.ltb_spec x z); simpl; [intuition|]. assert (z = x) by lia. subst. intuition.
Qed.
Lemma abscissae_In (P : list point) x : In x (abscissae P) <-> exists p : point, In p P /\ fst p = x.
Proof.
  unfold abscissae. assert (G : forall (l : list point) X, In x (fold_left (fun X p => zset_insert (fst p) X) l X) <-> In x X \/ exists p : point, In p l /\ fst p = x).
  { induction l as [|p l IH]; intro X; simpl; [firstorder|]. rewrite IH, zset_insert_In. split.
    - intros [[->|H]|(q & H1 & H2)]; [right; exists p; auto|auto|right; exists q; auto].
    - intros [H|(q & [<-|Hq] & <-)]; auto. right. exists q; auto. }
  rewrite G. simpl. firstorder.
Qed.

Lemma advance_result P x : forall fuel it, it + fuel >= length P -> (forall p, nth_error P it = Some p -> True) ->
  advance fuel P it x = UB \/ exists j, advance fuel P it x = Ok j /\ S j < length P /\ it <= j /\
    (forall q, nth_error P (S j) = Some q -> fst q <> x) /\
    forall i q, it < i <= j -> nth_error P i = Some q -> fst q = x.
Proof.
  induction fuel as [|f IH]; intros it Hf _; cbn [advance].
  - destruct (nth_error P (S it)) eqn:E; auto. apply nth_error_lt in E. lia.
  - destruct (nth_error P (S it)) as [q|] eqn:E; auto. destruct (Z.eqb_spec (fst q) x) as [Eq|Ne].
    + destruct (IH (S it) ltac:(lia)) as [H|(j & H1 & H2 & H3 & H4 & H5)]; auto. right. exists j.
      refine (conj H1 (conj H2 (conj _ (conj H4 _)))); [lia|]. intros i q' Hi Hq. destruct (Nat.eq_dec i (S it)) as [->|]; [congruence|].
      apply (H5 i); auto. lia.
    + right. exists it. refine (conj eq_refl (conj _ (conj _ (conj _ _)))); [apply nth_error_lt in E; auto|lia|congruence|lia].
Qed.

Lemma point_ltb_swo : swo point_ltb.
Proof.
  split.
  - intros x y H. apply point_ltb_spec in H. destruct (point_ltb y x) eqn:E; auto. apply point_ltb_spec in E. lia.
  - intros x y z H1 H2. destruct (point_ltb z x) eqn:E; auto. apply point_ltb_spec in E.
    destruct (point_ltb y x) eqn:E1; [discriminate|]. destruct (point_ltb z y) eqn:E2; [discriminate|].
    assert (~ (fst y < fst x \/ fst y = fst x /\ snd y < snd x)%Z) by (intro C; apply point_ltb_spec in C; congruence).
    assert (~ (fst z < fst y \/ fst z = fst y /\ snd z < snd y)%Z) by (intro C; apply point_ltb_spec in C; congruence). lia.
Qed.

Lemma zset_insert_sorted x l : StronglySorted Z.lt l -> StronglySorted Z.lt (zset_insert x l).
Proof.
  induction 1 as [|y l Hl IH Hy]; simpl; [repeat constructor|].
  rewrite Forall_forall in Hy. destruct (Z.ltb_spec y x).
  - constructor; auto. apply Forall_forall. intros z Hz. apply zset_insert_In in Hz. destruct Hz as [->|Hz]; auto.
  - destruct (Z.ltb_spec x y).
    + apply SSorted_cons; [apply SSorted_cons; auto; apply Forall_forall; auto|].
      apply Forall_forall. intros z [<-|Hz]; auto. specialize (Hy z Hz). lia.
    + apply SSorted_cons; auto. apply Forall_forall; auto.
Qed.
Lemma abscissae_sorted P : StronglySorted Z.lt (abscissae P).
Proof.
  unfold abscissae. assert (G : forall (l : list point) X, StronglySorted Z.lt X -> StronglySorted Z.lt (fold_left (fun X p => zset_insert (fst p) X) l X)).
  { induction l as [|p l IH]; intros X HX; simpl; auto. apply IH, zset_insert_sorted; auto. }
  apply G. constructor.
Qed.

Theorem C46_refuted : forall inf remove D,
  (exists p, In p (points D) /\ (remove = true -> snd p <> inf)) -> envelope inf remove D = UB.
Proof.
  intros inf remove D (p & Hp & Hinf). unfold envelope.
  set (D' := if remove then removeUnpaired inf D else D). set (P := rotated D').
  assert (Hp' : In (fst p + snd p, snd p - fst p)%Z P).
  { apply cpp_sort_In. apply in_map_iff. exists p. split; auto. unfold D'. destruct remove; auto. apply filter_In. split; auto.
    unfold isUnpaired. destruct (Z.eqb_spec (snd p) inf); auto. exfalso. apply Hinf; auto. }
  assert (HP : forall i j a b, i <= j -> nth_error P i = Some a -> nth_error P j = Some b -> (fst a <= fst b)%Z).
  { intros i j a b Hij Ha Hb. destruct (Nat.eq_dec i j) as [->|]; [replace b with a by congruence; lia|].
    pose proof (StronglySorted_nth _ P i j a b (cpp_sort_sorted point_ltb _ point_ltb_swo) ltac:(lia) Ha Hb) as H. cbv beta in H.
    destruct (Z.le_gt_cases (fst a) (fst b)); auto. rewrite (proj2 (point_ltb_spec b a)) in H; [discriminate|lia]. }
  assert (G : forall X st, StronglySorted Z.lt X -> X <> [] ->
     (forall i q, fst st < i -> nth_error P i = Some q -> In (fst q) X) -> foldM (envelope_step P) X st = UB).
  { induction X as [|x X IH]; intros st HX Hne Hin; [easy|]. cbn [foldM]. unfold envelope_step at 1.
    destruct (advance_result P x (length P) (fst st) ltac:(lia)) as [->|(j & -> & Hj & Hij & Hq & _)]; auto. cbn [bind].
    unfold get_. destruct (nth_error_ex P j ltac:(lia)) as [q ->]. cbn [bind].
    destruct (nth_error_ex P (S j) Hj) as [q' Eq']. specialize (Hq q' Eq').
    inversion HX as [|? ? HX' Fx]; subst. rewrite Forall_forall in Fx.
    assert (Hq' : In (fst q') X) by (destruct (Hin (S j) q' ltac:(lia) Eq'); [congruence|auto]).
    apply IH; auto; [intros ->; contradiction|]. cbn [fst]. intros i r Hi Hr.
    destruct (Hin i r ltac:(lia) Hr) as [E|]; auto. exfalso.
    specialize (HP (S j) i q' r ltac:(lia) Eq' Hr). specialize (Fx _ Hq'). lia. }
  rewrite G; auto.
  - apply abscissae_sorted.
  - intro E. assert (H : In (fst p + snd p)%Z (abscissae P)) by (apply abscissae_In; eexists; split; [exact Hp'|reflexivity]).
    rewrite E in H. contradiction.
  - intros i q _ Hq. apply abscissae_In. exists q. split; auto. apply nth_error_In in Hq. auto.
Qed.

Theorem C46_no_points : forall inf D, (forall p, In p (points D) -> snd p = inf) -> envelope inf true D = Ok [].
Proof.
  intros inf D H. unfold envelope, rotated, removeUnpaired. cbn [points].
  rewrite (filter_ext_in _ (fun _ => false)).
  - assert (E : forall l : list point, filter (fun _ => false) l = []) by (induction l; auto). rewrite E. reflexivity.
  - intros p Hp. unfold isUnpaired. rewrite (H p Hp), Z.eqb_refl. reflexivity.
Qed.

Example C46_example : envelope 1000 true (Diagram 0 [(1, 3); (2, 5); (0, 1000)]%Z) = UB.
Proof. reflexivity. Qed.

(** ** C32 *)
Definition sign (n : nat) : Z := if Nat.even n then 1%Z else (-1)%Z.
(** alternating sum of the numbers of simplices *)
Definition chi (L : list simplex) : Z := fold_right (fun s acc => (sign (length (verts s) - 1) + acc)%Z) 0%Z L.
(** alternating sum of Betti numbers *)
Definition chi_betti (inf : Z) (l : list diagram) : Z :=
  fold_right (fun D acc => (sign (dgm_dim D) * Z.of_nat (d_betti inf D) + acc)%Z) 0%Z l.

Fixpoint altsum (f : nat -> nat) (D : nat) : Z :=
  match D with 0 => 0%Z | S d => (altsum f d + sign d * Z.of_nat (f d))%Z end.
Lemma sign_S n : sign (S n) = (sign n * -1)%Z.
Proof. unfold sign. rewrite Nat.even_succ, <- Nat.negb_even. destruct (Nat.even n); reflexivity. Qed.
Lemma alternating_altsum m D : alternating m D = altsum (card_get m) D.
Proof.
  unfold alternating. assert (G : forall D, fold_left (fun st d => (fst st + snd st * Z.of_nat (card_get m d), snd st * -1)%Z) (seq 0 D) (0, 1)%Z
    = (altsum (card_get m) D, sign D)).
  { clear D. induction D as [|D IH]; [reflexivity|]. rewrite seq_S, fold_left_app, IH. cbn [fold_left fst snd Nat.add].
    rewrite sign_S. cbn [altsum]. f_equal. }
  rewrite G. reflexivity.
Qed.
Lemma altsum_ext f g D : (forall d, d < D -> f d = g d) -> altsum f D = altsum g D.
Proof. induction D as [|D IH]; intro H; simpl; auto. rewrite IH, H; auto. Qed.
Lemma altsum_add f g D : altsum (fun d => f d + g d) D = (altsum f D + altsum g D)%Z.
Proof. induction D as [|D IH]; simpl; auto. rewrite IH. lia. Qed.
Lemma altsum_zero D : altsum (fun _ => 0) D = 0%Z.
Proof. induction D as [|D IH]; simpl; auto. rewrite IH. lia. Qed.
Lemma altsum_one k x D : altsum (fun d => if d =? k then x else 0) D = if k <? D then (sign k * Z.of_nat x)%Z else 0%Z.
Proof.
  induction D as [|D IH]; cbn [altsum]; auto. rewrite IH. destruct (Nat.ltb_spec k D), (Nat.ltb_spec k (S D)), (Nat.eqb_spec D k); subst; lia.
Qed.
Lemma altsum_sum {A} (k x : A -> nat) l D :
  altsum (fun d => fold_right (fun a acc => (if d =? k a then x a else 0) + acc) 0 l) D =
  fold_right (fun a acc => ((if (k a <? D)%nat then sign (k a) * Z.of_nat (x a) else 0) + acc)%Z) 0%Z l.
Proof.
  induction l as [|a l IH]; simpl; [apply altsum_zero|]. rewrite altsum_add, altsum_one, IH. reflexivity.
Qed.

Lemma card_get_set m d x d' : card_get (card_set m d x) d' = if d' =? d then x else card_get m d'.
Proof.
  unfold card_get. induction m as [|[k y] m IH]; simpl.
  - destruct (Nat.eqb_spec d d'), (Nat.eqb_spec d' d); auto; congruence.
  - destruct (Nat.eqb_spec k d) as [->|]; simpl.
    + destruct (Nat.eqb_spec d d'), (Nat.eqb_spec d' d); auto; congruence.
    + destruct (d <? k); simpl.
      * destruct (Nat.eqb_spec d d'), (Nat.eqb_spec d' d); auto; congruence.
      * destruct (Nat.eqb_spec k d') as [->|]; auto. destruct (Nat.eqb_spec d' d); [congruence|auto].
Qed.

Lemma euler_count l : (forall s, In s l -> good s) -> exists m, foldM euler_step l [] = Ok m /\
  forall d, card_get m d = fold_right (fun s acc => (if d =? sdim s then 1 else 0) + acc) 0 l.
Proof.
  intro Hg. assert (G : forall l m0, (forall s, In s l -> good s) -> exists m, foldM euler_step l m0 = Ok m /\
    forall d, card_get m d = card_get m0 d + fold_right (fun s acc => (if d =? sdim s then 1 else 0) + acc) 0 l).
  { clear. induction l as [|s l IH]; intros m0 Hg; cbn [foldM].
    - exists m0. split; [auto|]. intro d. cbn [fold_right]. lia.
    - unfold euler_step at 1. rewrite good_dimension by (apply Hg; simpl; auto). cbn [bind].
      destruct (IH (card_set m0 (sdim s) (card_get m0 (sdim s) + 1))) as (m & E & H); [intros; apply Hg; simpl; auto|].
      exists m. split; auto. intro d. rewrite H, card_get_set. simpl. destruct (Nat.eqb_spec d (sdim s)); subst; lia. }
  destruct (G l [] Hg) as (m & E & H). exists m. split; auto.
Qed.

Definition top_simplices (L : list simplex) (d : nat) : list simplex := filter (fun s => length (verts s) =? S d) L.

(** What is computed: the alternating sum without the simplices of the
    largest dimension. *)
Theorem C32_omits_top_dimension : forall K, reachable K -> by_index K <> [] ->
  exists D e, k_dimension K = Ok D /\ eulerCharacteristic K = Ok e /\
    chi (by_index K) = (e + sign D * Z.of_nat (length (top_simplices (by_index K) D)))%Z.
Proof.
  intros K HR Hne. pose proof (reachable_kwf K HR) as HK.
  destruct (dimension_spec K HK) as [_ HD]. destruct (HD Hne) as (D & ED & _ & Hmax).
  destruct (euler_count (by_index K) (kwf_good K HK)) as (m & Em & Hm).
  exists D. eexists. split; auto. split.
  - unfold eulerCharacteristic, k_isempty. destruct (by_index K) eqn:E; [exfalso; apply Hne; reflexivity|]. cbv iota. rewrite Em, ED. cbn [bind]. reflexivity.
  - rewrite alternating_altsum, (altsum_ext _ _ D (fun d _ => Hm d)), (altsum_sum sdim (fun _ => 1)).
    assert (Hg : forall s, In s (by_index K) -> verts s <> []) by (intros s Hs; apply (kwf_good K HK s Hs)).
    clear - Hmax Hg. induction (by_index K) as [|s l IH]; [simpl; lia|].
    cbn [chi fold_right top_simplices filter]. fold (chi l). fold (top_simplices l D).
    rewrite IH; [|intros; apply Hmax; simpl; auto|intros; apply Hg; simpl; auto].
    pose proof (Hmax s ltac:(simpl; auto)) as M. pose proof (Hg s ltac:(simpl; auto)) as N.
    assert (N' : length (verts s) <> 0) by (destruct (verts s); simpl; [easy|lia]).
    unfold sdim. destruct (Nat.ltb_spec (length (verts s) - 1) D), (Nat.eqb_spec (length (verts s)) (S D)); try lia.
    + cbn [length]. replace (length (verts s) - 1) with D by lia. lia.
Qed.

(** Hence the result is wrong for every complex that is not empty. *)
Theorem C32_refuted : forall K, reachable K -> by_index K <> [] -> eulerCharacteristic K <> Ok (chi (by_index K)).
Proof.
  intros K HR Hne E. destruct (C32_omits_top_dimension K HR Hne) as (D & e & ED & Ee & H).
  rewrite E in Ee. injection Ee as <-.
  destruct (dimension_spec K (reachable_kwf K HR)) as [_ HD]. destruct (HD Hne) as (D' & ED' & (s & Hs & Hl) & _).
  rewrite ED in ED'. injection ED' as <-.
  assert (In s (top_simplices (by_index K) D)) by (apply filter_In; split; auto; apply Nat.eqb_eq; auto).
  destruct (top_simplices (by_index K) D); [contradiction|]. cbn [length] in H. unfold sign in H. destruct (Nat.even D); lia.
Qed.

Example C32_example : eulerCharacteristic full_triangle = Ok 0%Z /\ chi (by_index full_triangle) = 1%Z.
Proof. split; vm_compute; reflexivity. Qed.

Lemma card_set_sorted m d x : StronglySorted lt (map fst m) -> StronglySorted lt (map fst (card_set m d x)) /\
  forall k, In k (map fst (card_set m d x)) <-> k = d \/ In k (map fst m).
Proof.
  induction m as [|[k y] m IH]; simpl; intro H.
  - split; [repeat constructor|]. intuition.
  - inversion H as [|? ? H1 F]; subst. destruct (IH H1) as [A B]. destruct (Nat.eqb_spec k d) as [->|]; simpl.
    + split; auto. intuition.
    + destruct (Nat.ltb_spec d k); simpl.
      * split; [|intuition]. constructor; auto. constructor; auto. rewrite Forall_forall in F |- *. intros z Hz. specialize (F z Hz). lia.
      * split; [|intro z; rewrite B; intuition]. constructor; auto. rewrite Forall_forall in F |- *. intros z Hz. apply B in Hz.
        destruct Hz as [->|Hz]; auto. lia.
Qed.

Lemma last_opt_max m : StronglySorted lt (map (@fst nat nat) m) -> forall q, last_opt m = Some q -> forall k, In k (map fst m) -> k <= fst q.
Proof.
  induction m as [|p m IH]; intros H q E k Hk; [discriminate|]. simpl in H. inversion H as [|? ? H1 F]; subst. rewrite Forall_forall in F.
  destruct m as [|p' m].
  - simpl in E. injection E as <-. destruct Hk as [<-|[]]; auto.
  - change (last_opt (p :: p' :: m)) with (last_opt (p' :: m)) in E. destruct Hk as [<-|Hk]; [|apply IH; auto].
    specialize (F (fst p') ltac:(simpl; auto)). specialize (IH H1 q E (fst p') ltac:(simpl; auto)). lia.
Qed.

(** The same holds for lists of diagrams of different dimensions. *)
Theorem C32_diagrams : forall inf l, l <> [] -> NoDup (map dgm_dim l) ->
  exists E e, In E l /\ (forall D, In D l -> dgm_dim D <= dgm_dim E) /\ eulerDiagrams inf l = Ok e /\
    chi_betti inf l = (e + sign (dgm_dim E) * Z.of_nat (d_betti inf E))%Z.
Proof.
  intros inf l Hne Hnd.
  assert (G : forall l m, NoDup (map dgm_dim l) -> StronglySorted lt (map fst m) ->
    (forall D, In D l -> ~ In (dgm_dim D) (map fst m)) ->
    let m' := fold_left (fun m D => card_set m (dgm_dim D) (d_betti inf D)) l m in
    StronglySorted lt (map fst m') /\ (forall k, In k (map fst m') <-> In k (map fst m) \/ In k (map dgm_dim l)) /\
    forall d, card_get m' d = card_get m d + fold_right (fun D acc => (if d =? dgm_dim D then d_betti inf D else 0) + acc) 0 l).
  { clear. induction l as [|D l IH]; intros m Hn Hs Hf; simpl.
    - refine (conj Hs (conj _ _)); [intuition|intro; lia].
    - simpl in Hn. inversion Hn as [|? ? Hd Hn']; subst.
      destruct (card_set_sorted m (dgm_dim D) (d_betti inf D) Hs) as [S1 S2].
      destruct (IH (card_set m (dgm_dim D) (d_betti inf D)) Hn' S1) as (A & B & C).
      + intros E HE. rewrite S2. intros [H|H]; [apply Hd; rewrite <- H; apply in_map; auto|apply (Hf E); simpl; auto].
      + refine (conj A (conj _ _)).
        * intro k. rewrite B, S2. intuition.
        * intro d. rewrite C, card_get_set. destruct (Nat.eqb_spec d (dgm_dim D)) as [->|]; [|lia].
          assert (card_get m (dgm_dim D) = 0).
          { specialize (Hf D ltac:(simpl; auto)). unfold card_get. destruct (find _ m) as [q|] eqn:E; auto.
            apply find_some in E. destruct E as [E1 E2]. apply Nat.eqb_eq in E2. exfalso. apply Hf. rewrite <- E2. apply in_map; auto. }
          lia. }
  destruct (G l [] Hnd (SSorted_nil _) ltac:(simpl; auto)) as (A & B & C). simpl in A, B, C.
  set (m := fold_left (fun m D => card_set m (dgm_dim D) (d_betti inf D)) l []) in *.
  destruct (last_opt m) as [q|] eqn:Eq.
  2:{ exfalso. destruct l as [|D l']; [easy|]. assert (H : In (dgm_dim D) (map fst m)) by (apply B; right; simpl; auto).
      destruct m; [contradiction|]. clear - Eq. revert p Eq. induction m as [|b m IH]; intros p E; [discriminate|]. apply (IH b). exact E. }
  assert (Hq : In (fst q) (map fst m)). { apply in_map. clear - Eq. induction m as [|a m IH]; [discriminate|]. destruct m; [injection Eq as ->; simpl; auto|right; apply IH; auto]. }
  apply B in Hq. destruct Hq as [[]|Hq]. apply in_map_iff in Hq. destruct Hq as (E & EE & HE).
  assert (Hmax : forall D, In D l -> dgm_dim D <= dgm_dim E).
  { intros D HD. rewrite EE. apply (last_opt_max m A q Eq). apply B. right. apply in_map; auto. }
  exists E. eexists. refine (conj HE (conj Hmax (conj _ _))).
  - unfold eulerDiagrams. fold m. rewrite Eq. destruct l; [exfalso; apply Hne; reflexivity|reflexivity].
  - rewrite <- EE, alternating_altsum, (altsum_ext _ _ _ (fun d _ => C d)), (altsum_sum dgm_dim (d_betti inf)).
    clear - HE Hmax Hnd. revert Hnd HE Hmax. induction l as [|D l IH]; intros Hn HE Hmax; [contradiction|].
    cbn [chi_betti fold_right]. fold (chi_betti inf l). simpl in Hn. inversion Hn as [|? ? Hd Hn']; subst.
    destruct HE as [<-|HE].
    + rewrite Nat.ltb_irrefl. assert (E0 : forall l, (forall D', In D' l -> dgm_dim D' < dgm_dim D) -> chi_betti inf l =
        fold_right (fun a acc => ((if (dgm_dim a <? dgm_dim D)%nat then sign (dgm_dim a) * Z.of_nat (d_betti inf a) else 0) + acc)%Z) 0%Z l).
      { clear. induction l as [|a l IH]; intro H; simpl; auto. fold (chi_betti inf l). rewrite IH by (intros; apply H; simpl; auto).
        destruct (Nat.ltb_spec (dgm_dim a) (dgm_dim D)); auto. specialize (H a ltac:(simpl; auto)). lia. }
      rewrite E0; [lia|]. intros D' HD'. specialize (Hmax D' ltac:(simpl; auto)).
      assert (dgm_dim D' <> dgm_dim D) by (intro X; apply Hd; rewrite <- X; apply in_map; auto). lia.
    + rewrite IH; auto; [|intros; apply Hmax; simpl; auto].
      assert (dgm_dim D <> dgm_dim E) by (intro X; apply Hd; rewrite X; apply in_map; auto).
      specialize (Hmax D ltac:(simpl; auto)). destruct (Nat.ltb_spec (dgm_dim D) (dgm_dim E)); lia.
Qed.

Example C32_diagrams_example :
  eulerDiagrams 1000 [Diagram 0 [(0, 1000); (1, 2)]%Z; Diagram 1 [(3, 1000)]%Z] = Ok 1%Z /\
  chi_betti 1000 [Diagram 0 [(0, 1000); (1, 2)]%Z; Diagram 1 [(3, 1000)]%Z] = 0%Z.
Proof. split; vm_compute; reflexivity. Qed.

(** ** C50 *)
(** [x] is the element at position [k] (counted from 0) of the sorted range:
    at most [k] elements are smaller, more than [k] are not larger. *)
Definition order_statistic (l : list Z) (k : nat) (x : Z) : Prop :=
  In x l /\ length (filter (fun y => (y <? x)%Z) l) <= k < length (filter (fun y => (y <=? x)%Z) l).
(** what the standard says about [std::nth_element] *)
Definition nth_element_contract (ne : list Z -> nat -> list Z) : Prop :=
  forall l k, k < length l -> Permutation (ne l k) l /\
    (forall i j a b, i <= k -> k <= j -> nth_error (ne l k) i = Some a -> nth_error (ne l k) j = Some b -> (a <= b)%Z).

Lemma filter_len_perm {A} (f : A -> bool) l m : Permutation l m -> length (filter f l) = length (filter f m).
Proof. intro H. apply Permutation_length. induction H; simpl; try destruct (f x); try destruct (f y); try constructor; auto; eapply Permutation_trans; eauto. Qed.

Lemma nth_element_spec ne l k : nth_element_contract ne -> k < length l ->
  exists x, nth_error (ne l k) k = Some x /\ order_statistic l k x.
Proof.
  intros H Hk. destruct (H l k Hk) as [P Q]. pose proof (Permutation_length P) as Lp.
  destruct (nth_error_ex (ne l k) k ltac:(lia)) as [x Hx]. exists x. split; auto.
  split; [apply (Permutation_in x P), (nth_error_In _ _ Hx)|].
  rewrite <- (filter_len_perm _ _ _ P), <- (filter_len_perm (fun y => (y <=? x)%Z) _ _ P).
  pose proof (nth_error_split _ _ Hx) as (l1 & l2 & E & El). rewrite E in *.
  assert (H1 : forall y, In y l1 -> (y <= x)%Z).
  { intros y Hy. apply In_nth_error in Hy. destruct Hy as [i Hi]. pose proof (nth_error_lt _ _ _ Hi).
    apply (Q i k y x); auto; [lia|]. rewrite nth_error_app1; auto. }
  assert (H2 : forall y, In y l2 -> (x <= y)%Z).
  { intros y Hy. apply In_nth_error in Hy. destruct Hy as [i Hi]. apply (Q k (S (k + i)) x y); auto; [lia|].
    rewrite nth_error_app2 by lia. replace (S (k + i) - length l1) with (S i) by lia. auto. }
  rewrite !filter_app, !app_length. cbn [filter]. rewrite Z.ltb_irrefl, Z.leb_refl. cbn [length].
  assert (F1 : forall m (f : Z -> bool), length (filter f m) <= length m) by (clear; intros m f; induction m; simpl; [lia|]; destruct (f a); simpl; lia).
  rewrite (filter_all (fun y => (y <=? x)%Z) l1) by (intros y Hy; apply Z.leb_le; auto).
  replace (filter (fun y => (y <? x)%Z) l2) with (@nil Z).
  - specialize (F1 l1 (fun y => (y <? x)%Z)). simpl. lia.
  - symmetry. clear - H2. induction l2 as [|y l IH]; simpl; auto. destruct (Z.ltb_spec y x); [specialize (H2 y ltac:(simpl; auto)); lia|].
    apply IH. intros; apply H2; simpl; auto.
Qed.

Lemma order_statistic_perm l m k x : Permutation l m -> order_statistic l k x -> order_statistic m k x.
Proof.
  intros P [H1 H2]. split; [apply (Permutation_in x P); auto|].
  rewrite <- (filter_len_perm _ _ _ P), <- (filter_len_perm (fun y => (y <=? x)%Z) _ _ P). auto.
Qed.

Theorem C50_median : forall ne mean l, nth_element_contract ne -> l <> [] ->
  (Nat.Odd (length l) -> exists x, median ne mean l = Ok x /\ order_statistic l (length l / 2) x) /\
  (Nat.Even (length l) -> exists x y, median ne mean l = Ok (mean y x) /\
     order_statistic l (length l / 2 - 1) x /\ order_statistic l (length l / 2) y).
Proof.
  intros ne mean l H Hne. assert (Hl : 0 < length l) by (destruct l; [easy|simpl; lia]).
  assert (Hk : length l / 2 < length l) by (apply Nat.div_lt; lia).
  destruct (nth_element_spec ne l (length l / 2) H Hk) as (y & Ey & Oy).
  unfold median. unfold get_ at 1 3. rewrite Ey. cbn [bind]. split.
  - intros [k Ok']. assert (E : length l mod 2 = 1) by (rewrite Ok', Nat.add_comm, Nat.mul_comm, Nat.mod_add by lia; reflexivity).
    rewrite E. simpl. exists y. auto.
  - intros [k Ek]. assert (E : length l mod 2 = 0) by (rewrite Ek, Nat.mul_comm, Nat.mod_mul by lia; reflexivity).
    rewrite E. cbn [Nat.eqb]. destruct (H l (length l / 2) Hk) as [P _]. pose proof (Permutation_length P) as Lp.
    destruct (nth_element_spec ne (ne l (length l / 2)) (length l / 2 - 1) H ltac:(lia)) as (x & Ex & Ox).
    unfold get_. rewrite Ex. cbn [bind]. exists x, y. split; auto. split; auto. apply (order_statistic_perm _ _ _ _ P Ox).
Qed.

(** order statistics are unique, so the result does not depend on [nth_element] *)
Theorem C50_unique : forall l k x y, order_statistic l k x -> order_statistic l k y -> x = y.
Proof.
  assert (G : forall l k x y, order_statistic l k x -> order_statistic l k y -> ~ (x < y)%Z).
  { intros l k x y [_ Hx] [_ Hy] Hlt.
    assert (length (filter (fun z => (z <=? x)%Z) l) <= length (filter (fun z => (z <? y)%Z) l)); [|lia].
    clear - Hlt. induction l as [|z l IH]; simpl; auto. destruct (Z.leb_spec z x), (Z.ltb_spec z y); simpl; lia. }
  intros l k x y Hx Hy. pose proof (G l k x y Hx Hy). pose proof (G l k y x Hy Hx). lia.
Qed.

(** the median of an empty range reads outside of it *)
Theorem C50_empty_refuted : forall ne mean, ne [] 0 = [] -> median ne mean [] = UB.
Proof. intros ne mean H. unfold median. simpl. rewrite H. reflexivity. Qed.

Example C50_example : nth_element_contract (fun l _ => cpp_sort Z.ltb l) /\
  median (fun l _ => cpp_sort Z.ltb l) (fun a b => Z.quot (a + b) 2) [5; 1; 9; 3]%Z = Ok 4%Z /\
  median (fun l _ => cpp_sort Z.ltb l) (fun a b => Z.quot (a + b) 2) [5; 1; 9]%Z = Ok 5%Z.
Proof.
  assert (W : swo Z.ltb). { split; intros; repeat match goal with H : (_ <? _)%Z = _ |- _ => apply Z.ltb_lt in H || apply Z.ltb_ge in H end; apply Z.ltb_ge; lia. }
  split; [|split; vm_compute; reflexivity]. intros l k _. split; [apply cpp_sort_perm|]. intros i j a b Hi Hj Ha Hb.
  destruct (Nat.eq_dec i j) as [->|]; [replace b with a by congruence; lia|].
  pose proof (StronglySorted_nth _ _ i j a b (cpp_sort_sorted Z.ltb l W) ltac:(lia) Ha Hb) as H. apply Z.ltb_ge in H. auto.
Qed.

Print Assumptions C32_omits_top_dimension.
Print Assumptions C32_refuted.
Print Assumptions C32_diagrams.
Print Assumptions C33_symmetric_storage.
Print Assumptions C43_perversity.
Print Assumptions C43_dimension_zero_refuted.
Print Assumptions C43_goresky_macpherson.
Print Assumptions C43_goresky_macpherson_refuted.
Print Assumptions C46_refuted.
Print Assumptions C46_no_points.
Print Assumptions C50_median.
Print Assumptions C50_unique.
Print Assumptions C50_empty_refuted.
