(** * C80: witness complexes; C81: landmarks *)

From Coq Require Import List Arith Bool ZArith Lia Permutation Sorted.
From Verif Require Import Base BaseFacts Simplex SimplexFacts SpecComplex Complex ComplexFacts FiltrationFacts History Subcomplex SubcomplexFacts
  Quotient PropertiesComplex HomologyFacts PairingFacts FloydFacts SpecRips Rips PropertiesRips PropertiesDowker PropertiesVietorisRips
  PropertiesSmall CombineFacts GraphComplexFacts Witness.
Import ListNotations.

(** ** specification *)
(** [k] is a witness of the edge between the landmarks [u] and [v]; [m k] is the
    value that belongs to the point [k]. *)
Definition witness_value (dist : nat -> nat -> Z) (landmarks : list nat) (u v k : nat) : Z :=
  Z.max (dist (nth u landmarks 0) k) (dist (nth v landmarks 0) k).
Definition witness (dist : nat -> nat -> Z) (N : nat) (landmarks : list nat) (R : Z) (m : nat -> Z) (u v k : nat) : Prop :=
  k < N /\ (witness_value dist landmarks u v k <= R + m k)%Z.
Definition joined dist N landmarks R m (u v : nat) : Prop := exists k, witness dist N landmarks R m u v k.
(** the smallest value over all witnesses *)
Definition edge_value dist N landmarks R m (u v : nat) (x : Z) : Prop :=
  (exists k, witness dist N landmarks R m u v k /\ witness_value dist landmarks u v k = x) /\
  forall k, witness dist N landmarks R m u v k -> (x <= witness_value dist landmarks u v k)%Z.
(** [m k] is the [nu]-th smallest distance of the point [k] to a landmark, or 0 *)
Definition nu_smallest (dist : nat -> nat -> Z) (landmarks : list nat) (nu k : nat) (x : Z) : Prop :=
  (nu = 0 -> x = 0%Z) /\ (0 < nu -> order_statistic (map (fun l => dist l k) landmarks) (nu - 1) x).

(** ** the loops *)
Lemma foldM_collect {A B} (f : A -> outcome B) (g : A -> B) l : (forall x, In x l -> f x = Ok (g x)) -> forall acc,
  foldM (fun acc x => let* y := f x in Ok (acc ++ [y])) l acc = Ok (acc ++ map g l).
Proof.
  induction l as [|x l IH]; intros H acc; cbn [foldM map]; [rewrite app_nil_r; reflexivity|].
  rewrite (H x (or_introl eq_refl)). cbn [bind]. rewrite IH by (intros; apply H; simpl; auto). rewrite <- app_assoc. reflexivity.
Qed.

Lemma landmark_row_ok dist N landmarks j : (forall l, In l landmarks -> l < N) ->
  landmark_row dist N landmarks j = Ok (map (fun l => dist l j) landmarks).
Proof.
  intro H. unfold landmark_row.
  assert (G : forall acc, foldM (fun row i => if i <? N then Ok (row ++ [dist i j]) else UB) landmarks acc = Ok (acc ++ map (fun l => dist l j) landmarks)).
  { induction landmarks as [|l t IH]; intro acc; cbn [foldM map]; [rewrite app_nil_r; reflexivity|].
    assert (E : (l <? N) = true) by (apply Nat.ltb_lt, H; simpl; auto). rewrite E. cbn [bind].
    rewrite IH by (intros; apply H; simpl; auto). rewrite <- app_assoc. reflexivity. }
  apply G.
Qed.

Lemma landmark_matrix_ok dist N landmarks : (forall l, In l landmarks -> l < N) ->
  landmark_matrix dist N landmarks = Ok (map (fun j => map (fun l => dist l j) landmarks) (seq 0 N)).
Proof.
  intro H. unfold landmark_matrix. apply (foldM_collect (fun j => landmark_row dist N landmarks j) (fun j => map (fun l => dist l j) landmarks) (seq 0 N)).
  intros j _. apply landmark_row_ok. exact H.
Qed.

Lemma nth_map_seq {B} (f : nat -> B) N k : k < N -> nth_error (map f (seq 0 N)) k = Some (f k).
Proof. intro H. rewrite (map_nth_error f k (seq 0 N) (d := k)); [reflexivity|]. rewrite (nth_error_nth' _ 0) by (rewrite seq_length; lia). rewrite seq_nth by lia. reflexivity. Qed.

Lemma smallest_ok ne dist N landmarks nu : nth_element_contract ne -> nu <= length landmarks ->
  exists m, smallest_of N ne nu (map (fun j => map (fun l => dist l j) landmarks) (seq 0 N)) = Ok (map m (seq 0 N)) /\
    forall k, nu_smallest dist landmarks nu k (m k).
Proof.
  intros Hne Hnu. unfold smallest_of. destruct (Nat.eqb_spec nu 0) as [->|Hn].
  - exists (fun _ => 0%Z). split; [|intro k; split; [auto|lia]]. f_equal. clear.
    assert (G : forall a, repeat 0%Z N = map (fun _ => 0%Z) (seq a N)) by (induction N as [|N' IH]; intro a; simpl; [auto|f_equal; apply IH]). apply G.
  - exists (fun k => nth (nu - 1) (ne (map (fun l => dist l k) landmarks) (nu - 1)) 0%Z).
    assert (S : forall k, nth_error (ne (map (fun l => dist l k) landmarks) (nu - 1)) (nu - 1) = Some (nth (nu - 1) (ne (map (fun l => dist l k) landmarks) (nu - 1)) 0%Z) /\
      order_statistic (map (fun l => dist l k) landmarks) (nu - 1) (nth (nu - 1) (ne (map (fun l => dist l k) landmarks) (nu - 1)) 0%Z)).
    { intro k. destruct (nth_element_spec ne (map (fun l => dist l k) landmarks) (nu - 1) Hne) as (x & Ex & Ox); [rewrite map_length; lia|].
      rewrite (nth_error_nth _ _ 0%Z Ex). auto. }
    split; [|intro k; split; [lia|intros _; apply S]].
    rewrite (foldM_ext_in _ (fun acc k => let* x := Ok (nth (nu - 1) (ne (map (fun l => dist l k) landmarks) (nu - 1)) 0%Z) in Ok (acc ++ [x]))).
    + apply (foldM_collect (fun k => Ok (nth (nu - 1) (ne (map (fun l => dist l k) landmarks) (nu - 1)) 0%Z)) (fun k => nth (nu - 1) (ne (map (fun l => dist l k) landmarks) (nu - 1)) 0%Z)). auto.
    + intros acc k Hk. apply in_seq in Hk. unfold get_. rewrite nth_map_seq by lia. cbn [bind]. unfold column_smallest. rewrite map_length.
      destruct (Nat.ltb_spec (length landmarks) (nu - 1)); [lia|]. destruct (Nat.ltb_spec (nu - 1) (length landmarks)); [|lia].
      unfold at_. rewrite (proj1 (S k)). reflexivity.
Qed.

Section Edges.
  Variables (dist : nat -> nat -> Z) (N : nat) (landmarks : list nat) (R max : Z) (m : nat -> Z).
  Hypothesis Hmax : forall l k, In l landmarks -> k < N -> (dist l k < max)%Z.
  Let n := length landmarks.
  Let D := map (fun j => map (fun l => dist l j) landmarks) (seq 0 N).

  Definition time_of (u v : nat) : Z :=
    fold_left (fun x k => if (witness_value dist landmarks u v k <=? R + m k)%Z then Z.min x (witness_value dist landmarks u v k) else x) (seq 0 N) max.

  Lemma edge_time_ok u v : u < n -> v < n -> edge_time N max R D (map m (seq 0 N)) u v = Ok (time_of u v).
  Proof.
    intros Hu Hv. unfold edge_time, time_of.
    assert (G : forall l x, (forall k, In k l -> k < N) ->
      foldM (fun m0 k => let* row := get_ D k in let* a := get_ row u in let* b := get_ row v in let* s := at_ (map m (seq 0 N)) k in
        Ok (if (Z.max a b <=? R + s)%Z then Z.min m0 (Z.max a b) else m0)) l x =
      Ok (fold_left (fun x k => if (witness_value dist landmarks u v k <=? R + m k)%Z then Z.min x (witness_value dist landmarks u v k) else x) l x)).
    { induction l as [|k l IH]; intros x Hl; cbn [foldM fold_left]; [reflexivity|].
      assert (Hk : k < N) by (apply Hl; simpl; auto). unfold get_ at 1, D at 1. rewrite nth_map_seq by exact Hk. cbn [bind].
      unfold get_ at 1 2. rewrite !(map_nth_error _ _ _ (nth_error_nth' landmarks 0 Hu)), !(map_nth_error _ _ _ (nth_error_nth' landmarks 0 Hv)). cbn [bind].
      unfold at_. rewrite nth_map_seq by exact Hk. cbn [bind]. fold (witness_value dist landmarks u v k).
      apply IH. intros; apply Hl; simpl; auto. }
    apply G. intros k Hk. apply in_seq in Hk. lia.
  Qed.

  Lemma time_spec u v : u < n -> v < n ->
    (joined dist N landmarks R m u v -> edge_value dist N landmarks R m u v (time_of u v) /\ (time_of u v < max)%Z) /\
    (time_of u v <> max -> joined dist N landmarks R m u v).
  Proof.
    intros Hu Hv. unfold time_of.
    assert (G : forall l x, let r := fold_left (fun x k => if (witness_value dist landmarks u v k <=? R + m k)%Z then Z.min x (witness_value dist landmarks u v k) else x) l x in
      (r <= x)%Z /\ (r = x \/ exists k, In k l /\ (witness_value dist landmarks u v k <= R + m k)%Z /\ witness_value dist landmarks u v k = r) /\
      forall k, In k l -> (witness_value dist landmarks u v k <= R + m k)%Z -> (r <= witness_value dist landmarks u v k)%Z).
    { induction l as [|k l IH]; intro x; cbn [fold_left]; cbv zeta; [split; [lia|split; [auto|easy]]|].
      destruct (Z.leb_spec (witness_value dist landmarks u v k) (R + m k)) as [Hle|Hgt].
      - destruct (IH (Z.min x (witness_value dist landmarks u v k))) as (I1 & I2 & I3). split; [lia|]. split.
        + destruct I2 as [E|(j & Hj & W & E)]; [|right; exists j; simpl; auto].
          destruct (Z.min_spec x (witness_value dist landmarks u v k)) as [[_ F]|[_ F]]; rewrite F in E at 2; [left; exact E|right; exists k; simpl; auto].
        + intros j [<-|Hj] W; [lia|auto].
      - destruct (IH x) as (I1 & I2 & I3). split; [lia|]. split.
        + destruct I2 as [E|(j & Hj & W & E)]; [auto|right; exists j; simpl; auto].
        + intros j [<-|Hj] W; [lia|auto]. }
    destruct (G (seq 0 N) max) as (G1 & G2 & G3). cbv zeta in *.
    set (r := fold_left _ (seq 0 N) max) in *.
    assert (Hw : forall k, k < N -> (witness_value dist landmarks u v k < max)%Z).
    { intros k Hk. unfold witness_value. pose proof (Hmax (nth u landmarks 0) k (nth_In _ _ Hu) Hk). pose proof (Hmax (nth v landmarks 0) k (nth_In _ _ Hv) Hk). lia. }
    split.
    - intros (k & Hk & W). assert (Hr : (r <= witness_value dist landmarks u v k)%Z) by (apply G3; [apply in_seq; lia|exact W]).
      specialize (Hw k Hk). split; [|lia]. split.
      + destruct G2 as [E|(j & Hj & W' & E)]; [exfalso; lia|]. exists j. apply in_seq in Hj. split; [split; [lia|exact W']|exact E].
      + intros j [Hj W']. apply G3; [apply in_seq; lia|exact W'].
    - intro E. destruct G2 as [E'|(j & Hj & W' & E')]; [contradiction|]. exists j. apply in_seq in Hj. split; [lia|exact W'].
  Qed.

  Definition adjb (u v : nat) : bool := negb (time_of u v =? max)%Z.
  Lemma adjb_spec u v : u < n -> v < n -> (adjb u v = true <-> joined dist N landmarks R m u v).
  Proof.
    intros Hu Hv. destruct (time_spec u v Hu Hv) as [T1 T2]. unfold adjb. rewrite negb_true_iff, Z.eqb_neq. split; [exact T2|].
    intro J. destruct (T1 J). lia.
  Qed.

  Definition edges_from (i : nat) : list simplex :=
    map (fun j => Simplex [j; i] (time_of i j)) (filter (fun j => adjb i j) (seq (S i) (n - S i))).
  Definition graph_list : list simplex := flat_map (fun i => Simplex [i] 0 :: edges_from i) (seq 0 n).

  Lemma simplices_ok : witness_simplices N max R D (map m (seq 0 N)) n = Ok graph_list.
  Proof.
    unfold witness_simplices, graph_list.
    assert (Inner : forall i l acc, i < n -> (forall j, In j l -> i < j < n) ->
      foldM (fun acc j => let* t := edge_time N max R D (map m (seq 0 N)) i j in
               Ok (if (t =? max)%Z then acc else acc ++ [simplex_of [i; j] t])) l acc =
      Ok (acc ++ map (fun j => Simplex [j; i] (time_of i j)) (filter (fun j => adjb i j) l))).
    { intros i l. induction l as [|j l IH]; intros acc Hi Hl; cbn [foldM filter map]; [rewrite app_nil_r; reflexivity|].
      assert (Hj : i < j < n) by (apply Hl; simpl; auto). rewrite edge_time_ok by lia. cbn [bind]. rewrite IH by (auto; intros; apply Hl; simpl; auto).
      unfold adjb at 2. destruct (Z.eqb_spec (time_of i j) max); cbn [negb]; [reflexivity|]. cbn [map].
      pose proof (edge_verts i j (time_of i j) (proj1 Hj)) as E. unfold simplex_of in *. cbn [verts] in E. rewrite E, <- app_assoc. reflexivity. }
    change (flat_map (fun i => Simplex [i] 0 :: edges_from i) (seq 0 n)) with ([] ++ flat_map (fun i => Simplex [i] 0 :: edges_from i) (seq 0 n)).
    assert (G : forall l acc, (forall i, In i l -> i < n) ->
      foldM (fun acc i => foldM (fun acc j => let* t := edge_time N max R D (map m (seq 0 N)) i j in
               Ok (if (t =? max)%Z then acc else acc ++ [simplex_of [i; j] t])) (seq (S i) (n - S i)) (acc ++ [simplex_vertex i 0])) l acc =
      Ok (acc ++ flat_map (fun i => Simplex [i] 0 :: edges_from i) l)).
    { induction l as [|i l IH]; intros acc Hl; cbn [foldM flat_map]; [rewrite app_nil_r; reflexivity|].
      assert (Hi : i < n) by (apply Hl; simpl; auto). rewrite Inner; [|exact Hi|intros j Hj; apply in_seq in Hj; lia]. cbn [bind].
      rewrite IH by (intros; apply Hl; simpl; auto). unfold edges_from. rewrite <- !app_assoc. reflexivity. }
    apply G. intros i Hi. apply in_seq in Hi. lia.
  Qed.

  Lemma graph_list_In s : In s graph_list <->
    (exists v, v < n /\ s = Simplex [v] 0) \/ (exists u v, u < v < n /\ adjb u v = true /\ s = Simplex [v; u] (time_of u v)).
  Proof.
    unfold graph_list. rewrite in_flat_map. split.
    - intros (i & Hi & H). apply in_seq in Hi. destruct H as [<-|H]; [left; exists i; split; [lia|reflexivity]|].
      right. apply in_map_iff in H. destruct H as (j & <- & Hj). apply filter_In in Hj. destruct Hj as [Hj A]. apply in_seq in Hj. exists i, j. refine (conj _ (conj A eq_refl)). lia.
    - intros [(v & Hv & ->)|(u & v & Hv & A & ->)].
      + exists v. split; [apply in_seq; lia|left; reflexivity].
      + exists u. split; [apply in_seq; lia|right]. apply in_map_iff. exists v. split; [reflexivity|]. apply filter_In. split; [apply in_seq; lia|exact A].
  Qed.

  Lemma graph_list_NoDup : NoDup (map verts graph_list).
  Proof.
    unfold graph_list.
    assert (F : forall l, NoDup l -> NoDup (map verts (flat_map (fun i => Simplex [i] 0 :: edges_from i) l)) /\
      forall vs, In vs (map verts (flat_map (fun i => Simplex [i] 0 :: edges_from i) l)) -> exists i, In i l /\ (vs = [i] \/ exists j, vs = [j; i])).
    { induction l as [|i l IH]; intro Nl; [split; [constructor|easy]|]. inversion Nl as [|? ? N1 N2]; subst. destruct (IH N2) as [I1 I2].
      change (flat_map (fun i => Simplex [i] 0 :: edges_from i) (i :: l)) with ((Simplex [i] 0 :: edges_from i) ++ flat_map (fun i => Simplex [i] 0 :: edges_from i) l).
      rewrite map_app. assert (E : map verts (Simplex [i] 0 :: edges_from i) = [i] :: map (fun j => [j; i]) (filter (fun j => adjb i j) (seq (S i) (n - S i)))).
      { cbn [map]. f_equal. unfold edges_from. rewrite map_map. reflexivity. }
      rewrite E. split.
      - apply NoDup_app_intro; [|exact I1|].
        + constructor; [intro H; apply in_map_iff in H; destruct H as (j & X & _); discriminate|].
          apply FinFun.Injective_map_NoDup; [intros x y X; injection X; auto|]. apply NoDup_filter, seq_NoDup.
        + intros vs H1 H2. apply I2 in H2. destruct H2 as (j & Hj & X). destruct H1 as [<-|H1].
          * destruct X as [X|(k & X)]; [injection X as ->; contradiction|discriminate].
          * apply in_map_iff in H1. destruct H1 as (k & <- & _). destruct X as [X|(k' & X)]; [discriminate|injection X as _ ->; contradiction].
      - intros vs H. apply in_app_or in H. destruct H as [[<-|H]|H].
        + exists i. simpl. auto.
        + apply in_map_iff in H. destruct H as (j & <- & _). exists i. simpl. eauto.
        + destruct (I2 vs H) as (j & Hj & X). exists j. simpl. auto. }
    apply F, seq_NoDup.
  Qed.
End Edges.

(** ** C80 *)
(** The vertices are the positions of the landmarks.  A set of at most
    [dimension + 1] of them is a simplex if each two of them have a witness; the data
    of a simplex is the largest value of its edges. *)
Theorem C80_witness : forall dist N order ne max dim landmarks dimension nu R,
  (forall l, Permutation (order l) l) -> nth_element_contract ne ->
  0 < N -> landmarks <> [] -> (forall l, In l landmarks -> l < N) -> nu <= length landmarks ->
  (forall l k, In l landmarks -> k < N -> (0 <= dist l k < max)%Z) ->
  exists m wt K,
    (forall k, k < N -> nu_smallest dist landmarks nu k (m k)) /\
    (forall u v, u < v < length landmarks -> joined dist N landmarks R m u v -> edge_value dist N landmarks R m u v (wt u v)) /\
    buildWitnessComplex dist N order ne max dim landmarks dimension nu R = Ok K /\ reachable K /\
    (forall vs, NoDup vs -> vs <> [] ->
       (has (by_index K) vs <->
        (forall v, In v vs -> v < length landmarks) /\
        length vs <= S (if dimension =? 0 then dim + 1 else dimension) /\
        forall u v, In u vs -> In v vs -> u < v -> joined dist N landmarks R m u v)) /\
    (forall s, In s (by_index K) -> length (verts s) = 1 -> data s = 0%Z) /\
    (forall s, In s (by_index K) -> 2 <= length (verts s) -> is_diameter wt (verts s) (data s)) /\
    closed (by_index K) /\ filtration_order (by_index K) /\ by_data (by_index K).
Proof.
  intros dist N order ne max dim landmarks dimension nu R Ho Hne HN Hl Hlt Hnu Hd.
  destruct (smallest_ok ne dist N landmarks nu Hne Hnu) as (m & Em & Hm).
  assert (Hmax : forall l k, In l landmarks -> k < N -> (dist l k < max)%Z) by (intros l k H1 H2; apply Hd; auto).
  set (adj := adjb dist N landmarks R max m). set (wt := time_of dist N landmarks R max m).
  assert (Ha : forall u v, u < length landmarks -> v < length landmarks -> (adj u v = true <-> joined dist N landmarks R m u v)).
  { intros u v. apply adjb_spec. exact Hmax. }
  destruct (graph_complex (length landmarks) adj wt (graph_list dist N landmarks R max m)
              (graph_list_In dist N landmarks R max m) (graph_list_NoDup dist N landmarks R max m) order
              (if dimension =? 0 then dim + 1 else dimension) Ho) as (K & L & EK & EL & H).
  { intros u v Huv A. apply Ha in A; [|lia|lia]. destruct (time_spec dist N landmarks R max m Hmax u v ltac:(lia) ltac:(lia)) as [T _].
    destruct (T A) as [[(k & [Hk _] & E) _] _]. fold wt in E. rewrite <- E. unfold witness_value.
    assert (Hu : u < length landmarks) by lia. pose proof (Hd (nth u landmarks 0) k (nth_In landmarks 0 Hu) Hk). lia. }
  exists m, wt, (k_sort data_cmp (assignMaximumWeight L 1)). cbv zeta in H. destruct H as (H1 & H2 & H3).
  refine (conj _ (conj _ (conj _ (conj H1 (conj _ H3))))).
  - intros k _. apply Hm.
  - intros u v Huv J. apply (proj1 (time_spec dist N landmarks R max m Hmax u v ltac:(lia) ltac:(lia)) J).
  - unfold buildWitnessComplex.
    assert (E : (length landmarks =? 0) || (N =? 0) = false).
    { apply orb_false_iff. split; apply Nat.eqb_neq; [destruct landmarks; [easy|simpl; lia]|lia]. }
    rewrite E, (landmark_matrix_ok dist N landmarks Hlt). cbn [bind]. rewrite Em. cbn [bind].
    rewrite (simplices_ok dist N landmarks R max m). cbn [bind]. rewrite EK. cbn [bind]. rewrite EL. reflexivity.
  - intros vs Nv Hv. rewrite (H2 vs Nv Hv). unfold pairwise. split; intros (A & B & C); refine (conj A (conj B _)); intros u v Hu Hv' Huv; apply Ha; auto.
Qed.

(** No landmarks or no points: the empty complex. *)
Theorem C80_empty : forall dist N order ne max dim landmarks dimension nu R, N = 0 \/ landmarks = [] ->
  buildWitnessComplex dist N order ne max dim landmarks dimension nu R = Ok k_empty.
Proof.
  intros dist N order ne max dim landmarks dimension nu R H. unfold buildWitnessComplex.
  assert (E : (length landmarks =? 0) || (N =? 0) = true) by (destruct H as [-> | ->]; [apply orb_true_r|reflexivity]). rewrite E. reflexivity.
Qed.

(** FINDING: with [nu] one more than the number of landmarks the result is an
    exception (in particular, for a single landmark and the default parameters), and
    with larger [nu] the program is undefined. *)
Theorem C80_nu : forall dist N order ne max dim landmarks dimension nu R,
  0 < N -> landmarks <> [] -> (forall l, In l landmarks -> l < N) -> length landmarks < nu ->
  buildWitnessComplex dist N order ne max dim landmarks dimension nu R =
    if nu =? S (length landmarks) then Throw OutOfRange else UB.
Proof.
  intros dist N order ne max dim landmarks dimension nu R HN Hl Hlt Hnu. unfold buildWitnessComplex.
  assert (E : (length landmarks =? 0) || (N =? 0) = false).
  { apply orb_false_iff. split; apply Nat.eqb_neq; [destruct landmarks; [easy|simpl; lia]|lia]. }
  rewrite E, (landmark_matrix_ok dist N landmarks Hlt). cbn [bind]. unfold smallest_of.
  destruct (Nat.eqb_spec nu 0); [lia|]. destruct N as [|N]; [lia|]. cbn [seq foldM].
  unfold get_ at 1. cbn [map nth_error bind]. unfold column_smallest. rewrite map_length.
  destruct (Nat.eqb_spec nu (S (length landmarks))) as [->|Hn].
  - replace (S (length landmarks) - 1) with (length landmarks) by lia. rewrite Nat.ltb_irrefl. unfold at_.
    rewrite (proj2 (nth_error_None _ _)) by (rewrite map_length; lia). reflexivity.
  - destruct (Nat.ltb_spec (length landmarks) (nu - 1)); [reflexivity|lia].
Qed.

(** a landmark that is no point of the container is read out of bounds *)
Theorem C80_missing_landmark : forall dist N order ne max dim landmarks dimension nu R,
  0 < N -> (exists l, In l landmarks /\ N <= l) ->
  buildWitnessComplex dist N order ne max dim landmarks dimension nu R = UB.
Proof.
  intros dist N order ne max dim landmarks dimension nu R HN (l & Hl & Hge). unfold buildWitnessComplex.
  assert (E : (length landmarks =? 0) || (N =? 0) = false).
  { apply orb_false_iff. split; apply Nat.eqb_neq; [destruct landmarks; [easy|simpl; lia]|lia]. }
  rewrite E. assert (Q : landmark_matrix dist N landmarks = UB); [|rewrite Q; reflexivity].
  unfold landmark_matrix. destruct N as [|N]; [lia|]. cbn [seq foldM].
  assert (G : forall acc, foldM (fun row i => if i <? S N then Ok (row ++ [dist i 0]) else UB) landmarks acc = UB).
  { clear E. induction landmarks as [|a t IH]; intro acc; [easy|]. cbn [foldM]. destruct (Nat.ltb_spec a (S N)) as [Ha|Ha]; [|reflexivity].
    cbn [bind]. apply IH. destruct Hl as [->|Hl]; [lia|exact Hl]. }
  unfold landmark_row at 1. rewrite G. reflexivity.
Qed.

(** FINDING: the documentation says that the data of a simplex is the smallest
    threshold [R] for which it appears.  It is not: the edge of two landmarks has data
    3 but appears for [R = 0]. *)
Theorem C80_threshold_refuted : exists dist N landmarks nu R max K s,
  buildWitnessComplex dist N (fun l => l) (fun l _ => cpp_sort Z.ltb l) max 1 landmarks 1 nu R = Ok K /\
  In s (by_index K) /\ (R < data s)%Z.
Proof.
  exists (fun a b => Z.abs (nth a [0; 3; 6]%Z 0%Z - nth b [0; 3; 6]%Z 0%Z)%Z), 3, [0; 2], 2, 0%Z, 1000%Z. eexists. exists (Simplex [1; 0] 3).
  split; [vm_compute; reflexivity|]. vm_compute. auto.
Qed.

(** five points on a line, three landmarks: the outer landmarks have no witness *)
Definition line_dist (a b : nat) : Z := Z.abs (nth a [0; 2; 4; 8; 10]%Z 0%Z - nth b [0; 2; 4; 8; 10]%Z 0%Z)%Z.
Example C80_example :
  (exists K, buildWitnessComplex line_dist 5 (@rev _) (fun l _ => cpp_sort Z.ltb l) 1000 1 [0; 2; 4] 0 2 0 = Ok K /\
    map (fun s => (verts s, data s)) (by_index K) = [([0], 0%Z); ([1], 0%Z); ([2], 0%Z); ([1; 0], 2%Z); ([2; 1], 4%Z)]) /\
  (exists K, buildWitnessComplex line_dist 5 (@rev _) (fun l _ => cpp_sort Z.ltb l) 1000 1 [0; 2; 4] 0 2 3 = Ok K /\
    map (fun s => (verts s, data s)) (by_index K) =
      [([0], 0%Z); ([1], 0%Z); ([2], 0%Z); ([1; 0], 2%Z); ([2; 1], 4%Z); ([2; 0], 6%Z); ([2; 1; 0], 6%Z)]).
Proof. split; (eexists; split; [vm_compute; reflexivity|reflexivity]). Qed.

(** ** C81: landmarks *)
(** the distance of [i] to the nearest of [l] *)
Definition distance_to (dist : nat -> nat -> Z) (l : list nat) (i : nat) (x : Z) : Prop :=
  (exists a, In a l /\ dist i a = x) /\ forall a, In a l -> (x <= dist i a)%Z.

Section Landmarks.
  Variables (dist : nat -> nat -> Z) (N : nat) (lowest max : Z).
  Hypothesis Hd : forall a b, a < N -> b < N -> (lowest < dist a b <= max)%Z.

  Lemma nearest_spec l i : i < N -> l <> [] -> (forall a, In a l -> a < N) -> distance_to dist l i (nearest_landmark dist max l i).
  Proof.
    intros Hi Hne Hl. unfold nearest_landmark.
    assert (G : forall t x, (forall a, In a t -> a < N) -> let r := fold_left (fun m a => Z.min m (dist i a)) t x in
      (r <= x)%Z /\ (r = x \/ exists a, In a t /\ dist i a = r) /\ forall a, In a t -> (r <= dist i a)%Z).
    { induction t as [|a t IH]; intros x Ht; cbn [fold_left]; cbv zeta; [split; [lia|split; [auto|easy]]|].
      destruct (IH (Z.min x (dist i a))) as (I1 & I2 & I3); [intros; apply Ht; simpl; auto|]. split; [lia|]. split.
      - destruct I2 as [E|(b & Hb & E)]; [|right; exists b; simpl; auto].
        destruct (Z.min_spec x (dist i a)) as [[_ F]|[_ F]]; rewrite F in E at 2; [auto|right; exists a; simpl; auto].
      - intros b [<-|Hb]; [lia|auto]. }
    destruct (G l max Hl) as (G1 & G2 & G3). split; [|exact G3].
    destruct G2 as [E|H]; [|exact H]. destruct l as [|a l]; [easy|]. exists a. split; [left; reflexivity|].
    specialize (G3 a (or_introl eq_refl)). cbv zeta in *. rewrite E in *. specialize (Hd i a Hi (Hl a (or_introl eq_refl))). lia.
  Qed.

  (** the smallest point at the largest distance *)
  Lemma next_spec l : 0 < N -> l <> [] -> (forall a, In a l -> a < N) ->
    let x := next_landmark dist N lowest max l in
    x < N /\ forall i, i < N -> (nearest_landmark dist max l i <= nearest_landmark dist max l x)%Z /\
      (i < x -> (nearest_landmark dist max l i < nearest_landmark dist max l x)%Z).
  Proof.
    intros HN Hne Hl. cbv zeta. unfold next_landmark. set (f := nearest_landmark dist max l).
    assert (Hlow : forall i, i < N -> (lowest < f i)%Z).
    { intros i Hi. destruct (nearest_spec l i Hi Hne Hl) as [(a & Ha & E) _]. fold f in E. rewrite <- E. apply Hd; auto. }
    assert (G : forall k, k <= N -> let r := fold_left (fun r i => if (fst r <? f i)%Z then (f i, i) else r) (seq 0 k) (lowest, 0) in
      (k = 0 -> fst r = lowest) /\ (0 < k -> snd r < k /\ fst r = f (snd r) /\
      forall i, i < k -> (f i <= f (snd r))%Z /\ (i < snd r -> (f i < f (snd r))%Z))).
    { induction k as [|k IH]; intro Hk; cbv zeta; [split; [reflexivity|lia]|]. rewrite seq_S, fold_left_app. cbn [plus fold_left].
      destruct IH as [I0 I1]; [lia|]. cbv zeta in *. set (r := fold_left _ (seq 0 k) (lowest, 0)) in *. split; [lia|]. intros _.
      destruct (Nat.eq_dec k 0) as [->|Hk0].
      - rewrite (I0 eq_refl). specialize (Hlow 0 ltac:(lia)). destruct (Z.ltb_spec lowest (f 0)); [|lia]. cbn [fst snd].
        split; [lia|]. split; [reflexivity|]. intros i Hi. replace i with 0 by lia. split; lia.
      - destruct (I1 ltac:(lia)) as (J1 & J2 & J3). destruct (Z.ltb_spec (fst r) (f k)) as [Hlt|Hge]; cbn [fst snd].
        + split; [lia|]. split; [reflexivity|]. intros i Hi. destruct (Nat.eq_dec i k) as [->|Hik]; [split; lia|].
          destruct (J3 i ltac:(lia)) as [J4 _]. split; [lia|]. lia.
        + split; [lia|]. split; [exact J2|]. intros i Hi. destruct (Nat.eq_dec i k) as [->|Hik]; [split; [lia|]|]; [intro; lia|].
          apply J3. lia. }
    destruct (G N (le_n N)) as [_ H]. destruct (H HN) as (H1 & _ & H3). split; [exact H1|exact H3].
  Qed.

  (** what holds of the landmarks selected so far *)
  Definition selected (l : list nat) : Prop :=
    forall k, 0 < k < length l -> forall i, i < N ->
      let p := firstn k l in let x := nth k l 0 in
      (nearest_landmark dist max p i <= nearest_landmark dist max p x)%Z /\
      (i < x -> (nearest_landmark dist max p i < nearest_landmark dist max p x)%Z).

  Lemma add_spec count : forall l, 0 < N -> l <> [] -> (forall a, In a l -> a < N) -> selected l ->
    exists t, add_landmarks dist N lowest max count l = l ++ t /\ length t = count /\ (forall a, In a (l ++ t) -> a < N) /\ selected (l ++ t).
  Proof.
    induction count as [|c IH]; intros l HN Hne Hl Hs; cbn [add_landmarks].
    - exists []. rewrite app_nil_r. auto.
    - destruct (next_spec l HN Hne Hl) as [N1 N2]. set (x := next_landmark dist N lowest max l) in *.
      destruct (IH (l ++ [x])) as (t & E & Lt & Ht & St); auto.
      + destruct l; discriminate.
      + intros a Ha. apply in_app_or in Ha. destruct Ha as [Ha|[<-|[]]]; auto.
      + intros k Hk i Hi. rewrite app_length in Hk. cbn [length] in Hk. destruct (Nat.eq_dec k (length l)) as [->|Hkl].
        * rewrite firstn_app, Nat.sub_diag, firstn_all. cbn [firstn]. rewrite app_nil_r, app_nth2, Nat.sub_diag by lia. cbn [nth]. apply N2; auto.
        * rewrite firstn_app. replace (k - length l) with 0 by lia. cbn [firstn]. rewrite app_nil_r, app_nth1 by lia. apply Hs; [lia|exact Hi].
      + exists (x :: t). rewrite <- app_assoc in E, Ht, St. cbn [app] in *. split; [exact E|]. split; [simpl; lia|]. auto.
  Qed.

  Lemma generated first n : n <= N -> first < N -> exists l,
    generateMaxMinLandmarks dist N lowest max first n = Ok l /\ length l = Nat.max 1 n /\ nth 0 l 0 = first /\
    (forall a, In a l -> a < N) /\ selected l.
  Proof.
    intros Hn Hf. unfold generateMaxMinLandmarks. destruct (Nat.ltb_spec N n); [lia|].
    destruct (add_spec (n - 1) [first]) as (t & E & Lt & Ht & St); [lia|discriminate|intros a [<-|[]]; auto|intros k Hk; simpl in Hk; lia|].
    exists ([first] ++ t). rewrite E. refine (conj eq_refl (conj _ (conj eq_refl (conj Ht St)))). cbn [app length]. lia.
  Qed.
End Landmarks.

Lemma firstn_In {A} k (l : list A) a : In a (firstn k l) -> In a l.
Proof. intro H. rewrite <- (firstn_skipn k l). apply in_or_app. auto. Qed.

(** Each landmark after the first is the smallest point whose distance to the
    landmarks before it is largest. *)
Theorem C81_maxmin : forall dist N lowest max first n, n <= N -> first < N ->
  (forall a b, a < N -> b < N -> (lowest < dist a b <= max)%Z) ->
  exists l, generateMaxMinLandmarks dist N lowest max first n = Ok l /\ length l = Nat.max 1 n /\ nth 0 l 0 = first /\
    (forall a, In a l -> a < N) /\
    forall k, 0 < k < length l -> exists rho, distance_to dist (firstn k l) (nth k l 0) rho /\
      forall i, i < N -> exists x, distance_to dist (firstn k l) i x /\ (x <= rho)%Z /\ (i < nth k l 0 -> (x < rho)%Z).
Proof.
  intros dist N lowest max first n Hn Hf Hd. destruct (generated dist N lowest max Hd first n Hn Hf) as (l & E & L & F & Hl & S).
  exists l. refine (conj E (conj L (conj F (conj Hl _)))). intros k Hk.
  assert (Hp : firstn k l <> []) by (destruct l, k; simpl in *; try lia; discriminate).
  assert (Hq : forall a, In a (firstn k l) -> a < N) by (intros a Ha; apply Hl, (firstn_In _ _ _ Ha)).
  assert (Hx : nth k l 0 < N) by (apply Hl, nth_In; lia).
  exists (nearest_landmark dist max (firstn k l) (nth k l 0)). split; [apply (nearest_spec dist N lowest max Hd); auto|].
  intros i Hi. exists (nearest_landmark dist max (firstn k l) i). split; [apply (nearest_spec dist N lowest max Hd); auto|].
  apply (S k Hk i Hi).
Qed.

(** The landmarks are a cover and a packing: there is [rho] such that every point has
    distance at most [rho] to one of the landmarks other than the last one, and each
    landmark has at least distance [rho] to those before it. *)
Theorem C81_cover_and_packing : forall dist N lowest max first n, 2 <= n <= N -> first < N ->
  (forall a b, a < N -> b < N -> (lowest < dist a b <= max)%Z) ->
  exists l rho, generateMaxMinLandmarks dist N lowest max first n = Ok l /\ length l = n /\
    (forall i, i < N -> exists a, In a (firstn (n - 1) l) /\ (dist i a <= rho)%Z) /\
    (forall a b, a < b < n -> (rho <= dist (nth b l 0%nat) (nth a l 0%nat))%Z).
Proof.
  intros dist N lowest max first n Hn Hf Hd. destruct (C81_maxmin dist N lowest max first n ltac:(lia) Hf Hd) as (l & E & L & F & Hl & S).
  replace (Nat.max 1 n) with n in L by lia.
  destruct (S (n - 1) ltac:(lia)) as (rho & R1 & R2). exists l, rho. refine (conj E (conj L (conj _ _))).
  - intros i Hi. destruct (R2 i Hi) as (x & [(a & Ha & Ea) _] & Hx & _). exists a. split; [exact Ha|lia].
  - intros a b Hab. set (z := nth (n - 1) l 0) in *. assert (Hz : z < N) by (apply Hl, nth_In; lia).
    destruct (S b ltac:(lia)) as (rb & [_ B1] & B2). destruct (B2 z Hz) as (x & [(c & Hc & Ec) _] & Hx & _).
    assert (Hin : forall j k, j < k <= n -> In (nth j l 0) (firstn k l)).
    { intros j k Hjk. rewrite <- (firstn_skipn k l) at 1. rewrite app_nth1 by (rewrite firstn_length; lia). apply nth_In. rewrite firstn_length. lia. }
    assert (Hc' : In c (firstn (n - 1) l)).
    { replace (firstn b l) with (firstn b (firstn (n - 1) l)) in Hc by (rewrite firstn_firstn; f_equal; lia). apply (firstn_In _ _ _ Hc). }
    destruct R1 as [_ R1]. specialize (R1 c Hc'). specialize (B1 (nth a l 0) (Hin a b ltac:(lia))). lia.
Qed.

(** For a metric, the cover is at most twice as large as the best one: whatever
    [n - 1] points are chosen as centres, some point has distance at least
    [rho / 2] to all of them. *)
Lemma duplicate_dec (l : list nat) : NoDup l \/ exists i j, i < j < length l /\ nth i l 0 = nth j l 0.
Proof.
  induction l as [|a l IH]; [left; constructor|]. destruct (in_dec Nat.eq_dec a l) as [H|H].
  - right. destruct (In_nth l a 0 H) as (j & Hj & E). exists 0, (S j). simpl. split; [lia|auto].
  - destruct IH as [IH|(i & j & Hij & E)]; [left; constructor; auto|]. right. exists (S i), (S j). simpl. split; [lia|exact E].
Qed.

Theorem C81_two_approximation : forall dist N lowest max first n, 2 <= n <= N -> first < N ->
  (forall a b, a < N -> b < N -> (lowest < dist a b <= max)%Z) ->
  (forall a b, a < N -> b < N -> dist a b = dist b a) ->
  (forall a b c, a < N -> b < N -> c < N -> (dist a c <= dist a b + dist b c)%Z) ->
  exists l rho, generateMaxMinLandmarks dist N lowest max first n = Ok l /\
    (forall i, i < N -> exists a, In a (firstn (n - 1) l) /\ (dist i a <= rho)%Z) /\
    (forall centres, length centres = n - 1 -> (forall c, In c centres -> c < N) ->
       exists i, i < N /\ forall c, In c centres -> (rho <= 2 * dist i c)%Z).
Proof.
  intros dist N lowest max first n Hn Hf Hd Hsym Htri.
  destruct (C81_cover_and_packing dist N lowest max first n Hn Hf Hd) as (l & rho & E & L & H1 & H2).
  destruct (C81_maxmin dist N lowest max first n ltac:(lia) Hf Hd) as (l' & E' & _ & _ & Hl & _). rewrite E in E'. injection E' as <-.
  exists l, rho. refine (conj E (conj H1 _)). intros cs Lc Hc.
  (** the centre that is too close to a landmark, if there is one *)
  set (near := fun a => find (fun c => (2 * dist a c <? rho)%Z) cs).
  destruct (existsb (fun a => match near a with None => true | _ => false end) l) eqn:X.
  - apply existsb_exists in X. destruct X as (a & Ha & X). exists a. split; [auto|]. intros c Hcc.
    destruct (near a) eqn:Y; [discriminate|]. pose proof (find_none _ _ Y c Hcc) as Z. cbv beta in Z. apply Z.ltb_ge in Z. lia.
  - exfalso. set (f := fun a => match near a with Some c => c | None => 0 end).
    assert (Hf' : forall a, In a l -> In (f a) cs /\ (2 * dist a (f a) < rho)%Z).
    { intros a Ha. unfold f. destruct (near a) as [c|] eqn:Y.
      - apply find_some in Y. destruct Y as [Y1 Y2]. apply Z.ltb_lt in Y2. auto.
      - rewrite <- not_true_iff_false in X. exfalso. apply X. apply existsb_exists. exists a. rewrite Y. auto. }
    destruct (duplicate_dec (map f l)) as [ND|(i & j & Hij & Q)].
    + assert (length (map f l) <= length cs); [|rewrite map_length in *; lia].
      apply NoDup_incl_length; [exact ND|]. intros c Hcc. apply in_map_iff in Hcc. destruct Hcc as (a & <- & Ha). apply Hf'. exact Ha.
    + rewrite map_length in Hij. assert (Q' : f (nth i l 0) = f (nth j l 0)).
      { rewrite (nth_indep (map f l) 0 (f 0)) in Q by (rewrite map_length; lia). rewrite (nth_indep (map f l) 0 (f 0)) in Q by (rewrite map_length; lia).
        rewrite !map_nth in Q. exact Q. }
      assert (Ii : In (nth i l 0) l) by (apply nth_In; lia). assert (Ij : In (nth j l 0) l) by (apply nth_In; lia).
      destruct (Hf' _ Ii) as [A1 A2]. destruct (Hf' _ Ij) as [B1 B2]. rewrite Q' in A2.
      specialize (H2 i j ltac:(lia)). rewrite (Hsym (nth i l 0)) in A2 by auto.
      pose proof (Htri (nth j l 0) (f (nth j l 0)) (nth i l 0) (Hl _ Ij) (Hc _ B1) (Hl _ Ii)). lia.
Qed.

(** Different points get selected if they have positive distances. *)
Theorem C81_distinct : forall dist N lowest max first n, n <= N -> first < N ->
  (forall a b, a < N -> b < N -> (lowest < dist a b <= max)%Z) ->
  (forall a b, a < N -> b < N -> (dist a b <= 0)%Z <-> a = b) ->
  exists l, generateMaxMinLandmarks dist N lowest max first n = Ok l /\ NoDup l.
Proof.
  intros dist N lowest max first n Hn Hf Hd Hpos. destruct (C81_maxmin dist N lowest max first n Hn Hf Hd) as (l & E & L & F & Hl & S).
  exists l. split; [exact E|]. destruct (duplicate_dec l) as [H|(i & j & Hij & Q)]; [exact H|exfalso].
  destruct (S j ltac:(lia)) as (rho & [_ R1] & R2). assert (Hj : nth j l 0 < N) by (apply Hl, nth_In; lia).
  assert (In (nth i l 0) (firstn j l)).
  { rewrite <- (firstn_skipn j l) at 1. rewrite app_nth1 by (rewrite firstn_length; lia). apply nth_In. rewrite firstn_length. lia. }
  specialize (R1 _ H). rewrite Q in R1. pose proof (proj2 (Hpos (nth j l 0) (nth j l 0) Hj Hj) eq_refl) as Z.
  (** some point has not been selected before *)
  assert (G : exists p, p < N /\ ~ In p (firstn j l)).
  { destruct (existsb (fun p => negb (existsb (Nat.eqb p) (firstn j l))) (seq 0 N)) eqn:X.
    - apply existsb_exists in X. destruct X as (p & Hp & X). apply in_seq in Hp. exists p. split; [lia|]. intro Hi.
      apply negb_true_iff in X. rewrite <- not_true_iff_false in X. apply X. apply existsb_exists. exists p. split; [exact Hi|apply Nat.eqb_refl].
    - exfalso. assert (length (seq 0 N) <= length (firstn j l)).
      { apply NoDup_incl_length; [apply seq_NoDup|]. intros p Hp. destruct (in_dec Nat.eq_dec p (firstn j l)) as [I|I]; [exact I|].
        rewrite <- not_true_iff_false in X. exfalso. apply X. apply existsb_exists. exists p. split; [exact Hp|]. apply negb_true_iff, not_true_iff_false.
        intro Y. apply existsb_exists in Y. destruct Y as (q & Hq & Y). apply Nat.eqb_eq in Y. subst q. contradiction. }
      rewrite seq_length, firstn_length in H0. lia. }
  destruct G as (p & Hp & Hnot). destruct (R2 p Hp) as (x & [(a & Ha & Ea) _] & Hx & _).
  assert (a < N) by (apply Hl, (firstn_In _ _ _ Ha)).
  assert (dist p a <= 0)%Z by lia. apply Hpos in H1; auto. subst a. contradiction.
Qed.

(** FINDINGS: a landmark is returned even if none is asked for; for an empty
    container it is an arbitrary number. *)
Theorem C81_none : forall dist N lowest max first, generateMaxMinLandmarks dist N lowest max first 0 = Ok [first].
Proof. reflexivity. Qed.
Theorem C81_too_many : forall dist N lowest max first n, N < n ->
  generateMaxMinLandmarks dist N lowest max first n = Throw OutOfRange.
Proof. intros dist N lowest max first n H. unfold generateMaxMinLandmarks. apply Nat.ltb_lt in H. rewrite H. reflexivity. Qed.

(** Random landmarks: [k] different indices, if there are that many. *)
Theorem C81_random : forall n shuffled k, Permutation shuffled (seq 0 n) ->
  (k <= n -> exists l, generateRandomLandmarks shuffled k = Ok l /\ length l = k /\ NoDup l /\ forall a, In a l -> a < n) /\
  (n < k -> generateRandomLandmarks shuffled k = UB).
Proof.
  intros n sh k P. pose proof (Permutation_length P) as L. rewrite seq_length in L. unfold generateRandomLandmarks. rewrite L. split; intro H.
  - destruct (Nat.ltb_spec n k); [lia|]. exists (firstn k sh). refine (conj eq_refl (conj _ (conj _ _))).
    + rewrite firstn_length. lia.
    + assert (ND : NoDup sh) by (apply (Permutation_NoDup (Permutation_sym P)), seq_NoDup). rewrite <- (firstn_skipn k sh) in ND. apply NoDup_app_l in ND. exact ND.
    + intros a Ha. apply firstn_In in Ha. apply (Permutation_in _ P) in Ha. apply in_seq in Ha. lia.
  - apply Nat.ltb_lt in H. rewrite H. reflexivity.
Qed.

Example C81_example :
  generateMaxMinLandmarks line_dist 5 (-1000) 1000 1 4 = Ok [1; 4; 0; 2] /\
  generateMaxMinLandmarks (fun _ _ => 0%Z) 3 (-1000) 1000 1 3 = Ok [1; 0; 0].
Proof. split; vm_compute; reflexivity. Qed.

Print Assumptions C80_witness.
Print Assumptions C80_empty.
Print Assumptions C80_nu.
Print Assumptions C80_missing_landmark.
Print Assumptions C80_threshold_refuted.
Print Assumptions C81_maxmin.
Print Assumptions C81_cover_and_packing.
Print Assumptions C81_two_approximation.
Print Assumptions C81_distinct.
Print Assumptions C81_none.
Print Assumptions C81_too_many.
Print Assumptions C81_random.
