(** * C71: Vietoris-Rips complexes; C72: searching neighbours *)

From Coq Require Import List Arith Bool ZArith Lia Permutation Sorted.
From Verif Require Import Base BaseFacts Simplex SimplexFacts SpecComplex Complex ComplexFacts FiltrationFacts History Subcomplex SubcomplexFacts
  Quotient PropertiesComplex HomologyFacts PropertiesQuotient PairingFacts FloydFacts SpecRips Rips RipsFacts PropertiesRips PropertiesCombine DowkerFacts PropertiesDowker VietorisRips.
Import ListNotations.

(** ** searching *)
Lemma radius_row_eq n dist radius i :
  radius_row n dist radius i =
  (filter (fun j => (dist i j <? radius)%Z) (seq 0 n), map (dist i) (filter (fun j => (dist i j <? radius)%Z) (seq 0 n))).
Proof.
  unfold radius_row. assert (G : forall l a b, fold_left (fun r j => if (dist i j <? radius)%Z then (fst r ++ [j], snd r ++ [dist i j]) else r) l (a, b) =
    (a ++ filter (fun j => (dist i j <? radius)%Z) l, b ++ map (dist i) (filter (fun j => (dist i j <? radius)%Z) l))).
  { induction l as [|j l IH]; intros a b; cbn [fold_left filter map]; [rewrite !app_nil_r; reflexivity|].
    destruct (dist i j <? radius)%Z; cbn [fst snd]; rewrite IH; [|reflexivity]. cbn [map]. rewrite <- !app_assoc. reflexivity. }
  apply G.
Qed.

(** Exactly the points within the radius, in ascending order, with their distances. *)
Theorem C72_radius : forall n dist radius i, i < n ->
  exists row, nth_error (fst (radiusSearch n dist radius)) i = Some row /\
    nth_error (snd (radiusSearch n dist radius)) i = Some (map (dist i) row) /\
    StronglySorted lt row /\
    forall j, In j row <-> j < n /\ (dist i j < radius)%Z.
Proof.
  intros n dist radius i Hi. unfold radiusSearch. cbn [fst snd]. exists (fst (radius_row n dist radius i)).
  assert (N : forall B (f : nat -> B), nth_error (map f (seq 0 n)) i = Some (f i)).
  { intros B f. rewrite (map_nth_error f i (seq 0 n) (d := i)); [reflexivity|]. rewrite (nth_error_nth' _ 0) by (rewrite seq_length; lia). rewrite seq_nth by lia. reflexivity. }
  rewrite !N, radius_row_eq. cbn [fst snd]. refine (conj eq_refl (conj eq_refl (conj _ _))).
  - apply StronglySorted_filter. apply seq_sorted.
  - intro j. rewrite filter_In, in_seq, Z.ltb_lt. lia.
Qed.

Lemma foldM_rows {A B} (f : nat -> outcome (A * B)) (g : nat -> A * B) l : (forall i, In i l -> f i = Ok (g i)) -> forall a b,
  foldM (fun acc i => let* r := f i in Ok (fst acc ++ [fst r], snd acc ++ [snd r])) l (a, b) = Ok (a ++ map (fun i => fst (g i)) l, b ++ map (fun i => snd (g i)) l).
Proof.
  induction l as [|i l IH]; intros H a b; cbn [foldM map]; [rewrite !app_nil_r; reflexivity|].
  rewrite (H i (or_introl eq_refl)). cbn [bind fst snd]. rewrite IH by (intros; apply H; simpl; auto). rewrite <- !app_assoc. reflexivity.
Qed.

Lemma SSle_perm (l l' : list Z) : StronglySorted Z.le l -> StronglySorted Z.le l' -> Permutation l l' -> l = l'.
Proof.
  intros H. revert l'. induction H as [|x l HS IH HF]; intros l' H' P.
  - apply Permutation_nil in P. auto.
  - destruct l' as [|y l']; [apply Permutation_sym, Permutation_nil in P; discriminate|]. inversion H' as [|? ? HS' HF']; subst. rewrite Forall_forall in *.
    assert (E : x = y).
    { assert (Hx : In x (y :: l')) by (apply (Permutation_in _ P); left; reflexivity). assert (Hy : In y (x :: l)) by (apply (Permutation_in _ (Permutation_sym P)); left; reflexivity).
      destruct Hx as [Hx|Hx]; [auto|]. destruct Hy as [Hy|Hy]; [auto|]. specialize (HF y Hy). specialize (HF' x Hx). lia. }
    subst y. f_equal. apply IH; auto. apply (Permutation_cons_inv P).
Qed.

Lemma NoDup_app_l {A} (l l' : list A) : NoDup (l ++ l') -> NoDup l.
Proof. induction l as [|x l IH]; intro H; [constructor|]. inversion H as [|? ? H1 H2]; subst. constructor; [|auto]. intro F. apply H1. apply in_or_app. auto. Qed.

(** The [k] nearest points, in order of their distances. *)
Theorem C72_nearest : forall n dist k, k <= n ->
  exists indices distances, neighbourSearch n dist k = Ok (indices, distances) /\ length indices = n /\ length distances = n /\
    forall i, i < n -> exists row, nth_error indices i = Some row /\ nth_error distances i = Some (map (dist i) row) /\
      length row = k /\ NoDup row /\ (forall j, In j row -> j < n) /\
      StronglySorted (fun a b => (dist i a <= dist i b)%Z) row /\
      forall j l, In j row -> l < n -> ~ In l row -> (dist i j <= dist i l)%Z.
Proof.
  intros n dist k Hk. unfold neighbourSearch.
  set (ind := fun i => cpp_sort (fun a b => (nth a (map (dist i) (seq 0 n)) 0 <? nth b (map (dist i) (seq 0 n)) 0)%Z) (seq 0 n)).
  rewrite (foldM_rows _ (fun i => (firstn k (ind i), firstn k (cpp_sort Z.ltb (map (dist i) (seq 0 n)))))).
  2: { intros i _. unfold neighbour_row. destruct (Nat.ltb_spec n k); [lia|]. reflexivity. }
  cbn [app fst snd]. eexists _, _. refine (conj eq_refl _). rewrite !map_length, seq_length. refine (conj eq_refl (conj eq_refl _)).
  intros i Hi.
  assert (N : forall B (f : nat -> B), nth_error (map f (seq 0 n)) i = Some (f i)).
  { intros B f. rewrite (map_nth_error f i (seq 0 n) (d := i)); [reflexivity|]. rewrite (nth_error_nth' _ 0) by (rewrite seq_length; lia). rewrite seq_nth by lia. reflexivity. }
  exists (firstn k (ind i)). rewrite !N. refine (conj eq_refl _).
  assert (P : Permutation (ind i) (seq 0 n)) by apply cpp_sort_perm.
  assert (Hn : forall j, j < n -> nth j (map (dist i) (seq 0 n)) 0%Z = dist i j).
  { intros j Hj. rewrite (nth_indep _ _ (dist i 0)) by (rewrite map_length, seq_length; exact Hj). rewrite map_nth, seq_nth by exact Hj. reflexivity. }
  assert (Hin : forall j, In j (ind i) <-> j < n) by (intro j; unfold ind; rewrite cpp_sort_In, in_seq; lia).
  assert (S : StronglySorted (fun a b => (dist i a <= dist i b)%Z) (ind i)).
  { eapply StronglySorted_impl; [|apply cpp_sort_sorted].
    - cbv beta. intros x y Hx Hy H. fold (ind i) in Hx, Hy. apply Hin in Hx, Hy. rewrite !Hn in H by auto. apply Z.ltb_ge in H. lia.
    - split; cbv beta; intros; rewrite ?Z.ltb_lt, ?Z.ltb_ge in *; lia. }
  assert (E : map (dist i) (ind i) = cpp_sort Z.ltb (map (dist i) (seq 0 n))).
  { apply SSle_perm.
    - clear -S. induction S as [|x l HS IH HF]; cbn [map]; constructor; auto. rewrite Forall_map. exact HF.
    - eapply StronglySorted_impl; [|apply cpp_sort_sorted; split; intros; rewrite ?Z.ltb_lt, ?Z.ltb_ge in *; lia]. cbv beta. intros x y _ _ H. apply Z.ltb_ge in H. lia.
    - etransitivity; [apply Permutation_map; exact P|apply Permutation_sym, cpp_sort_perm]. }
  assert (L : length (ind i) = n) by (rewrite (Permutation_length P); apply seq_length).
  assert (ND : NoDup (ind i)) by (apply (Permutation_NoDup (Permutation_sym P)), seq_NoDup).
  refine (conj _ (conj _ (conj _ (conj _ (conj _ _))))).
  - rewrite <- E, firstn_map. reflexivity.
  - rewrite firstn_length. lia.
  - rewrite <- (firstn_skipn k (ind i)) in ND. apply NoDup_app_l in ND. exact ND.
  - intros j Hj. apply Hin. rewrite <- (firstn_skipn k (ind i)). apply in_or_app. auto.
  - rewrite <- (firstn_skipn k (ind i)) in S. apply StronglySorted_app in S. apply S.
  - intros j l Hj Hl Hnl. assert (Hs : In l (skipn k (ind i))).
    { apply Hin in Hl. rewrite <- (firstn_skipn k (ind i)) in Hl. apply in_app_or in Hl. tauto. }
    rewrite <- (firstn_skipn k (ind i)) in S. apply StronglySorted_app in S. destruct S as (_ & _ & S). apply S; auto.
Qed.

(** More neighbours than points: the program is undefined. *)
Theorem C72_too_many : forall n dist k, 0 < n < k -> neighbourSearch n dist k = UB.
Proof.
  intros n dist k H. unfold neighbourSearch. destruct n as [|n]; [lia|]. cbn [seq foldM]. unfold neighbour_row at 1.
  destruct (Nat.ltb_spec (S n) k); [reflexivity|lia].
Qed.

(** ** the complex *)
Lemma skeleton_row_ok dist distances i row : nth_error distances i = Some (map (dist i) row) -> forall acc,
  skeleton_row distances i row acc = Ok (acc ++ map (fun v => simplex_of [i; v] (dist i v)) (filter (fun v => i <? v) row)).
Proof.
  intros Hd acc. unfold skeleton_row. rewrite (proj2 (get_ok _ _ _) Hd). cbn [bind].
  assert (G : forall a b acc, row = a ++ b -> foldM (fun acc j =>
    let* v := get_ row j in let* d := get_ (map (dist i) row) j in
    Ok (if i <? v then acc ++ [simplex_of [i; v] d] else acc)) (seq (length a) (length b)) acc =
    Ok (acc ++ map (fun v => simplex_of [i; v] (dist i v)) (filter (fun v => i <? v) b))).
  { intros a b. revert a. induction b as [|v b IH]; intros a acc' E; cbn [length seq foldM filter map]; [rewrite app_nil_r; reflexivity|].
    assert (Hv : nth_error row (length a) = Some v) by (rewrite E, nth_error_app2, Nat.sub_diag by lia; reflexivity).
    rewrite (proj2 (get_ok row (length a) v) Hv). cbn [bind].
    rewrite (proj2 (get_ok (map (dist i) row) (length a) (dist i v)) (map_nth_error _ _ _ Hv)). cbn [bind].
    specialize (IH (a ++ [v])). rewrite app_length, Nat.add_1_r in IH. rewrite IH by (rewrite <- app_assoc; exact E).
    destruct (i <? v); [|reflexivity]. cbn [map]. rewrite <- app_assoc. reflexivity. }
  exact (G [] row acc eq_refl).
Qed.

Definition close_after (n : nat) (dist : nat -> nat -> Z) (epsilon : Z) (i : nat) : list nat :=
  filter (fun v => i <? v) (filter (fun j => (dist i j <? epsilon)%Z) (seq 0 n)).
Definition skeleton_list (n : nat) (dist : nat -> nat -> Z) (epsilon : Z) : list simplex :=
  map (fun i => simplex_vertex i 0) (seq 0 n) ++
  flat_map (fun i => map (fun v => simplex_of [i; v] (dist i v)) (close_after n dist epsilon i)) (seq 0 n).

Lemma skeleton_eq n dist epsilon :
  ripsSkeleton n (fst (radiusSearch n dist epsilon)) (snd (radiusSearch n dist epsilon)) = insert_into k_empty (skeleton_list n dist epsilon).
Proof.
  unfold ripsSkeleton.
  assert (L : length (fst (radiusSearch n dist epsilon)) = n) by (unfold radiusSearch; cbn [fst]; rewrite map_length; apply seq_length). rewrite L.
  assert (N : forall B (f : nat -> B) i, i < n -> nth_error (map f (seq 0 n)) i = Some (f i)).
  { intros B f i Hi. rewrite (map_nth_error f i (seq 0 n) (d := i)); [reflexivity|]. rewrite (nth_error_nth' _ 0) by (rewrite seq_length; lia). rewrite seq_nth by lia. reflexivity. }
  assert (G : forall l acc, (forall i, In i l -> i < n) ->
    foldM (fun acc i => let* row := get_ (fst (radiusSearch n dist epsilon)) i in skeleton_row (snd (radiusSearch n dist epsilon)) i row acc) l acc =
    Ok (acc ++ flat_map (fun i => map (fun v => simplex_of [i; v] (dist i v)) (close_after n dist epsilon i)) l)).
  { induction l as [|i l IH]; intros acc Hl; cbn [foldM flat_map]; [rewrite app_nil_r; reflexivity|].
    assert (Hi : i < n) by (apply Hl; left; reflexivity).
    rewrite (proj2 (get_ok (fst (radiusSearch n dist epsilon)) i (fst (radius_row n dist epsilon i)))) by (unfold radiusSearch; cbn [fst]; apply N; exact Hi). cbn [bind].
    rewrite (skeleton_row_ok dist) by (unfold radiusSearch; cbn [snd]; rewrite N by exact Hi; rewrite radius_row_eq; reflexivity). cbn [bind].
    rewrite IH by (intros; apply Hl; simpl; auto). rewrite <- app_assoc, radius_row_eq. reflexivity. }
  rewrite G by (intros i Hi; apply in_seq in Hi; lia). reflexivity.
Qed.

Lemma close_In n dist epsilon i v : In v (close_after n dist epsilon i) <-> i < v < n /\ (dist i v < epsilon)%Z.
Proof. unfold close_after. rewrite !filter_In, in_seq, Nat.ltb_lt, Z.ltb_lt. lia. Qed.

Lemma edge_verts i v d : i < v -> verts (simplex_of [i; v] d) = [v; i].
Proof.
  intro H. change [v; i] with (verts (Simplex [v; i] 0)). apply wf_ext; [apply simplex_of_wf|repeat constructor; lia|]. intro u. rewrite simplex_of_In. simpl. tauto.
Qed.

Lemma skeleton_In n dist epsilon s : In s (skeleton_list n dist epsilon) <->
  (exists v, v < n /\ s = Simplex [v] 0) \/ (exists u v, u < v < n /\ (dist u v < epsilon)%Z /\ s = Simplex [v; u] (dist u v)).
Proof.
  unfold skeleton_list. rewrite in_app_iff, in_map_iff, in_flat_map. split.
  - intros [(v & <- & Hv)|(i & Hi & Hs)].
    + left. apply in_seq in Hv. exists v. split; [lia|reflexivity].
    + right. apply in_map_iff in Hs. destruct Hs as (v & <- & Hv). apply close_In in Hv. exists i, v. refine (conj (proj1 Hv) (conj (proj2 Hv) _)).
      pose proof (edge_verts i v (dist i v) (proj1 (proj1 Hv))) as E. unfold simplex_of in *. cbn [verts] in E. rewrite E. reflexivity.
  - intros [(v & Hv & ->)|(u & v & Hv & Hd & ->)].
    + left. exists v. split; [reflexivity|]. apply in_seq. lia.
    + right. exists u. split; [apply in_seq; lia|]. apply in_map_iff. exists v. split; [|apply close_In; auto].
      pose proof (edge_verts u v (dist u v) (proj1 Hv)) as E. unfold simplex_of in *. cbn [verts] in E. rewrite E. reflexivity.
Qed.

Lemma skeleton_ok n dist epsilon : exists K, ripsSkeleton n (fst (radiusSearch n dist epsilon)) (snd (radiusSearch n dist epsilon)) = Ok K /\
  reachable K /\ by_index K = skeleton_list n dist epsilon.
Proof.
  rewrite skeleton_eq. apply insert_into_new.
  - intros s Hs. apply skeleton_In in Hs. destruct Hs as [(v & Hv & ->)|(u & v & Hv & Hd & ->)]; (split; [repeat constructor; lia|discriminate]).
  - unfold skeleton_list. rewrite map_app, map_map. cbn [simplex_vertex verts].
    assert (F : forall l, NoDup l -> NoDup (map verts (flat_map (fun i => map (fun v => simplex_of [i; v] (dist i v)) (close_after n dist epsilon i)) l)) /\
      forall vs, In vs (map verts (flat_map (fun i => map (fun v => simplex_of [i; v] (dist i v)) (close_after n dist epsilon i)) l)) -> exists i v, In i l /\ vs = [v; i]).
    { induction l as [|i l IH]; intro N; [split; [constructor|easy]|]. inversion N as [|? ? N1 N2]; subst. destruct (IH N2) as [I1 I2]. cbn [flat_map]. rewrite map_app.
      assert (E : map verts (map (fun v => simplex_of [i; v] (dist i v)) (close_after n dist epsilon i)) = map (fun v => [v; i]) (close_after n dist epsilon i)).
      { rewrite map_map. apply map_ext_in. intros v Hv. apply close_In in Hv. apply edge_verts. lia. }
      rewrite E. split.
      - apply NoDup_app_intro; [|exact I1|].
        + apply FinFun.Injective_map_NoDup; [intros x y X; injection X; auto|]. unfold close_after. do 2 apply NoDup_filter. apply seq_NoDup.
        + intros vs H1 H2. apply in_map_iff in H1. destruct H1 as (v & <- & _). apply I2 in H2. destruct H2 as (j & w & Hj & X). injection X as _ ->. contradiction.
      - intros vs Hv. apply in_app_or in Hv. destruct Hv as [Hv|Hv].
        + apply in_map_iff in Hv. destruct Hv as (v & <- & _). exists i, v. split; [left; reflexivity|reflexivity].
        + destruct (I2 vs Hv) as (j & w & Hj & ->). exists j, w. split; [right; exact Hj|reflexivity]. }
    destruct (F (seq 0 n) (seq_NoDup _ _)) as [F1 F2]. apply NoDup_app_intro; [|exact F1|].
    + apply FinFun.Injective_map_NoDup; [intros x y X; injection X; auto|apply seq_NoDup].
    + intros vs H1 H2. apply in_map_iff in H1. destruct H1 as (v & <- & _). apply F2 in H2. destruct H2 as (i & w & _ & X). discriminate.
Qed.

Lemma skeleton_has1 n dist epsilon v : has (skeleton_list n dist epsilon) [v] <-> v < n.
Proof.
  split.
  - intros (s & Hs & E). apply skeleton_In in Hs. destruct Hs as [(w & Hw & ->)|(u & w & Hw & Hd & ->)]; cbn [verts] in E.
    + destruct (proj2 (E v) (or_introl eq_refl)) as [->|[]]. exact Hw.
    + destruct (proj1 (E w) (or_introl eq_refl)) as [->|[]]. lia.
  - intro H. exists (Simplex [v] 0). split; [|intro u; tauto]. apply skeleton_In. left. exists v. auto.
Qed.
Lemma skeleton_has2 n dist epsilon u v : u < v -> (has (skeleton_list n dist epsilon) [u; v] <-> v < n /\ (dist u v < epsilon)%Z).
Proof.
  intro L. split.
  - intros (s & Hs & E). apply skeleton_In in Hs. destruct Hs as [(w & Hw & ->)|(a & b & Hw & Hd & ->)]; cbn [verts] in E.
    + pose proof (proj2 (E u) (or_introl eq_refl)) as X. pose proof (proj2 (E v) (or_intror (or_introl eq_refl))) as Y. simpl in X, Y. lia.
    + assert (b = v /\ a = u) as [-> ->].
      { pose proof (proj1 (E a)) as X. pose proof (proj1 (E b)) as Y. simpl in X, Y. pose proof (proj2 (E u)) as X'. pose proof (proj2 (E v)) as Y'. simpl in X', Y'. lia. }
      split; [lia|exact Hd].
  - intros [Hn Hd]. exists (Simplex [v; u] (dist u v)). split; [|intro w; simpl; tauto]. apply skeleton_In. right. exists u, v. auto.
Qed.

Lemma has_swap L u v : has L [u; v] -> has L [v; u].
Proof. intros (s & Hs & E). exists s. split; [exact Hs|]. intro w. rewrite (E w). simpl. tauto. Qed.

(** all points of [vs] within [epsilon] of each other (only [dist u v] for [u < v] is used) *)
Definition near (dist : nat -> nat -> Z) (epsilon : Z) (vs : list nat) : Prop :=
  forall u v, In u vs -> In v vs -> u < v -> (dist u v < epsilon)%Z.
Definition is_diameter (dist : nat -> nat -> Z) (vs : list nat) (m : Z) : Prop :=
  (exists u v, In u vs /\ In v vs /\ u < v /\ dist u v = m) /\
  forall u v, In u vs -> In v vs -> u < v -> (dist u v <= m)%Z.

Lemma other_element (vs : list nat) v : NoDup vs -> 2 <= length vs -> exists u, In u vs /\ u <> v.
Proof.
  intros N L. destruct vs as [|a [|b r]]; [simpl in L; lia|simpl in L; lia|]. inversion N as [|? ? N1 _]; subst.
  destruct (Nat.eq_dec a v) as [->|H]; [exists b|exists a]; split; simpl; auto. intros ->. apply N1. left. reflexivity.
Qed.

Lemma expanded order n dist epsilon dimension : (forall l, Permutation (order l) l) ->
  exists K L, ripsSkeleton n (fst (radiusSearch n dist epsilon)) (snd (radiusSearch n dist epsilon)) = Ok K /\
    ripsExpander order K dimension = Ok L /\ reachable L /\ closed (by_index L) /\
    (forall vs, NoDup vs -> vs <> [] ->
       (has (by_index L) vs <-> (forall v, In v vs -> v < n) /\ length vs <= S dimension /\ near dist epsilon vs)) /\
    (forall s, In s (by_index L) -> length (verts s) <> 2 -> data s = 0%Z) /\
    (forall s u v, In s (by_index L) -> verts s = [v; u] -> u < v -> data s = dist u v).
Proof.
  intro Ho. destruct (skeleton_ok n dist epsilon) as (K & EK & RK & IK).
  destruct (C25_clique_complex order K dimension Ho RK) as (L & EL & CL & H2 & H1).
  { intros u v (s & Hs & E). rewrite IK in *. apply skeleton_has1. apply skeleton_In in Hs. pose proof (proj2 (E u) (or_introl eq_refl)) as X.
    destruct Hs as [(w & Hw & ->)|(a & b & Hw & _ & ->)]; simpl in X; [destruct X as [->|[]]; exact Hw|lia]. }
  destruct (C25_expansion order K dimension Ho RK) as (L' & EL' & RL & NL & HL & DL). rewrite EL in EL'. injection EL' as <-.
  exists K, L. refine (conj EK (conj EL (conj RL (conj CL (conj _ (conj _ _)))))).
  - intros vs Nv Hne. destruct (Nat.le_gt_cases 2 (length vs)) as [L2|L2].
    + rewrite (H2 vs Nv L2), IK. split.
      * intros [C Hl].
        assert (Hlt : forall v, In v vs -> v < n).
        { intros v Hv. destruct (other_element vs v Nv L2) as (u & Hu & Hn). destruct (Nat.lt_trichotomy u v) as [X|[X|X]]; [|congruence|].
          - specialize (C u v Hu Hv Hn). apply skeleton_has2 in C; [lia|exact X].
          - specialize (C v u Hv Hu (fun F => Hn (eq_sym F))). apply skeleton_has2 in C; [lia|exact X]. }
        refine (conj Hlt (conj Hl _)). intros u v Hu Hv X. specialize (C u v Hu Hv ltac:(lia)). apply skeleton_has2 in C; [tauto|exact X].
      * intros (Hlt & Hl & N). split; [|exact Hl]. intros u v Hu Hv Huv. destruct (Nat.lt_trichotomy u v) as [X|[X|X]]; [|contradiction|].
        -- apply skeleton_has2; [exact X|]. auto.
        -- apply has_swap. apply skeleton_has2; [exact X|]. auto.
    + destruct vs as [|v [|? ?]]; [easy| |simpl in L2; lia]. rewrite H1, IK, skeleton_has1. split.
      * intro Hv. refine (conj _ (conj _ _)); [intros w [<-|[]]; exact Hv|simpl; lia|]. intros a b [<-|[]] [<-|[]] X. lia.
      * intros (X & _). apply X. left. reflexivity.
  - intros s Hs Hl. destruct (DL s Hs) as [D1 D2]. destruct (Nat.le_gt_cases (length (verts s)) 2) as [L2|L2]; [|apply D2; auto].
    destruct (kwf_good L (reachable_kwf L RL) s Hs) as [Ws Ns]. destruct (verts s) as [|v [|w [|? ?]]] eqn:Ev; [easy| |simpl in *; lia|simpl in *; lia].
    rewrite (D1 ltac:(simpl; lia) (Simplex [v] 0)); [reflexivity| |intro u; cbn [verts]; rewrite ?Ev; tauto].
    rewrite IK. apply skeleton_In. left. exists v. split; [|reflexivity]. apply (skeleton_has1 n dist epsilon). rewrite <- IK. apply H1. exists s. split; [exact Hs|]. intro u. rewrite Ev. tauto.
  - intros s u v Hs Ev Huv. destruct (DL s Hs) as [D1 _]. assert (Hh : has (skeleton_list n dist epsilon) [u; v]).
    { rewrite <- IK. assert (Hc : has (by_index L) [u; v]) by (exists s; split; [exact Hs|]; intro w; rewrite Ev; simpl; tauto).
      apply (H2 [u; v]) in Hc; [|repeat constructor; simpl; lia|simpl; lia]. destruct Hc as [C _]. apply C; simpl; auto; lia. }
    apply skeleton_has2 in Hh; [|exact Huv]. rewrite (D1 ltac:(rewrite Ev; simpl; lia) (Simplex [v; u] (dist u v))); [reflexivity| |intro w; cbn [verts]; rewrite Ev; tauto].
    rewrite IK. apply skeleton_In. right. exists u, v. refine (conj _ (conj (proj2 Hh) eq_refl)). lia.
Qed.

Lemma push_reachable K s : reachable K -> wf s -> reachable (fst (k_push_back K s)).
Proof.
  intros (a & b & h & ->) W. exists a, b, (h ++ [PushBack (verts s) (data s)]). unfold k_run. rewrite fold_left_app. cbn [fold_left k_exec].
  replace (simplex_of (verts s) (data s)) with s; [reflexivity|]. pose proof (simplex_of_id s (data s) W) as E. destruct s as [vs d]. unfold simplex_of in *. cbn [verts data] in *. rewrite E. reflexivity.
Qed.
Lemma empty_reachable : reachable k_empty.
Proof. exists 0%Z, 0%Z, []. reflexivity. Qed.

Lemma assign_weight_reachable K b : (forall s, In s (by_dim K) -> wf s) -> reachable (assignMaximumWeight K b).
Proof.
  unfold assignMaximumWeight. generalize (by_dim K) as l. intro l. assert (G : forall l S, reachable S -> (forall s, In s l -> wf s) -> reachable (fold_left (assign_step b) l S)).
  { clear. induction l as [|s l IH]; intros S R W; [exact R|]. cbn [fold_left]. apply IH; [|intros; apply W; simpl; auto]. unfold assign_step. apply push_reachable; [exact R|].
    assert (Ws : wf s) by (apply W; left; reflexivity). destruct (b <? sdim s); exact Ws. }
  apply G. apply empty_reachable.
Qed.
Lemma assign_data_reachable f init vs values : forall l S S', reachable S -> (forall s, In s l -> wf s) ->
  foldM (assign_data_step values init f vs) l S = Ok S' -> reachable S'.
Proof.
  induction l as [|s l IH]; intros S S' R W H; cbn [foldM] in H; [injection H as <-; exact R|].
  destruct (assign_data_step values init f vs S s) as [S1| | |] eqn:E; try discriminate. cbn [bind] in H. apply (IH S1 S'); auto; [|intros; apply W; simpl; auto].
  unfold assign_data_step in E. destruct (foldM _ _ _) as [d| | |] in E; try discriminate. cbn [bind] in E. injection E as <-. apply push_reachable; [exact R|].
  apply (W s). left. reflexivity.
Qed.

Lemma has_verts_eq L L' vs : map verts L = map verts L' -> (has L vs <-> has L' vs).
Proof.
  intro E. assert (G : forall L L', map verts L = map verts L' -> has L vs -> has L' vs).
  { clear. intros L L' E (s & Hs & X). apply (in_map verts) in Hs. rewrite E in Hs. apply in_map_iff in Hs. destruct Hs as (t & Et & Ht). exists t. split; [exact Ht|]. rewrite Et. exact X. }
  split; apply G; auto.
Qed.

Lemma has_perm L L' vs : Permutation L L' -> (has L vs <-> has L' vs).
Proof. intro P. split; intros (s & Hs & X); exists s; split; auto; [apply (Permutation_in _ P)|apply (Permutation_in _ (Permutation_sym P))]; auto. Qed.

(** The simplices are exactly the sets of at most [dimension + 1] points of pairwise
    distance less than [epsilon]; the data of a simplex is its diameter. *)
Theorem C71_rips : forall order n dist epsilon dimension, (forall l, Permutation (order l) l) ->
  (forall u v, u < v < n -> (0 <= dist u v)%Z) ->
  exists K, buildVietorisRipsComplex order n dist epsilon dimension = Ok K /\ reachable K /\
    (forall vs, NoDup vs -> vs <> [] ->
       (has (by_index K) vs <-> (forall v, In v vs -> v < n) /\ length vs <= S dimension /\ near dist epsilon vs)) /\
    (forall s, In s (by_index K) -> length (verts s) = 1 -> data s = 0%Z) /\
    (forall s, In s (by_index K) -> 2 <= length (verts s) -> is_diameter dist (verts s) (data s)) /\
    closed (by_index K) /\ filtration_order (by_index K) /\ by_data (by_index K).
Proof.
  intros order n dist epsilon dimension Ho Hpos. unfold buildVietorisRipsComplex.
  destruct (expanded order n dist epsilon dimension Ho) as (K & L & EK & EL & RL & CL & HL & D0 & D2). rewrite EK. cbn [bind]. rewrite EL. cbn [bind].
  pose proof (reachable_kwf L RL) as WL.
  assert (RS : reachable (assignMaximumWeight L 1)) by (apply assign_weight_reachable; intros s Hs; apply (kwf_good L WL s); apply WeightFacts.in_dim; auto).
  destruct (C26_weights L 1 RL CL) as (Hv & Hsmall & _ & _).
  eexists. split; [reflexivity|]. split; [apply sort_reachable; exact RS|]. set (S0 := assignMaximumWeight L 1) in *.
  assert (P : Permutation (by_index (k_sort data_cmp S0)) (by_index S0)) by apply cpp_sort_perm.
  assert (HS : forall vs, has (by_index (k_sort data_cmp S0)) vs <-> has (by_index L) vs).
  { intro vs. rewrite (has_perm _ _ vs P). rewrite (has_verts_eq _ _ vs Hv). apply has_perm. apply Permutation_sym, kwf_perm. exact WL. }
  assert (Edge : forall s, In s (by_index S0) -> 2 <= length (verts s) -> is_max_of_faces (by_index L) 1 s (data s)).
  { apply (C26_edges L RL CL).
    - intros s Hs Hl. apply D0; [exact Hs|lia].
    - intros s Hs Hl. destruct (kwf_good L WL s Hs) as [Ws Ns]. destruct (verts s) as [|v [|u [|? ?]]] eqn:Ev; try discriminate. unfold wf in Ws. rewrite Ev in Ws. inversion Ws as [|? ? _ F]; subst. inversion F as [|? ? F1 _]; subst.
      rewrite (D2 s u v Hs Ev F1). apply Hpos. split; [exact F1|]. apply (HL [v; u]); [repeat constructor; simpl; lia|easy| |left; reflexivity]. exists s. split; [exact Hs|]. rewrite Ev. intro w. tauto. }
  assert (Diam : forall s, In s (by_index S0) -> 2 <= length (verts s) -> is_diameter dist (verts s) (data s)).
  { intros s Hs Hl. destruct (Edge s Hs Hl) as [(t & Ht & Sub & Lt & Dt) Max]. split.
    - destruct (kwf_good L WL t Ht) as [Wt _]. destruct (verts t) as [|v [|u [|? ?]]] eqn:Ev; try discriminate. unfold wf in Wt. rewrite Ev in Wt. inversion Wt as [|? ? _ F]; subst. inversion F as [|? ? F1 _]; subst.
      exists u, v. refine (conj _ (conj _ (conj F1 _))); [apply Sub; simpl; auto|apply Sub; simpl; auto|]. rewrite <- Dt. symmetry. apply D2; auto.
    - clear t Ht Sub Lt Dt. intros u v Hu Hv' Huv. assert (Hs' : has (by_index L) (verts s)).
      { apply (has_perm _ _ _ (Permutation_sym (kwf_perm L WL))). apply (has_verts_eq _ _ _ Hv). exists s. split; [exact Hs|]. intro w. tauto. }
      destruct Hs' as (s' & Hs' & Es'). destruct (CL s' [u; v] Hs') as (t & Ht & Et); [easy|intros w [<-|[<-|[]]]; apply Es'; auto|].
      assert (Ev : verts t = [v; u]).
      { destruct (kwf_good L WL t Ht) as [Wt _]. change [v; u] with (verts (Simplex [v; u] 0)). apply wf_ext; [exact Wt|repeat constructor; lia|]. intro w. rewrite (Et w). simpl. tauto. }
      rewrite <- (D2 t u v Ht Ev Huv). apply Max; [exact Ht| |rewrite Ev; reflexivity]. intros w Hw. apply Et in Hw. destruct Hw as [<-|[<-|[]]]; auto. }
  assert (One : forall s, In s (by_index S0) -> length (verts s) = 1 -> data s = 0%Z).
  { intros s Hs Hl. destruct (Hsmall s Hs ltac:(lia)) as (t & Ht & Et & <-). apply D0; [exact Ht|]. rewrite Et. lia. }
  assert (InS : forall s, In s (by_index (k_sort data_cmp S0)) -> In s (by_index S0)) by (intros s Hs; apply (Permutation_in _ P Hs)).
  refine (conj _ (conj _ (conj _ (conj _ _)))).
  - intros vs Nv Hne. rewrite HS. apply HL; auto.
  - intros s Hs. apply One; auto.
  - intros s Hs. apply Diam; auto.
  - intros s vs Hs Hne Sub. apply HS. assert (Hs' : has (by_index L) (verts s)) by (apply HS; exists s; split; [exact Hs|]; intro w; tauto).
    destruct Hs' as (s' & Hs' & Es'). apply (CL s' vs Hs' Hne). intros w Hw. apply Es'. auto.
  - apply sorted_filtration; [apply reachable_kwf, sort_reachable; exact RS|].
    intros s t Hs Ht Sub. apply InS in Hs, Ht. pose proof (reachable_kwf _ RS) as WS. destruct (kwf_good _ WS s Hs) as [Ws Ns]. destruct (kwf_good _ WS t Ht) as [Wt Nt].
    assert (Len : length (verts t) <= length (verts s)) by (apply NoDup_incl_length; [apply SSgt_NoDup; exact Wt|exact Sub]).
    assert (1 <= length (verts t)) by (destruct (verts t); [easy|simpl; lia]).
    destruct (Nat.eq_dec (length (verts t)) 1) as [T1|T1].
    + rewrite (One t Ht T1). destruct (Nat.eq_dec (length (verts s)) 1) as [S1|S1]; [rewrite (One s Hs S1); lia|].
      destruct (Diam s Hs ltac:(lia)) as [(u & v & Hu & Hv' & Huv & <-) _]. apply Hpos. split; [exact Huv|].
      apply (HL (verts s) (SSgt_NoDup _ Ws) Ns); [|exact Hv']. apply HS. exists s. split; [apply (Permutation_in _ (Permutation_sym P)); exact Hs|]. intro w. tauto.
    + destruct (Diam t Ht ltac:(lia)) as [(u & v & Hu & Hv' & Huv & <-) _]. apply (Diam s Hs ltac:(lia)); auto.
Qed.

Lemma rank_seq v n : v <= n -> length (filter (fun u => u <? v) (seq 0 n)) = v.
Proof.
  intro H. replace n with (v + (n - v)) by lia. rewrite seq_app, filter_app, app_length. cbn [plus].
  rewrite (BaseFacts.filter_all (fun u => u <? v) (seq 0 v)), (HomologyFacts.filter_nil (fun u => u <? v) (seq v (n - v))), seq_length; [simpl; lia| |].
  - intros x Hx. apply in_seq in Hx. apply Nat.ltb_ge. lia.
  - intros x Hx. apply in_seq in Hx. apply Nat.ltb_lt. lia.
Qed.

(** With values for the points: the same simplices, each with the largest value of its vertices *)
Theorem C71_values : forall order n dist epsilon dimension lowest values, (forall l, Permutation (order l) l) ->
  n <= length values -> (forall z, In z values -> (lowest <= z)%Z) ->
  exists K, buildVietorisRipsComplex_values order n dist epsilon dimension lowest values = Ok K /\ reachable K /\
    (forall vs, NoDup vs -> vs <> [] ->
       (has (by_index K) vs <-> (forall v, In v vs -> v < n) /\ length vs <= S dimension /\ near dist epsilon vs)) /\
    (forall s, In s (by_index K) -> is_max_over (fun v => nth v values 0%Z) (verts s) (data s)) /\
    closed (by_index K) /\ filtration_order (by_index K) /\ by_data (by_index K).
Proof.
  intros order n dist epsilon dimension lowest values Ho Hlen Hlow. unfold buildVietorisRipsComplex_values.
  destruct (expanded order n dist epsilon dimension Ho) as (K & L & EK & EL & RL & CL & HL & D0 & D2). rewrite EK. cbn [bind]. rewrite EL. cbn [bind].
  pose proof (reachable_kwf L RL) as WL. destruct (vertices_spec L WL) as [VS VI].
  assert (EV : k_vertices L = seq 0 n).
  { apply SSlt_ext; [exact VS|apply seq_sorted|]. intro v. rewrite VI, in_seq. split.
    - intros (s & Hs & Ev). split; [lia|]. apply (HL [v]); [repeat constructor; easy|easy| |left; reflexivity]. exists s. split; [exact Hs|]. rewrite Ev. intro w. tauto.
    - intro Hv. assert (H : has (by_index L) [v]).
      { apply HL; [repeat constructor; easy|easy|]. refine (conj _ (conj _ _)); [intros w [<-|[]]; lia|simpl; lia|]. intros a b [<-|[]] [<-|[]] X. lia. }
      destruct H as (s & Hs & Es). exists s. split; [exact Hs|]. destruct (kwf_good L WL s Hs) as [Ws _]. change [v] with (verts (Simplex [v] 0)). apply wf_ext; [exact Ws|repeat constructor|exact Es]. }
  destruct (C27_maximum_data lowest L values RL CL) as (S0 & ES & Hv & Max); [rewrite EV, seq_length; exact Hlen|exact Hlow|]. rewrite ES. cbn [bind].
  assert (RS : reachable S0).
  { apply (assign_data_reachable Z.max lowest (k_vertices L) values (by_index L) k_empty S0 empty_reachable); [|exact ES]. intros s Hs. apply (kwf_good L WL s Hs). }
  eexists. split; [reflexivity|]. split; [apply sort_reachable; exact RS|].
  assert (P : Permutation (by_index (k_sort data_cmp S0)) (by_index S0)) by apply cpp_sort_perm.
  assert (HS : forall vs, has (by_index (k_sort data_cmp S0)) vs <-> has (by_index L) vs).
  { intro vs. rewrite (has_perm _ _ vs P). apply (has_verts_eq _ _ vs Hv). }
  assert (Lt : forall s v, In s (by_index (k_sort data_cmp S0)) -> In v (verts s) -> v < n).
  { intros s v Hs Hx. pose proof (reachable_kwf _ (sort_reachable data_cmp _ RS)) as WS. destruct (kwf_good _ WS s Hs) as [Ws Ns].
    apply (HL (verts s) (SSgt_NoDup _ Ws) Ns); [|exact Hx]. apply HS. exists s. split; [exact Hs|]. intro w. tauto. }
  assert (Max' : forall s, In s (by_index (k_sort data_cmp S0)) -> is_max_over (fun v => nth v values 0%Z) (verts s) (data s)).
  { intros s Hs. assert (Rk : forall v, In v (verts s) -> rank (k_vertices L) v = v).
    { intros v Hx. specialize (Lt s v Hs Hx). rewrite EV. unfold rank. apply rank_seq. lia. }
    destruct (Max s (Permutation_in _ P Hs)) as [(v & Hx & E) M]. split.
    - exists v. split; [exact Hx|]. rewrite (Rk v Hx) in E. exact E.
    - intros u Hu. specialize (M u Hu). rewrite (Rk u Hu) in M. exact M. }
  refine (conj _ (conj Max' (conj _ _))).
  - intros vs Nv Hne. rewrite HS. apply HL; auto.
  - intros s vs Hs Hne Sub. apply HS. assert (Hs' : has (by_index L) (verts s)) by (apply HS; exists s; split; [exact Hs|]; intro w; tauto).
    destruct Hs' as (s' & Hs' & Es'). apply (CL s' vs Hs' Hne). intros w Hw. apply Es'. auto.
  - apply sorted_filtration; [apply reachable_kwf, sort_reachable; exact RS|].
    intros s t Hs Ht Sub. destruct (Max' t Ht) as [(v & Hx & <-) _]. apply (Max' s Hs). auto.
Qed.

(** ** Examples *)
Definition some_dist (u v : nat) : Z := Z.abs (nth u [0; 3; 5; 20]%Z 0%Z - nth v [0; 3; 5; 20]%Z 0%Z).
Example C71_example :
  exists K, buildVietorisRipsComplex (@rev _) 4 some_dist 6 2 = Ok K /\
    map (fun s => (verts s, data s)) (by_index K) =
      [([0], 0%Z); ([1], 0%Z); ([2], 0%Z); ([3], 0%Z); ([2; 1], 2%Z); ([1; 0], 3%Z); ([2; 0], 5%Z); ([2; 1; 0], 5%Z)].
Proof. eexists. split; [vm_compute; reflexivity|]. reflexivity. Qed.
(** The points at distance exactly [epsilon] are not joined. *)
Example C71_strict :
  exists K, buildVietorisRipsComplex (@rev _) 3 some_dist 5 2 = Ok K /\
    map verts (by_index K) = [[0]; [1]; [2]; [2; 1]; [1; 0]].
Proof. eexists. split; [vm_compute; reflexivity|]. reflexivity. Qed.
Example C71_values_example :
  exists K, buildVietorisRipsComplex_values (@rev _) 3 some_dist 4 2 (-100) [7; -2; 3]%Z = Ok K /\
    map (fun s => (verts s, data s)) (by_index K) = [([1], (-2)%Z); ([2], 3%Z); ([2; 1], 3%Z); ([0], 7%Z); ([1; 0], 7%Z)].
Proof. eexists. split; [vm_compute; reflexivity|]. reflexivity. Qed.
Example C72_example :
  radiusSearch 4 some_dist 4 = ([[0; 1]; [0; 1; 2]; [1; 2]; [3]], [[0; 3]; [3; 0; 2]; [2; 0]; [0]]%Z) /\
  neighbourSearch 4 some_dist 3 = Ok ([[0; 1; 2]; [1; 2; 0]; [2; 1; 0]; [3; 2; 1]], [[0; 3; 5]; [0; 2; 3]; [0; 2; 5]; [0; 15; 17]]%Z).
Proof. split; vm_compute; reflexivity. Qed.

Print Assumptions C71_rips.
Print Assumptions C71_values.
Print Assumptions C72_radius.
Print Assumptions C72_nearest.
Print Assumptions C72_too_many.
