(** * Tangent spaces and curvatures of point clouds (C140) *)
From Coq Require Import Reals List Arith Bool Lia Lra Sorted.
From Verif Require Import Base BaseFacts BarycentricFacts DualFacts HeatKernel Kernels PropertiesHeat MathReal SpecSvd PropertiesPca TangentSpace.
Import ListNotations.
Local Open Scope R_scope.

(** ** Specification *)
Definition inner (d : nat) (x y : list R) : R := sumR d (fun c => nth c x 0 * nth c y 0).
(** the neighbour number [j] of a point *)
Definition neighbour (container : list (list R)) (near : list nat) (j : nat) : list R := nth (nth j near 0%nat) container [].
(** the mean of the neighbours *)
Definition near_mean (container : list (list R)) (near : list nat) (k c : nat) : R := sumR k (fun j => nth c (neighbour container near j) 0) / INR k.
(** the squared distances of the neighbours to the plane that is orthogonal to [x] and contains the mean *)
Definition plane_error (container : list (list R)) (d k : nat) (near : list nat) (x : nat -> R) : R :=
  sumR k (fun j => let y := sumR d (fun c => (nth c (neighbour container near j) 0 - near_mean container near k c) * x c) in y * y).
Definition adjacent (indices : list (list nat)) (i j : nat) : Prop := In j (nth i indices []) \/ In i (nth j indices []).
(** the polynomial of an algebraic sphere *)
Definition polynomial (d : nat) (u x : list R) : R := nth 0 u 0 + sumR d (fun c => nth (c + 1) u 0 * nth c x 0) + nth (d + 1) u 0 * inner d x x.

(** ** Vectors *)
Lemma vec2_length f x y d : length x = d -> length y = d -> length (vec2 f x y) = d.
Proof. intros. unfold vec2. rewrite map_length, combine_length. lia. Qed.
Lemma vec2_nth f x y d c : length x = d -> length y = d -> (c < d)%nat -> nth c (vec2 f x y) 0 = f (nth c x 0) (nth c y 0).
Proof.
  intros Hx Hy Hc. unfold vec2. rewrite (nth_indep _ 0 (f (fst (0, 0)) (snd (0, 0)))) by (rewrite map_length, combine_length; lia). rewrite (map_nth (fun p => f (fst p) (snd p)) (combine x y) (0, 0) c). rewrite combine_nth by lia. reflexivity.
Qed.
Lemma sum_list l : fold_right Rplus 0 l = sumR (length l) (fun i => nth i l 0).
Proof. unfold sumR. f_equal. induction l as [|a l IH]; [reflexivity|]. cbn [length seq map nth]. f_equal. rewrite IH at 1. rewrite <- seq_shift, map_map. reflexivity. Qed.
Lemma dot_inner d x y : length x = d -> length y = d -> dot x y = inner d x y.
Proof. intros Hx Hy. unfold dot. rewrite sum_list, (vec2_length _ x y d) by assumption. apply sumR_ext. intros c Hc. apply (vec2_nth _ _ _ d); assumption. Qed.
Lemma zeros_nth d c : nth c (zeros d) 0 = 0.
Proof. unfold zeros. revert c. induction d; intros [|c]; cbn; auto. Qed.
Lemma zeros_length d : length (zeros d) = d.
Proof. apply repeat_length. Qed.
Lemma position_ok container i : (i < length container)%nat -> getPosition container i = Ok (nth i container []).
Proof. intro H. unfold getPosition. rewrite (nth_error_nth' _ [] H). reflexivity. Qed.
Lemma nth_map_R (f : R -> R) l c : (c < length l)%nat -> nth c (map f l) 0 = f (nth c l 0).
Proof. intro H. rewrite (nth_indep _ 0 (f 0)) by (rewrite map_length; exact H). apply map_nth. Qed.

Section Cloud.
Variable container : list (list R).
Variables n d k : nat.
Hypothesis Hc : table n d container.

Lemma point_length i : (i < n)%nat -> length (nth i container []) = d.
Proof. intro H. destruct Hc as [E L]. apply L. apply nth_In. lia. Qed.

Lemma upd_middle {A} (a : list A) x b y : upd (a ++ x :: b) (length a) y = a ++ y :: b.
Proof. induction a as [|z a IH]; [reflexivity|]. cbn [app length upd]. rewrite IH. reflexivity. Qed.

Lemma matrix_fold b : forall a centroid, (forall i, In i b -> (i < n)%nat) -> length centroid = d -> (length a + length b = k)%nat ->
  exists centroid', foldM (fun '(centroid, M, j) index => let* v := getPosition container index in if (j <? k)%nat then Ok (vec2 Rplus centroid v, upd M j v, S j) else UB) b
     (centroid, map (fun i => nth i container []) a ++ repeat (zeros d) (length b), length a) = Ok (centroid', map (fun i => nth i container []) (a ++ b), k) /\
    length centroid' = d /\ forall c, (c < d)%nat -> nth c centroid' 0 = nth c centroid 0 + sumR (length b) (fun j => nth c (neighbour container b j) 0).
Proof.
  induction b as [|i b IH]; intros a centroid Hb Hl Hk; cbn [length] in *.
  - exists centroid. cbn [foldM repeat]. rewrite !app_nil_r. replace k with (length a) by lia. refine (conj eq_refl (conj Hl _)). intros c _. unfold sumR. cbn. lra.
  - cbn [foldM]. rewrite position_ok by (rewrite (proj1 Hc); apply Hb; simpl; auto). cbn [bind]. destruct (Nat.ltb_spec (length a) k); [|lia]. cbn [bind repeat].
    assert (E : upd (map (fun i0 => nth i0 container []) a ++ zeros d :: repeat (zeros d) (length b)) (length a) (nth i container []) = map (fun i0 => nth i0 container []) (a ++ [i]) ++ repeat (zeros d) (length b)).
    { rewrite map_app, <- app_assoc. cbn [map app]. rewrite <- (map_length (fun i0 => nth i0 container []) a). apply upd_middle. }
    rewrite E. assert (Li : length (nth i container []) = d) by (apply point_length, Hb; simpl; auto). destruct (IH (a ++ [i]) (vec2 Rplus centroid (nth i container []))) as (c' & F & L & G); [intros; apply Hb; simpl; auto|apply vec2_length; assumption|rewrite app_length; cbn [length]; lia|].
    rewrite app_length, Nat.add_1_r in F. rewrite <- app_assoc in F. cbn [app] in F. exists c'. refine (conj F (conj L _)). intros c Hcd. rewrite (G c Hcd). rewrite (vec2_nth _ _ _ d) by assumption.
    assert (S0 : forall m f, sumR (S m) f = f 0%nat + sumR m (fun j => f (S j))) by (intros m f; unfold sumR; cbn [seq map fold_right]; rewrite <- seq_shift, map_map; reflexivity). rewrite S0. unfold neighbour. cbn [nth]. ring.
Qed.
(** the matrix of differences; its centroid is the sum of the [k] neighbours divided by the number of all points *)
Lemma matrix_ok near N : (forall i, In i near -> (i < n)%nat) -> length near = k ->
  exists M, coordinate_matrix container d k N near = Ok M /\ table k d M /\
    forall j c, (j < k)%nat -> (c < d)%nat -> entry M j c = nth c (neighbour container near j) 0 - sumR k (fun j' => nth c (neighbour container near j') 0) / INR N.
Proof.
  intros Hn Hk. unfold coordinate_matrix. destruct (matrix_fold near [] (zeros d) Hn (zeros_length d)) as (c' & F & L & G); [cbn; exact Hk|]. cbn [map app length] in F. rewrite Hk in F. rewrite F. cbn [bind]. eexists. split; [reflexivity|].
  assert (Lm : length (map (fun a => a / INR N) c') = d) by (rewrite map_length; exact L).
  split.
  - split; [rewrite !map_length; exact Hk|]. intros row Hr. apply in_map_iff in Hr. destruct Hr as (r & <- & Hr). apply in_map_iff in Hr. destruct Hr as (i & <- & Hi). apply vec2_length; [apply point_length, Hn, Hi|exact Lm].
  - intros j c Hj Hcd. unfold entry. rewrite map_map. rewrite (nth_indep _ [] ((fun x => vec2 Rminus (nth x container []) (map (fun a => a / INR N) c')) 0%nat)) by (rewrite map_length; lia). rewrite (map_nth (fun x => vec2 Rminus (nth x container []) (map (fun a => a / INR N) c')) near 0%nat j).
    assert (Hj' : (nth j near 0%nat < n)%nat) by (apply Hn, nth_In; lia). rewrite (vec2_nth _ _ _ d) by (try assumption; apply point_length; assumption). rewrite nth_map_R by lia. rewrite (G c Hcd), zeros_nth, Hk. rewrite Rplus_0_l. reflexivity.
Qed.
End Cloud.

(** the fields of a space that the orientation keeps *)
Definition same_space (a b : local_space) : Prop :=
  l_tangents b = l_tangents a /\ l_position b = l_position a /\ l_size b = l_size a /\ l_indices b = l_indices a /\ (l_normal b = l_normal a \/ l_normal b = map Ropp (l_normal a)).

Section Local.
Variable svd : nat -> nat -> list (list R) -> list (list R).
Variable container : list (list R).
Variables n d k : nat.
Variable indices : list (list nat).
Variable distances : list (list R).
Hypothesis Hc : table n d container.
Hypothesis Hd : (0 < d)%nat.
Hypothesis Hk : (0 < k)%nat.
Hypothesis Hi : length indices = n.
Hypothesis Hin : forall near, In near indices -> length near = k /\ forall i, In i near -> (i < n)%nat.
Hypothesis Hdist : length distances = n.
Definition local_svd : Prop := forall near M, In near indices -> coordinate_matrix container d k n near = Ok M -> exists sigma, svd_spec k d M sigma (svd k d M).
Hypothesis Hsvd : local_svd.

Lemma near_ok i : (i < n)%nat -> length (nth i indices []) = k /\ forall j, In j (nth i indices []) -> (j < n)%nat.
Proof. intro H. apply Hin. apply nth_In. lia. Qed.
Lemma effective_ok : effective d k = (min k d - 1)%nat.
Proof. unfold effective. destruct (Nat.eqb_spec k 0); lia. Qed.
Lemma tangents_ok (V : list (list R)) e : (e <= length V)%nat -> (e <= d - 1)%nat -> foldM (fun tangents j => let* v := get_ V j in Ok (upd tangents j v)) (seq 0 e) (repeat (zeros d) (d - 1)) = Ok (firstn e V ++ repeat (zeros d) (d - 1 - e)).
Proof.
  induction e as [|e IH]; intros He Hed; [cbn; rewrite Nat.sub_0_r; reflexivity|]. rewrite seq_S, foldM_app. rewrite IH by lia. cbn [bind foldM Nat.add]. unfold get_. rewrite (nth_error_nth' V [] (n:=e)) by lia. cbn [bind]. f_equal.
  assert (E : firstn (S e) V = firstn e V ++ [nth e V []]). { clear - He. revert V He. induction e as [|e IH]; intros [|v V] He; cbn [length] in He; try lia; [reflexivity|]. cbn [firstn nth app]. f_equal. apply IH. lia. }
  rewrite E. replace (d - 1 - e)%nat with (S (d - 1 - S e)) by lia. cbn [repeat]. rewrite <- app_assoc. cbn [app]. pose proof (upd_middle (firstn e V) (zeros d) (repeat (zeros d) (d - 1 - S e)) (nth e V [])) as U. rewrite firstn_length_le in U by lia. exact U.
Qed.
Lemma normalized_unit x : dot x x = 1 -> normalized x = x.
Proof. intro H. unfold normalized, norm. rewrite H, sqrt_1. destruct (Rlt_dec 0 1); [|lra]. rewrite <- (map_id x) at 2. apply map_ext. intro a. lra. Qed.

Lemma space_ok i : (i < n)%nat -> exists M s sigma, coordinate_matrix container d k n (nth i indices []) = Ok M /\ svd_spec k d M sigma (svd k d M) /\ local_space_at svd container d k indices distances i = Ok s /\
  l_tangents s = firstn (min k d - 1) (svd k d M) ++ repeat (zeros d) (d - min k d) /\ l_normal s = nth (min k d - 1) (svd k d M) [] /\ l_position s = nth i container [] /\ l_size s = feature_size (nth i distances []) /\ l_indices s = nth i indices [].
Proof.
  intro H. destruct (near_ok i H) as [H1 H2]. destruct (matrix_ok container n d k Hc (nth i indices []) n H2 H1) as (M & EM & _). assert (Hn : In (nth i indices []) indices) by (apply nth_In; lia). destruct (Hsvd _ _ Hn EM) as (sigma & S).
  unfold local_space_at. unfold get_ at 1. rewrite (nth_error_nth' indices [] (n:=i)) by lia. cbn [bind]. rewrite Hi, EM. cbn [bind]. rewrite effective_ok. pose proof (svd_vectors _ _ _ _ _ S) as LV. rewrite tangents_ok by lia. cbn [bind]. unfold get_ at 1. rewrite (nth_error_nth' (svd k d M) [] (n:=(min k d - 1)%nat)) by lia. cbn [bind]. rewrite position_ok by (rewrite (proj1 Hc); exact H). cbn [bind]. unfold get_. rewrite (nth_error_nth' distances [] (n:=i)) by lia. cbn [bind].
  eexists M, _, sigma. refine (conj eq_refl (conj S (conj eq_refl _))). cbn [l_tangents l_normal l_position l_size l_indices]. replace (d - 1 - (min k d - 1))%nat with (d - min k d)%nat by lia. refine (conj eq_refl (conj _ (conj eq_refl (conj eq_refl eq_refl)))).
  apply normalized_unit. assert (L : length (nth (min k d - 1) (svd k d M) []) = d) by (apply (svd_width _ _ _ _ _ S), nth_In; lia). rewrite (dot_inner d) by exact L. pose proof (svd_orthonormal _ _ _ _ _ S (min k d - 1)%nat (min k d - 1)%nat ltac:(lia) ltac:(lia)) as O. unfold inner. unfold entry in O. rewrite O. unfold delta. rewrite Nat.eqb_refl. reflexivity.
Qed.
Lemma spaces_ok : exists spaces, foldM (fun spaces i => let* s := local_space_at svd container d k indices distances i in Ok (spaces ++ [s])) (seq 0 (length container)) [] = Ok spaces /\ length spaces = n /\
  forall i, (i < n)%nat -> exists s, nth_error spaces i = Some s /\ local_space_at svd container d k indices distances i = Ok s.
Proof.
  assert (G : forall m, (m <= n)%nat -> exists spaces, foldM (fun spaces i => let* s := local_space_at svd container d k indices distances i in Ok (spaces ++ [s])) (seq 0 m) [] = Ok spaces /\ length spaces = m /\
    forall i, (i < m)%nat -> exists s, nth_error spaces i = Some s /\ local_space_at svd container d k indices distances i = Ok s).
  { induction m as [|m IH]; intro Hm; [exists []; refine (conj eq_refl (conj eq_refl _)); intros; lia|]. destruct IH as (sp & F & L & G); [lia|]. destruct (space_ok m) as (M & s & sigma & _ & _ & E & _); [lia|].
    exists (sp ++ [s]). rewrite seq_S, foldM_app, F. cbn [bind foldM Nat.add]. rewrite E. cbn [bind]. refine (conj eq_refl (conj _ _)); [rewrite app_length, L; cbn; lia|]. intros i Him. destruct (Nat.eq_dec i m) as [->|Hne].
    - exists s. split; [|exact E]. rewrite nth_error_app2, L, Nat.sub_diag by lia. reflexivity.
    - destruct (G i) as (s' & E1 & E2); [lia|]. exists s'. split; [|exact E2]. rewrite nth_error_app1 by lia. exact E1. }
  rewrite (proj1 Hc). apply G. lia.
Qed.
End Local.

(** ** Orientation *)
Definition pair_lt (a b : nat * nat) : Prop := pair_ltb a b = true.
Lemma pair_lt_spec a b : pair_lt a b <-> (fst a < fst b \/ fst a = fst b /\ snd a < snd b)%nat.
Proof. unfold pair_lt, pair_ltb. rewrite orb_true_iff, andb_true_iff, Nat.eqb_eq, !Nat.ltb_lt. tauto. Qed.
Lemma pair_lt_trans a b c : pair_lt a b -> pair_lt b c -> pair_lt a c.
Proof. rewrite !pair_lt_spec. lia. Qed.
Lemma edge_insert_In e l x : In x (edge_insert e l) <-> x = e \/ In x l.
Proof.
  induction l as [|f r IH]; cbn [edge_insert In]; [intuition congruence|]. destruct (pair_ltb e f) eqn:E1; [cbn [In]; intuition congruence|]. destruct (pair_ltb f e) eqn:E2; [cbn [In]; rewrite IH; tauto|].
  assert (e = f). { assert (~ pair_lt e f) by (unfold pair_lt; congruence). assert (~ pair_lt f e) by (unfold pair_lt; congruence). rewrite pair_lt_spec in *. destruct e, f. cbn [fst snd] in *. f_equal; lia. } subst. cbn [In]. intuition congruence.
Qed.
Lemma edge_insert_sorted e l : StronglySorted pair_lt l -> StronglySorted pair_lt (edge_insert e l).
Proof.
  induction l as [|f r IH]; intro H; cbn [edge_insert]; [repeat constructor|]. pose proof (StronglySorted_inv H) as [H1 H2]. destruct (pair_ltb e f) eqn:E1.
  - constructor; [exact H|]. constructor; [exact E1|]. eapply Forall_impl; [|exact H2]. intros g Hg. eapply pair_lt_trans; eassumption.
  - destruct (pair_ltb f e) eqn:E2; [|exact H]. constructor; [apply IH; exact H1|]. apply Forall_forall. intros g Hg. apply edge_insert_In in Hg. destruct Hg as [->|Hg]; [exact E2|]. rewrite Forall_forall in H2. apply H2. exact Hg.
Qed.
Lemma edges_ok spaces : exists edges, orientation_edges spaces = Ok edges /\ StronglySorted pair_lt edges /\
  forall a b, In (a, b) edges <-> (a <= b)%nat /\ ((exists s, nth_error spaces a = Some s /\ In b (l_indices s)) \/ exists s, nth_error spaces b = Some s /\ In a (l_indices s)).
Proof.
  unfold orientation_edges.
  assert (In1 : forall i l edges, StronglySorted pair_lt edges -> let edges' := fold_left (fun edges index => edge_insert (if (i <? index)%nat then (i, index) else (index, i)) edges) l edges in
     StronglySorted pair_lt edges' /\ forall a b, In (a, b) edges' <-> In (a, b) edges \/ (a <= b)%nat /\ (a = i /\ In b l \/ b = i /\ In a l)).
  { intros i l. induction l as [|x l IH]; intros edges Hs; cbn [fold_left]; cbv zeta; [split; [exact Hs|]; cbn [In]; intros; tauto|]. pose proof (IH _ (edge_insert_sorted (if (i <? x)%nat then (i, x) else (x, i)) _ Hs)) as AB. cbv zeta in AB. destruct AB as [A B]. split; [exact A|]. intros a b. rewrite B, edge_insert_In. cbn [In]. clear.
    assert (E : (a, b) = (if (i <? x)%nat then (i, x) else (x, i)) <-> (a <= b)%nat /\ (a = i /\ x = b \/ b = i /\ x = a)). { destruct (Nat.ltb_spec i x); split; [intro Q; injection Q as -> ->; lia| |intro Q; injection Q as -> ->; lia|]; intros [L [[-> ->]|[-> ->]]]; try reflexivity; f_equal; lia. }
    rewrite E. tauto. }
  assert (G : forall m, (m <= length spaces)%nat -> exists edges, foldM (fun edges i => let* s := at_ spaces i in Ok (fold_left (fun edges index => edge_insert (if (i <? index)%nat then (i, index) else (index, i)) edges) (l_indices s) edges)) (seq 0 m) [] = Ok edges /\ StronglySorted pair_lt edges /\
    forall a b, In (a, b) edges <-> (a <= b)%nat /\ ((a < m)%nat /\ (exists s, nth_error spaces a = Some s /\ In b (l_indices s)) \/ (b < m)%nat /\ exists s, nth_error spaces b = Some s /\ In a (l_indices s))).
  { induction m as [|m IH]; intro Hm; [exists []; refine (conj eq_refl (conj (SSorted_nil _) _)); intros a b; cbn [In]; split; [tauto|intros [_ [[X _]|[X _]]]; lia]|]. destruct IH as (edges & F & S & G); [lia|]. rewrite seq_S, foldM_app, F. cbn [bind foldM Nat.add]. unfold at_ at 1. destruct (nth_error spaces m) as [s|] eqn:Es; [|apply nth_error_None in Es; lia]. cbn [bind].
    pose proof (In1 m (l_indices s) edges S) as AB. cbv zeta in AB. destruct AB as [A B]. eexists. refine (conj eq_refl (conj A _)). intros a b. rewrite B, G. split.
    - intros [[L [[X Y]|[X Y]]]|[L [[-> X]|[-> X]]]]; (split; [exact L|]); [left; split; [lia|exact Y]|right; split; [lia|exact Y]|left; split; [lia|]|right; split; [lia|]]; exists s; auto.
    - intros [L [[X (s' & Y & Z)]|[X (s' & Y & Z)]]]; [destruct (Nat.eq_dec a m) as [->|]|destruct (Nat.eq_dec b m) as [->|]].
      + rewrite Es in Y. injection Y as <-. right. auto.
      + left. split; [exact L|]. left. split; [lia|eauto].
      + rewrite Es in Y. injection Y as <-. right. auto.
      + left. split; [exact L|]. right. split; [lia|eauto]. }
  destruct (G (length spaces) (le_n _)) as (edges & F & S & H). exists edges. refine (conj F (conj S _)). intros a b. rewrite H. split; intros [L X]; (split; [exact L|]).
  - destruct X as [[_ X]|[_ X]]; auto.
  - assert (N : forall j s, nth_error spaces j = Some s -> (j < length spaces)%nat) by (intros j s E; apply nth_error_Some; congruence). destruct X as [(s & X & Y)|(s & X & Y)]; [left|right]; (split; [eapply N; exact X|eauto]).
Qed.
Lemma dot_opp x : forall y, dot x (map Ropp y) = - dot x y.
Proof. unfold dot, vec2. induction x as [|a x IH]; intros [|b y]; cbn; try lra. rewrite IH. lra. Qed.
Lemma dot_self x : 0 <= dot x x.
Proof. unfold dot, vec2. induction x as [|a x IH]; cbn; [lra|]. pose proof (Rle_0_sqr a). unfold Rsqr in *. lra. Qed.
Lemma opp_opp l : map Ropp (map Ropp l) = l.
Proof. rewrite map_map. rewrite <- (map_id l) at 2. apply map_ext. intro; lra. Qed.
Lemma error_upd {A} (l : list A) i a j : nth_error (upd l i a) j = if (i =? j)%nat then (match nth_error l j with Some _ => Some a | None => None end) else nth_error l j.
Proof. revert i j. induction l as [|b l IH]; intros [|i] [|j]; cbn; try reflexivity; [destruct (i =? j)%nat; reflexivity|apply IH]. Qed.
Lemma same_refl s : same_space s s.
Proof. exact (conj eq_refl (conj eq_refl (conj eq_refl (conj eq_refl (or_introl eq_refl))))). Qed.

Definition oriented (P : list (nat * nat)) (sp0 sp : list local_space) : Prop :=
  length sp = length sp0 /\
  (forall i s0, nth_error sp0 i = Some s0 -> exists s, nth_error sp i = Some s /\ same_space s0 s) /\
  (forall i j a b, In (i, j) P -> (i < j)%nat -> (forall i', In (i', j) P -> (i' < j)%nat -> (i' <= i)%nat) -> nth_error sp i = Some a -> nth_error sp j = Some b -> 0 <= dot (l_normal a) (l_normal b)) /\
  (forall j, (forall i, In (i, j) P -> (j <= i)%nat) -> nth_error sp j = nth_error sp0 j).
Lemma orient_fold sp0 Q : forall P sp, oriented P sp0 sp -> StronglySorted pair_lt (P ++ Q) -> (forall a b, In (a, b) Q -> (a <= b < length sp0)%nat) -> exists sp', foldM orient Q sp = Ok sp' /\ oriented (P ++ Q) sp0 sp'.
Proof.
  induction Q as [|[a b] Q IH]; intros P sp HI Hs Hb; [exists sp; rewrite app_nil_r; auto|]. cbn [foldM]. destruct (Hb a b (or_introl eq_refl)) as [Lab Lb]. destruct HI as (I1 & I2 & I3 & I4).
  destruct (nth_error sp a) as [sa|] eqn:Ea; [|apply nth_error_None in Ea; lia]. destruct (nth_error sp b) as [sb|] eqn:Eb; [|apply nth_error_None in Eb; lia].
  assert (Before : forall i j, In (i, j) P -> (i <= a)%nat). { intros i j X. assert (Y : pair_lt (i, j) (a, b)). { clear - Hs X. induction P as [|p P IHP]; [destruct X|]. cbn [app] in Hs. apply StronglySorted_inv in Hs. destruct Hs as [Hs1 Hs2]. destruct X as [->|X]; [rewrite Forall_forall in Hs2; apply Hs2; apply in_or_app; simpl; auto|apply IHP; assumption]. } apply pair_lt_spec in Y. cbn [fst snd] in Y. lia. }
  assert (Step : exists sp1, orient sp (a, b) = Ok sp1 /\ oriented (P ++ [(a, b)]) sp0 sp1).
  { unfold orient. cbn [fst snd]. unfold at_. rewrite Ea, Eb. cbn [bind]. destruct (Rlt_dec (dot (l_normal sa) (l_normal sb)) 0) as [Neg|Pos].
    - assert (Hne : a <> b) by (intros ->; rewrite Ea in Eb; injection Eb as ->; pose proof (dot_self (l_normal sb)); lra). eexists. split; [reflexivity|]. set (sb' := LocalSpace _ _ _ _ _). refine (conj _ (conj _ (conj _ _))).
      + rewrite upd_length. exact I1.
      + intros i s0 X. rewrite error_upd. destruct (Nat.eqb_spec b i) as [<-|Hbi]; [|apply I2; exact X]. rewrite Eb. exists sb'. split; [reflexivity|]. destruct (I2 b s0 X) as (s & Y & (S1 & S2 & S3 & S4 & S5)). rewrite Eb in Y. injection Y as <-. unfold same_space, sb'. cbn [l_tangents l_normal l_position l_size l_indices]. refine (conj S1 (conj S2 (conj S3 (conj S4 _)))). destruct S5 as [->| ->]; [auto|left; apply opp_opp].
      + intros i j x y X Hij Hmax Ex Ey. rewrite error_upd in Ex, Ey. assert (Hbi : b <> i). { intros <-. apply in_app_iff in X. destruct X as [X|[X|[]]]; [apply Before in X; lia|injection X as -> ->; lia]. } destruct (Nat.eqb_spec b i); [contradiction|].
        destruct (Nat.eqb_spec b j) as [<-|Hbj].
        * assert (i = a). { apply Nat.le_antisymm; [|apply Hmax; [apply in_or_app; simpl; auto|lia]]. apply in_app_iff in X. destruct X as [X|[X|[]]]; [apply Before in X; exact X|injection X as ->; lia]. } subst i. rewrite Eb in Ey. injection Ey as <-. rewrite Ea in Ex. injection Ex as <-. unfold sb'. cbn [l_normal]. rewrite dot_opp. lra.
        * apply (I3 i j x y); try assumption; [apply in_app_iff in X; destruct X as [X|[X|[]]]; [exact X|congruence]|]. intros i' X' L'. apply Hmax; [apply in_or_app; auto|exact L'].
      + intros j Hj. rewrite error_upd. destruct (Nat.eqb_spec b j) as [<-|Hbj]; [specialize (Hj a ltac:(apply in_or_app; simpl; auto)); lia|]. apply I4. intros i X. apply Hj. apply in_or_app. auto.
    - exists sp. split; [reflexivity|]. refine (conj I1 (conj I2 (conj _ _))).
      + intros i j x y X Hij Hmax Ex Ey. destruct (Nat.eq_dec b j) as [<-|Hbj].
        * destruct (Nat.eq_dec a b) as [->|Hab].
          { apply (I3 i b x y); try assumption; [apply in_app_iff in X; destruct X as [X|[X|[]]]; [exact X|injection X as ->; lia]|]. intros i' X' L'. apply Hmax; [apply in_or_app; auto|exact L']. }
          assert (i = a). { apply Nat.le_antisymm; [|apply Hmax; [apply in_or_app; simpl; auto|lia]]. apply in_app_iff in X. destruct X as [X|[X|[]]]; [apply Before in X; exact X|injection X as ->; lia]. } subst i. rewrite Eb in Ey. injection Ey as <-. rewrite Ea in Ex. injection Ex as <-. lra.
        * apply (I3 i j x y); try assumption; [apply in_app_iff in X; destruct X as [X|[X|[]]]; [exact X|congruence]|]. intros i' X' L'. apply Hmax; [apply in_or_app; auto|exact L'].
      + intros j Hj. apply I4. intros i X. apply Hj. apply in_or_app. auto. }
  destruct Step as (sp1 & E1 & O1). rewrite E1. cbn [bind]. destruct (IH (P ++ [(a, b)]) sp1 O1) as (sp' & E' & O'); [rewrite <- app_assoc; exact Hs|intros; apply Hb; simpl; auto|]. exists sp'. split; [exact E'|]. rewrite <- app_assoc in O'. exact O'.
Qed.
Lemma orientation_ok sp0 : (forall i s j, nth_error sp0 i = Some s -> In j (l_indices s) -> (j < length sp0)%nat) ->
  exists edges sp, propagateOrientation sp0 = Ok sp /\ oriented edges sp0 sp /\ forall a b, In (a, b) edges <-> (a <= b)%nat /\ ((exists s, nth_error sp0 a = Some s /\ In b (l_indices s)) \/ exists s, nth_error sp0 b = Some s /\ In a (l_indices s)).
Proof.
  intro H. unfold propagateOrientation. destruct (edges_ok sp0) as (edges & E & S & He). rewrite E. cbn [bind]. assert (O : oriented [] sp0 sp0). { refine (conj eq_refl (conj _ (conj _ _))); [intros i s X; exists s; auto using same_refl|intros ? ? ? ? []|auto]. }
  destruct (orient_fold sp0 edges [] sp0 O S) as (sp & E' & O').
  - intros a b X. apply He in X. destruct X as [L [(s & X & Y)|(s & X & Y)]]; (split; [exact L|]); [eapply H; eassumption|apply nth_error_Some; congruence].
  - exists edges, sp. auto.
Qed.

(** ** Local tangent spaces *)
Definition neighbourhoods (n k : nat) (indices : list (list nat)) (distances : list (list R)) : Prop :=
  length indices = n /\ (forall near, In near indices -> length near = k /\ forall i, In i near -> (i < n)%nat) /\ length distances = n.

Section Results.
Variable svd : nat -> nat -> list (list R) -> list (list R).
Variable container : list (list R).
Variables n d k : nat.
Variable indices : list (list nat).
Variable distances : list (list R).
Hypothesis Hc : table n d container.
Hypothesis Hd : (0 < d)%nat.
Hypothesis Hk : (0 < k)%nat.
Hypothesis Hn : neighbourhoods n k indices distances.
Hypothesis Hsvd : local_svd svd container n d k indices.

Lemma final_spaces : exists spaces, localTangentSpaces svd container d k indices distances = Ok spaces /\ length spaces = n /\
  (forall i, (i < n)%nat -> exists M sigma s, nth_error spaces i = Some s /\ coordinate_matrix container d k n (nth i indices []) = Ok M /\ svd_spec k d M sigma (svd k d M) /\
     l_tangents s = firstn (min k d - 1) (svd k d M) ++ repeat (zeros d) (d - min k d) /\ (l_normal s = nth (min k d - 1) (svd k d M) [] \/ l_normal s = map Ropp (nth (min k d - 1) (svd k d M) [])) /\
     l_position s = nth i container [] /\ l_size s = feature_size (nth i distances []) /\ l_indices s = nth i indices []) /\
  (forall i j a b, (i < j)%nat -> adjacent indices i j -> (forall i', (i' < j)%nat -> adjacent indices i' j -> (i' <= i)%nat) -> nth_error spaces i = Some a -> nth_error spaces j = Some b -> 0 <= dot (l_normal a) (l_normal b)).
Proof.
  destruct Hn as (H1 & H2 & H3). unfold localTangentSpaces. destruct (spaces_ok svd container n d k indices distances Hc Hd Hk H1 H2 H3 Hsvd) as (sp0 & E0 & L0 & G0). rewrite E0. cbn [bind].
  assert (Info : forall i s, nth_error sp0 i = Some s -> (i < n)%nat /\ l_indices s = nth i indices []). { intros i s X. assert (Hi : (i < n)%nat) by (rewrite <- L0; apply nth_error_Some; congruence). split; [exact Hi|]. destruct (G0 i Hi) as (s' & Y & Z). rewrite X in Y. injection Y as <-. destruct (space_ok svd container n d k indices distances Hc Hd Hk H1 H2 H3 Hsvd i Hi) as (M & s' & sigma & _ & _ & Z' & _ & _ & _ & _ & W). rewrite Z in Z'. injection Z' as <-. exact W. }
  destruct (orientation_ok sp0) as (edges & sp & E & (O1 & O2 & O3 & _) & He).
  { intros i s j X Y. destruct (Info i s X) as [Hi W]. rewrite W in Y. rewrite L0. apply (H2 (nth i indices [])); [apply nth_In; lia|exact Y]. }
  exists sp. refine (conj E (conj (eq_trans O1 L0) (conj _ _))).
  - intros i Hi. destruct (G0 i Hi) as (s0 & X0 & Z0). destruct (space_ok svd container n d k indices distances Hc Hd Hk H1 H2 H3 Hsvd i Hi) as (M & s' & sigma & A1 & A2 & Z' & A3 & A4 & A5 & A6 & A7). rewrite Z0 in Z'. injection Z' as <-. destruct (O2 i s0 X0) as (s & X & (S1 & S2 & S3 & S4 & S5)).
    exists M, sigma, s. rewrite S1, S2, S3, S4. rewrite A4 in S5. auto 10.
  - intros i j a b Hij Hadj Hmax Xa Xb. assert (Lj : (j < n)%nat) by (rewrite <- L0, <- O1; apply nth_error_Some; congruence).
    assert (Hed : forall i' j', (i' < j')%nat -> (j' < n)%nat -> In (i', j') edges <-> adjacent indices i' j').
    { intros i' j' L1 L2. rewrite He. destruct (G0 i' ltac:(lia)) as (si & Xi & _). destruct (G0 j' L2) as (sj & Xj & _). rewrite Xi, Xj. unfold adjacent. rewrite <- (proj2 (Info _ _ Xi)), <- (proj2 (Info _ _ Xj)). split.
      - intros [_ [(s & W & V)|(s & W & V)]]; injection W as <-; auto.
      - intros [V|V]; (split; [lia|]); [left|right]; eauto. }
    apply (O3 i j a b); try assumption; [apply Hed; assumption|]. intros i' X L. apply Hmax; [exact L|apply Hed; assumption].
Qed.

Lemma vector_length M sigma j : svd_spec k d M sigma (svd k d M) -> (j < min k d)%nat -> length (nth j (svd k d M) []) = d.
Proof. intros S Hj. apply (svd_width _ _ _ _ _ S), nth_In. rewrite (svd_vectors _ _ _ _ _ S). exact Hj. Qed.
Lemma feature_max l : match l with [] => feature_size l = 0 | _ => In (feature_size l) l /\ forall x, In x l -> x <= feature_size l end.
Proof.
  destruct l as [|a l]; [reflexivity|]. cbn [feature_size]. revert a. induction l as [|b l IH]; intro a; cbn [fold_left]; [split; [simpl; auto|intros x [<-|[]]; lra]|]. destruct (IH (Rmax a b)) as [A B]. split.
  - destruct A as [A|A]; [|simpl; auto]. rewrite <- A. unfold Rmax. destruct (Rle_dec a b); simpl; auto.
  - intros x Hx. pose proof (Rmax_l a b). pose proof (Rmax_r a b). pose proof (B (Rmax a b) (or_introl eq_refl)). destruct Hx as [<-|[<-|Hx]]; [lra|lra|apply B; simpl; auto].
Qed.
Lemma inner_opp_l x y : length x = d -> inner d (map Ropp x) y = - inner d x y.
Proof. intro L. unfold inner. rewrite (sumR_ext d _ (fun c => (-1) * (nth c x 0 * nth c y 0))) by (intros c Hcd; rewrite nth_map_R by lia; ring). rewrite sumR_scale. ring. Qed.
Lemma inner_sym x y : inner d x y = inner d y x.
Proof. unfold inner. apply sumR_ext. intros; ring. Qed.

(** every point is assigned its position, the distance of its farthest neighbour, orthonormal tangents and a unit normal that is orthogonal to them *)
Theorem C140_spaces : exists spaces, localTangentSpaces svd container d k indices distances = Ok spaces /\ length spaces = n /\ forall i, (i < n)%nat -> exists s, nth_error spaces i = Some s /\
  l_position s = nth i container [] /\ l_indices s = nth i indices [] /\ (nth i distances [] = [] -> l_size s = 0) /\ (forall x, In x (nth i distances []) -> In (l_size s) (nth i distances []) /\ x <= l_size s) /\
  length (l_normal s) = d /\ inner d (l_normal s) (l_normal s) = 1 /\ length (l_tangents s) = (d - 1)%nat /\
  (forall a, (a < d - 1)%nat -> length (nth a (l_tangents s) []) = d /\ inner d (nth a (l_tangents s) []) (l_normal s) = 0) /\
  (forall a b, (a < min k d - 1)%nat -> (b < min k d - 1)%nat -> inner d (nth a (l_tangents s) []) (nth b (l_tangents s) []) = if (a =? b)%nat then 1 else 0).
Proof.
  destruct final_spaces as (spaces & E & L & G & _). exists spaces. refine (conj E (conj L _)). intros i Hi. destruct (G i Hi) as (M & sigma & s & X & _ & S & T & N & P & Z & W). exists s. refine (conj X (conj P (conj W _))). clear G E X.
  pose proof (svd_vectors _ _ _ _ _ S) as LV. set (V := svd k d M) in *. assert (Lv : forall j, (j < min k d)%nat -> length (nth j V []) = d) by (intros j Hj; apply (svd_width _ _ _ _ _ S), nth_In; lia).
  assert (O : forall a b, (a < min k d)%nat -> (b < min k d)%nat -> inner d (nth a V []) (nth b V []) = if (a =? b)%nat then 1 else 0) by (exact (svd_orthonormal _ _ _ _ _ S)).
  assert (Tl : length (l_tangents s) = (d - 1)%nat) by (rewrite T, app_length, firstn_length_le, repeat_length by lia; lia).
  assert (Ta : forall a, (a < min k d - 1)%nat -> nth a (l_tangents s) [] = nth a V []). { intros a Ha. rewrite T, app_nth1 by (rewrite firstn_length_le by lia; exact Ha). rewrite <- (firstn_skipn (min k d - 1) V) at 2. rewrite app_nth1 by (rewrite firstn_length_le by lia; exact Ha). reflexivity. }
  assert (Tz : forall a, (min k d - 1 <= a < d - 1)%nat -> nth a (l_tangents s) [] = zeros d). { intros a Ha. rewrite T, app_nth2 by (rewrite firstn_length_le by lia; lia). rewrite firstn_length_le by lia. rewrite (nth_indep _ [] (zeros d)) by (rewrite repeat_length; lia). apply nth_repeat. }
  assert (Hm : (min k d - 1 < min k d)%nat) by lia. pose proof (O _ _ Hm Hm) as Ou. rewrite Nat.eqb_refl in Ou. pose proof (Lv _ Hm) as Ln. pose proof (feature_max (nth i distances [])) as F. rewrite <- Z in F.
  assert (Sz : (nth i distances [] = [] -> l_size s = 0) /\ (forall x, In x (nth i distances []) -> In (l_size s) (nth i distances []) /\ x <= l_size s)). { destruct (nth i distances []) as [|x0 r]; [split; [auto|intros x []]|]. destruct F as [F1 F2]. split; [discriminate|]. intros x Hx. split; [exact F1|apply F2; exact Hx]. }
  refine (conj (proj1 Sz) (conj (proj2 Sz) _)).
  assert (Nl : length (l_normal s) = d) by (destruct N as [->| ->]; [|rewrite map_length]; exact Ln).
  refine (conj Nl (conj _ (conj Tl (conj _ _)))).
  - destruct N as [->| ->]; [exact Ou|]. rewrite inner_opp_l, inner_sym, inner_opp_l by exact Ln. lra.
  - intros a Ha. assert (A : length (nth a (l_tangents s) []) = d /\ inner d (nth a (l_tangents s) []) (nth (min k d - 1) V []) = 0).
    { destruct (Nat.lt_ge_cases a (min k d - 1)) as [La|La].
      - rewrite Ta by exact La. split; [apply Lv; lia|]. rewrite O by lia. destruct (Nat.eqb_spec a (min k d - 1)); [lia|reflexivity].
      - rewrite Tz by lia. split; [apply zeros_length|]. unfold inner. apply sumR_zero. intros c _. rewrite zeros_nth. ring. }
    split; [apply A|]. destruct N as [->| ->]; [apply A|]. rewrite inner_sym, inner_opp_l, inner_sym by exact Ln. rewrite (proj2 A). lra.
  - intros a b Ha Hb. rewrite !Ta by assumption. apply O; lia.
Qed.

(** if all points are neighbours, or the neighbours are centred at the origin, then the normal is that of the best approximating plane *)
Theorem C140_normal spaces i s : localTangentSpaces svd container d k indices distances = Ok spaces -> nth_error spaces i = Some s -> (d <= k)%nat ->
  (k = n \/ forall c, (c < d)%nat -> near_mean container (nth i indices []) k c = 0) ->
  forall x, sumR d (fun c => x c * x c) = 1 -> plane_error container d k (nth i indices []) (fun c => nth c (l_normal s) 0) <= plane_error container d k (nth i indices []) x.
Proof.
  intros E X Hdk Hcen x Hx. destruct final_spaces as (spaces' & E' & L & G & _). rewrite E in E'. injection E' as <-. assert (Hi : (i < n)%nat) by (rewrite <- L; apply nth_error_Some; congruence). destruct (G i Hi) as (M & sigma & s' & X' & EM & S & _ & N & _). rewrite X in X'. injection X' as <-.
  destruct Hn as (H1 & H2 & _). destruct (H2 (nth i indices []) ltac:(apply nth_In; lia)) as [L1 L2]. destruct (matrix_ok container n d k Hc (nth i indices []) n L2 L1) as (M' & EM' & _ & HM). rewrite EM in EM'. injection EM' as <-.
  assert (Hk0 : 0 < INR k) by (apply lt_0_INR; exact Hk). assert (Hn0 : 0 < INR n) by (apply lt_0_INR; lia).
  assert (Mean : forall c, (c < d)%nat -> sumR k (fun j' => nth c (neighbour container (nth i indices []) j') 0) / INR n = near_mean container (nth i indices []) k c).
  { intros c Hcd. destruct Hcen as [->|Hcen]; [reflexivity|]. pose proof (Hcen c Hcd) as Z. rewrite Z. unfold near_mean in Z. assert (Y : sumR k (fun j' => nth c (neighbour container (nth i indices []) j') 0) = 0) by (apply (Rmult_eq_reg_r (/ INR k)); [unfold Rdiv in Z; lra|apply Rinv_neq_0_compat; lra]). rewrite Y. unfold Rdiv. ring. }
  assert (P : forall y, plane_error container d k (nth i indices []) y = sumR k (fun r => sumR d (fun c => entry M r c * y c) * sumR d (fun c => entry M r c * y c))).
  { intro y. unfold plane_error. apply sumR_ext. intros j Hj. cbv zeta. assert (Q : sumR d (fun c => (nth c (neighbour container (nth i indices []) j) 0 - near_mean container (nth i indices []) k c) * y c) = sumR d (fun c => entry M j c * y c)) by (apply sumR_ext; intros c Hcd; rewrite HM, Mean by assumption; reflexivity). rewrite Q. reflexivity. }
  rewrite !P. rewrite Nat.min_r in N by exact Hdk. pose proof (shrink k d M sigma _ S x Hdk Hd) as Low. unfold size2 in Low. rewrite Hx, Rmult_1_r in Low. pose proof (image_vector k d M sigma _ S (d - 1)%nat ltac:(lia)) as Im.
  assert (Nm : sumR k (fun r => sumR d (fun c => entry M r c * nth c (l_normal s) 0) * sumR d (fun c => entry M r c * nth c (l_normal s) 0)) = singular sigma (d - 1) * singular sigma (d - 1)).
  { rewrite <- Im. apply sumR_ext. intros r Hr. destruct N as [->| ->]; [reflexivity|]. rewrite (sumR_ext d (fun c => entry M r c * nth c (map Ropp (nth (d - 1) (svd k d M) [])) 0) (fun c => (-1) * (entry M r c * entry (svd k d M) (d - 1) c))).
    - rewrite sumR_scale. ring.
    - intros c Hcd. rewrite nth_map_R by (rewrite (vector_length M sigma) by (try exact S; lia); exact Hcd). unfold entry. ring. }
  rewrite Nm. exact Low.
Qed.
(** the normals of a point and its nearest predecessor among its neighbours have the same orientation *)
Theorem C140_orientation spaces i j a b : localTangentSpaces svd container d k indices distances = Ok spaces -> nth_error spaces i = Some a -> nth_error spaces j = Some b ->
  (i < j)%nat -> adjacent indices i j -> (forall i', (i' < j)%nat -> adjacent indices i' j -> (i' <= i)%nat) -> 0 <= inner d (l_normal a) (l_normal b).
Proof.
  intros E Xa Xb Hij Hadj Hmax. destruct final_spaces as (spaces' & E' & L & G & O). rewrite E in E'. injection E' as <-. pose proof (O i j a b Hij Hadj Hmax Xa Xb) as D.
  assert (Ln : forall m s, nth_error spaces m = Some s -> length (l_normal s) = d). { intros m s X. assert (Hm : (m < n)%nat) by (rewrite <- L; apply nth_error_Some; congruence). destruct (G m Hm) as (M & sigma & s' & X' & _ & S & _ & N & _). rewrite X in X'. injection X' as <-. destruct N as [->| ->]; [|rewrite map_length]; apply (vector_length M sigma); try exact S; lia. }
  rewrite (dot_inner d) in D by (eapply Ln; eassumption). exact D.
Qed.
End Results.

(** ** Spheres *)
Theorem C140_weights x y : 0 <= x <= y -> 0 <= phi y <= phi x /\ phi x <= 1 /\ phi 0 = 1 /\ (phi x = 0 <-> 1 <= x).
Proof.
  intros [H0 H1]. assert (P : forall a b, 0 <= a <= b -> a ^ 4 <= b ^ 4) by (intros a b [A B]; apply pow_incr; lra).
  assert (Hphi : forall z, 0 <= z -> 0 <= phi z /\ phi z <= 1 /\ (phi z = 0 <-> 1 <= z)).
  { intros z Hz. unfold phi. destruct (Rlt_dec z 1) as [L|L]; [|split; [lra|]; split; [lra|]; split; lra]. assert (Q : 0 < 1 - z * z) by nra. pose proof (pow_lt (1 - z * z) 4 Q) as Q4. refine (conj (Rlt_le _ _ Q4) (conj _ _)).
    - rewrite <- (pow1 4). apply P. nra.
    - split; [|lra]. intro X. exfalso. lra. }
  destruct (Hphi y ltac:(lra)) as (Y1 & _). destruct (Hphi x H0) as (X1 & X2 & X3). refine (conj (conj Y1 _) (conj X2 (conj _ X3))).
  - unfold phi in *. destruct (Rlt_dec y 1), (Rlt_dec x 1); try lra. apply P. split; nra.
  - unfold phi. destruct (Rlt_dec 0 1); [|lra]. replace (1 - 0 * 0) with 1 by ring. apply pow1.
Qed.
(** the farthest neighbour has no influence *)
Theorem C140_farthest position neighbour size : norm (vec2 Rminus position neighbour) = size -> weight position neighbour size = 0.
Proof. intros <-. unfold weight, divR. destruct (Req_EM_T _ 0) as [E|E]; [reflexivity|]. unfold phi. unfold Rdiv. rewrite Rinv_r by exact E. destruct (Rlt_dec 1 1); [lra|reflexivity]. Qed.

Lemma matrix_entry n m f r c : (r < n)%nat -> (c < m)%nat -> entry_of (matrix_of n m f) r c = f r c.
Proof.
  intros Hr Hc. unfold entry_of, matrix_of. rewrite (nth_indep _ [] ((fun r => map (f r) (seq 0 m)) 0%nat)) by (rewrite map_length, seq_length; exact Hr). rewrite (map_nth (fun r => map (f r) (seq 0 m)) (seq 0 n) 0%nat r). rewrite seq_nth by exact Hr. cbn [Nat.add].
  rewrite (nth_indep _ 0 (f r 0%nat)) by (rewrite map_length, seq_length; exact Hc). rewrite (map_nth (f r) (seq 0 m) 0%nat c). rewrite seq_nth by exact Hc. reflexivity.
Qed.
Lemma mul_entry n k m A B r c : (r < n)%nat -> (c < m)%nat -> entry_of (mat_mul n k m A B) r c = sumR k (fun i => entry_of A r i * entry_of B i c).
Proof. intros Hr Hc. unfold mat_mul. rewrite matrix_entry by assumption. reflexivity. Qed.
Lemma normal_entry d W D r c : (r < d + 2)%nat -> (c < d + 2)%nat -> entry_of (normal_matrix d W D) r c = sumR (length W) (fun i => nth i W 0 * (entry_of D i r * entry_of D i c)).
Proof.
  intros Hr Hc. unfold normal_matrix. rewrite mul_entry by assumption. apply sumR_ext. intros i Hi. rewrite mul_entry by assumption.
  rewrite (sumR_single _ i); [|exact Hi|].
  - unfold transpose. rewrite !matrix_entry by assumption. rewrite Nat.eqb_refl. ring.
  - intros j Hj Hne. rewrite (matrix_entry (length W) (length W)) by assumption. destruct (Nat.eqb_spec j i); [contradiction|ring].
Qed.
(** the quadratic form of a matrix *)
Definition quadratic (m : nat) (A : list (list R)) (u : list R) : R := sumR m (fun r => nth r u 0 * sumR m (fun c => entry_of A r c * nth c u 0)).
Lemma normal_quadratic d W D u : quadratic (d + 2) (normal_matrix d W D) u = sumR (length W) (fun i => nth i W 0 * (sumR (d + 2) (fun c => entry_of D i c * nth c u 0) * sumR (d + 2) (fun c => entry_of D i c * nth c u 0))).
Proof.
  unfold quadratic. rewrite (sumR_ext (d + 2) _ (fun r => sumR (length W) (fun i => nth i W 0 * (entry_of D i r * nth r u 0) * sumR (d + 2) (fun c => entry_of D i c * nth c u 0)))).
  - rewrite sumR_swap. apply sumR_ext. intros i Hi. rewrite sumR_scale_r. rewrite sumR_scale. ring.
  - intros r Hr. rewrite (sumR_ext (d + 2) (fun c => entry_of (normal_matrix d W D) r c * nth c u 0) (fun c => sumR (length W) (fun i => nth i W 0 * (entry_of D i r * entry_of D i c) * nth c u 0))) by (intros c Hc; rewrite normal_entry by assumption; rewrite <- sumR_scale_r; reflexivity).
    rewrite sumR_swap, <- sumR_scale. apply sumR_ext. intros i Hi. rewrite (sumR_ext (d + 2) _ (fun c => nth i W 0 * entry_of D i r * (entry_of D i c * nth c u 0))) by (intros; ring). rewrite sumR_scale. ring.
Qed.
Lemma sum_ends d f : sumR (d + 2) f = f 0%nat + sumR d (fun c => f (c + 1)%nat) + f (d + 1)%nat.
Proof.
  replace (d + 2)%nat with (S (S d)) by lia. rewrite sumR_S. replace (S d) with (d + 1)%nat by lia. f_equal. replace (d + 1)%nat with (S d) by lia. unfold sumR. cbn [seq map fold_right]. rewrite <- seq_shift, map_map. f_equal. f_equal. apply map_ext. intro c. f_equal. lia.
Qed.
Lemma pratt_quadratic d u : quadratic (d + 2) (pratt d) u = sumR d (fun c => nth (c + 1) u 0 * nth (c + 1) u 0) - 4 * nth 0 u 0 * nth (d + 1) u 0.
Proof.
  unfold quadratic. rewrite sum_ends. unfold pratt.
  assert (A : sumR (d + 2) (fun c => entry_of (matrix_of (d + 2) (d + 2) (fun r c0 => if (r =? 0)%nat then if (c0 =? d + 1)%nat then -2 else 0 else if (r =? d + 1)%nat then if (c0 =? 0)%nat then -2 else 0 else if (r =? c0)%nat then 1 else 0)) 0 c * nth c u 0) = -2 * nth (d + 1) u 0).
  { rewrite (sumR_single _ (d + 1)%nat); [|lia|intros c Hc Hne; rewrite matrix_entry by lia; cbn [Nat.eqb]; destruct (Nat.eqb_spec c (d + 1)); [contradiction|ring]]. rewrite matrix_entry by lia. cbn [Nat.eqb]. rewrite Nat.eqb_refl. reflexivity. }
  rewrite A. clear A.
  assert (A : sumR (d + 2) (fun c => entry_of (matrix_of (d + 2) (d + 2) (fun r c0 => if (r =? 0)%nat then if (c0 =? d + 1)%nat then -2 else 0 else if (r =? d + 1)%nat then if (c0 =? 0)%nat then -2 else 0 else if (r =? c0)%nat then 1 else 0)) (d + 1) c * nth c u 0) = -2 * nth 0 u 0).
  { rewrite (sumR_single _ 0%nat); [|lia|intros c Hc Hne; rewrite matrix_entry by lia; destruct (Nat.eqb_spec (d + 1) 0); [lia|]; rewrite Nat.eqb_refl; destruct (Nat.eqb_spec c 0); [contradiction|ring]]. rewrite matrix_entry by lia. destruct (Nat.eqb_spec (d + 1) 0); [lia|]. rewrite Nat.eqb_refl. reflexivity. }
  rewrite A. clear A. rewrite (sumR_ext d _ (fun c => nth (c + 1) u 0 * nth (c + 1) u 0)); [ring|]. intros r Hr. f_equal. rewrite (sumR_single _ (r + 1)%nat); [|lia|].
  - rewrite matrix_entry by lia. destruct (Nat.eqb_spec (r + 1) 0); [lia|]. destruct (Nat.eqb_spec (r + 1) (d + 1)); [lia|]. rewrite Nat.eqb_refl. ring.
  - intros c Hc Hne. rewrite matrix_entry by lia. destruct (Nat.eqb_spec (r + 1) 0); [lia|]. destruct (Nat.eqb_spec (r + 1) (d + 1)); [lia|]. destruct (Nat.eqb_spec (r + 1) c); [congruence|ring].
Qed.
Definition sphere_row (p : list R) : list R := 1 :: p ++ [dot p p].
Lemma rows_sum d u p : length p = d -> sumR (d + 2) (fun c => nth c (sphere_row p) 0 * nth c u 0) = polynomial d u p.
Proof.
  intro L. rewrite sum_ends. unfold sphere_row, polynomial. cbn [nth]. rewrite Nat.add_1_r. cbn [nth]. rewrite app_nth2, L, Nat.sub_diag by lia. cbn [nth]. rewrite (dot_inner d) by exact L. rewrite (sumR_ext d _ (fun c => nth (c + 1) u 0 * nth c p 0)); [rewrite ?Nat.add_1_r; ring|]. intros c Hc. rewrite Nat.add_1_r. cbn [nth]. rewrite app_nth1 by lia. ring.
Qed.
Lemma sphere_rows_ok container n d s : table n d container -> (forall i, In i (l_indices s) -> (i < n)%nat) ->
  sphere_rows container s = Ok (map (fun i => weight (l_position s) (nth i container []) (l_size s)) (l_indices s), map (fun i => sphere_row (nth i container [])) (l_indices s)).
Proof.
  intros Hc H. unfold sphere_rows. assert (G : forall b W D, (forall i, In i b -> (i < n)%nat) -> foldM (fun '(W, D) index => let* neighbour := getPosition container index in Ok (W ++ [weight (l_position s) neighbour (l_size s)], D ++ [1 :: neighbour ++ [dot neighbour neighbour]])) b (W, D) =
     Ok (W ++ map (fun i => weight (l_position s) (nth i container []) (l_size s)) b, D ++ map (fun i => sphere_row (nth i container [])) b)).
  { induction b as [|i b IH]; intros W D Hb; cbn [foldM map]; [rewrite !app_nil_r; reflexivity|]. rewrite position_ok by (rewrite (proj1 Hc); apply Hb; simpl; auto). cbn [bind]. rewrite IH by (intros; apply Hb; simpl; auto). rewrite <- !app_assoc. reflexivity. }
  apply (G _ [] []). exact H.
Qed.

(** [u] is an eigenvector of the pencil A - l C *)
Definition pencil (m : nat) (A C : list (list R)) (l : R) (u : list R) : Prop :=
  forall r, (r < m)%nat -> sumR m (fun c => entry_of A r c * nth c u 0) = l * sumR m (fun c => entry_of C r c * nth c u 0).
Definition correct_eigen (d : nat) (eigen : list (list R) -> list (list R) -> list ((R * R) * list R)) : Prop :=
  forall A re im u, In ((re, im), u) (eigen A (pratt d)) -> length u = (d + 2)%nat /\ (im = 0 -> pencil (d + 2) A (pratt d) re u).
Lemma pencil_quadratic m A C l u : pencil m A C l u -> quadratic m A u = l * quadratic m C u.
Proof. intro H. unfold quadratic. rewrite <- sumR_scale. apply sumR_ext. intros r Hr. rewrite H by exact Hr. ring. Qed.
Lemma zeros_curvature d : (0 < d)%nat -> meanCurvature (zeros (d + 2)) = 0.
Proof.
  intro Hd. unfold meanCurvature, radius. assert (E : square_norm (centre (zeros (d + 2))) = None).
  { unfold centre. assert (Z : last (zeros (d + 2)) 0 = 0). { assert (P : forall m, last (zeros m) 0 = 0) by (induction m as [|[|m] IH]; cbn; auto). apply P. } rewrite Z. assert (Q : forall x, divR x (2 * 0) = None) by (intro x; unfold divR; destruct (Req_EM_T (2 * 0) 0); [reflexivity|lra]). destruct d as [|d]; [lia|]. cbn [Nat.add zeros repeat tl]. fold (zeros (d + 2)). replace (d + 2)%nat with (S (S d)) by lia. cbn [zeros repeat removelast map]. rewrite Q. unfold square_norm. cbn [fold_left].
    assert (P : forall l, fold_left (fun acc x => match acc, x with Some acc, Some x => Some (acc + x * x) | _, _ => None end) l None = None) by (induction l; cbn; auto). apply P. }
  rewrite E. reflexivity.
Qed.
Lemma sphere_length u d : length u = (d + 2)%nat -> (0 < d)%nat -> sphere_make u = Ok u.
Proof. intros L Hd. unfold sphere_make. destruct (Nat.ltb_spec (length u) 3); [lia|reflexivity]. Qed.

(** the result of a point is the mean curvature of an algebraic sphere that is an eigenvector for a positive eigenvalue, i.e. the weighted errors of the neighbours are this eigenvalue times Pratt's norm, or zero if there is no such eigenvalue *)
Theorem C140_curvature svd eigen container n d k indices distances : table n d container -> (0 < d)%nat -> (0 < k)%nat -> neighbourhoods n k indices distances -> local_svd svd container n d k indices -> correct_eigen d eigen ->
  exists cs, tangent_space svd eigen container d k indices distances = Ok cs /\ length cs = n /\ forall i, (i < n)%nat ->
    let error u := sumR k (fun j => let p := neighbour container (nth i indices []) j in weight (nth i container []) p (feature_size (nth i distances [])) * (polynomial d u p * polynomial d u p)) in
    exists A, (forall u, quadratic (d + 2) A u = error u) /\
      ((exists l u, In ((l, 0), u) (eigen A (pratt d)) /\ 0 < l /\ nth i cs 0 = meanCurvature u /\ error u = l * (sumR d (fun c => nth (c + 1) u 0 * nth (c + 1) u 0) - 4 * nth 0 u 0 * nth (d + 1) u 0)) \/
       (forall l u, In ((l, 0), u) (eigen A (pratt d)) -> l <= 0) /\ nth i cs 0 = 0).
Proof.
  intros Hc Hd Hk Hn Hsvd He. destruct (final_spaces svd container n d k indices distances Hc Hd Hk Hn Hsvd) as (spaces & E & L & G & _). unfold tangent_space. rewrite E. cbn [bind]. destruct Hn as (H1 & H2 & H3).
  pose (A := fun s => normal_matrix d (map (fun i => weight (l_position s) (nth i container []) (l_size s)) (l_indices s)) (map (fun i => sphere_row (nth i container [])) (l_indices s))).
  assert (F : forall b spheres, (forall s, In s b -> forall i, In i (l_indices s) -> (i < n)%nat) -> foldM (fun spheres s => let* rows := sphere_rows container s in let (W, D) := rows in let* sphere := sphere_make (select d (eigen (normal_matrix d W D) (pratt d))) in Ok (spheres ++ [sphere])) b spheres = Ok (spheres ++ map (fun s => select d (eigen (A s) (pratt d))) b)).
  { induction b as [|s b IH]; intros spheres Hb; cbn [foldM map]; [rewrite app_nil_r; reflexivity|]. rewrite (sphere_rows_ok container n d) by (try exact Hc; apply Hb; simpl; auto). cbn [bind]. fold (A s). rewrite (sphere_length _ d).
    - cbn [bind]. rewrite IH by (intros s0 Hs0; apply Hb; simpl; auto). rewrite <- app_assoc. reflexivity.
    - unfold select. destruct (find _ _) as [[[re im] u]|] eqn:Ef; [|apply zeros_length]. apply find_some in Ef. destruct Ef as [Ef _]. apply He in Ef. apply Ef.
    - exact Hd. }
  unfold fitSpheresWithoutNormals. rewrite (F spaces); [|intros s Hs i Hi].
  2:{ apply In_nth_error in Hs. destruct Hs as (m & Xm). assert (Hm : (m < n)%nat) by (rewrite <- L; apply nth_error_Some; congruence). destruct (G m Hm) as (M & sigma & s' & X' & _ & _ & _ & _ & _ & _ & W). rewrite Xm in X'. injection X' as <-. rewrite W in Hi. apply (H2 (nth m indices [])); [apply nth_In; lia|exact Hi]. }
  cbn [bind app]. eexists. split; [reflexivity|]. split; [rewrite !map_length; exact L|]. intros i Hi. pose (error := fun u => sumR k (fun j => let p := neighbour container (nth i indices []) j in weight (nth i container []) p (feature_size (nth i distances [])) * (polynomial d u p * polynomial d u p))). destruct (G i Hi) as (M & sigma & s & X & _ & _ & _ & _ & P & Z & W). exists (A s). destruct (H2 (nth i indices []) ltac:(apply nth_In; lia)) as [L1 L2].
  assert (Q : forall u, quadratic (d + 2) (A s) u = error u).
  { intro u. unfold A, error. rewrite normal_quadratic, map_length, W, L1. apply sumR_ext. intros j Hj. cbv zeta. rewrite P, Z. rewrite (nth_indep _ 0 ((fun i0 => weight (nth i container []) (nth i0 container []) (feature_size (nth i distances []))) 0%nat)) by (rewrite map_length; lia). rewrite (map_nth (fun i0 => weight (nth i container []) (nth i0 container []) (feature_size (nth i distances []))) (nth i indices []) 0%nat j). f_equal.
    assert (R1 : sumR (d + 2) (fun c => entry_of (map (fun i0 => sphere_row (nth i0 container [])) (nth i indices [])) j c * nth c u 0) = polynomial d u (neighbour container (nth i indices []) j)).
    { rewrite <- rows_sum by (apply (point_length container n d Hc), L2, nth_In; lia). apply sumR_ext. intros c _. f_equal. unfold entry_of. rewrite (nth_indep _ [] ((fun i0 => sphere_row (nth i0 container [])) 0%nat)) by (rewrite map_length; lia). rewrite (map_nth (fun i0 => sphere_row (nth i0 container [])) (nth i indices []) 0%nat j). reflexivity. }
    rewrite R1. reflexivity. }
  split; [exact Q|]. assert (Ni : nth i (map meanCurvature (map (fun s0 => select d (eigen (A s0) (pratt d))) spaces)) 0 = meanCurvature (select d (eigen (A s) (pratt d)))).
  { rewrite map_map. apply nth_error_nth. rewrite nth_error_map, X. reflexivity. }
  rewrite Ni. unfold select. destruct (find _ _) as [[[re im] u]|] eqn:Ef.
  - left. apply find_some in Ef. destruct Ef as [Ef Et]. cbn [fst snd] in Et. destruct (Rlt_dec 0 re) as [Hre|]; [|discriminate]. destruct (Req_EM_T im 0) as [->|]; [|discriminate]. exists re, u. refine (conj Ef (conj Hre (conj eq_refl _))). rewrite <- pratt_quadratic. refine (eq_trans (eq_sym (Q u)) _). apply pencil_quadratic. apply He in Ef. apply Ef. reflexivity.
  - right. split; [|apply zeros_curvature; exact Hd]. intros l u Hu. apply find_none with (x := ((l, 0), u)) in Ef; [|exact Hu]. cbn [fst snd] in Ef. destruct (Rlt_dec 0 l); [|lra]. destruct (Req_EM_T 0 0); [discriminate|congruence].
Qed.

(** ** Two points on a line *)
Definition pair_points : list (list R) := [[-1; 0]; [1; 0]].
Definition pair_svd : nat -> nat -> list (list R) -> list (list R) := fun _ _ _ => [[1; 0]; [0; 1]].
Lemma two_points near M : In near [[0; 1]; [1; 0]]%nat -> coordinate_matrix pair_points 2 2 2 near = Ok M -> exists e, (e = 1 \/ e = -1) /\ forall r c, (r < 2)%nat -> (c < 2)%nat -> entry M r c = nth c (nth r [[- e; 0]; [e; 0]] []) 0.
Proof.
  intros Hn E. assert (T : table 2 2 pair_points) by (split; [reflexivity|]; intros row [<-|[<-|[]]]; reflexivity).
  assert (Hl : length near = 2%nat /\ forall i, In i near -> (i < 2)%nat) by (destruct Hn as [<-|[<-|[]]]; (split; [reflexivity|]); intros i [<-|[<-|[]]]; lia). destruct (matrix_ok pair_points 2 2 2 T near 2 (proj2 Hl) (proj1 Hl)) as (M' & E' & _ & H). rewrite E in E'. injection E' as <-.
  destruct Hn as [<-|[<-|[]]]; [exists 1|exists (-1)]; (split; [auto|]); intros r c Hr Hcc; rewrite H by assumption; unfold neighbour, sumR, pair_points; replace (INR 2) with 2 by (simpl; lra); destruct r as [|[|?]], c as [|[|?]]; try lia; cbn; lra.
Qed.
Example C140_example : local_svd pair_svd pair_points 2 2 2 [[0; 1]; [1; 0]]%nat /\ neighbourhoods 2 2 [[0; 1]; [1; 0]]%nat [[0; 2]; [0; 2]] /\
  exists spaces, localTangentSpaces pair_svd pair_points 2 2 [[0; 1]; [1; 0]]%nat [[0; 2]; [0; 2]] = Ok spaces /\ map l_tangents spaces = [[[1; 0]]; [[1; 0]]] /\ map l_size spaces = [2; 2].
Proof.
  assert (T : table 2 2 pair_points) by (split; [reflexivity|]; intros row [<-|[<-|[]]]; reflexivity).
  assert (N : neighbourhoods 2 2 [[0; 1]; [1; 0]]%nat [[0; 2]; [0; 2]]). { refine (conj eq_refl (conj _ eq_refl)). intros near [<-|[<-|[]]]; (split; [reflexivity|]); intros i [<-|[<-|[]]]; lia. }
  assert (S : local_svd pair_svd pair_points 2 2 2 [[0; 1]; [1; 0]]%nat).
  { intros near M Hn E. destruct (two_points near M Hn E) as (e & He & HM). exists [sqrt 2; 0]. assert (A : sqrt 2 * sqrt 2 = 2) by (apply sqrt_sqrt; lra). assert (0 < sqrt 2) by (apply sqrt_lt_R0; lra). constructor; try reflexivity.
    - intros v [<-|[<-|[]]]; reflexivity.
    - intros i j Hij. cbn [min] in Hij. destruct i as [|[|?]], j as [|[|?]]; try lia; unfold singular; cbn [nth]; lra.
    - intros i j Hi Hj. cbn [min] in Hi, Hj. unfold sumR, entry, delta, pair_svd. destruct i as [|[|?]], j as [|[|?]]; try lia; cbn; lra.
    - exists (fun k r => nth r (nth k [[- e * sqrt 2 / 2; e * sqrt 2 / 2]; [sqrt 2 / 2; sqrt 2 / 2]] []) 0). split.
      + intros i j Hi Hj. cbn [min] in Hi, Hj. unfold sumR, delta. assert (e * e = 1) by (destruct He as [->| ->]; lra). destruct i as [|[|?]], j as [|[|?]]; try lia; cbn; nra.
      + intros r c Hr Hcc. rewrite HM by assumption. unfold sumR, entry, singular, pair_svd. destruct r as [|[|?]], c as [|[|?]]; try lia; cbn; nra.
    - intros _ c e' Hcc He'. unfold sumR, entry, delta, pair_svd. destruct c as [|[|?]], e' as [|[|?]]; try lia; cbn; lra. }
  refine (conj S (conj N _)). destruct (final_spaces pair_svd pair_points 2 2 2 _ _ T ltac:(lia) ltac:(lia) N S) as (spaces & E & L & G & _). exists spaces. split; [exact E|]. destruct spaces as [|s0 [|s1 [|? ?]]]; try discriminate L.
  destruct (G 0%nat ltac:(lia)) as (? & ? & ? & X & _ & _ & T0 & _ & _ & Z0 & _). injection X as <-. destruct (G 1%nat ltac:(lia)) as (? & ? & ? & X & _ & _ & T1 & _ & _ & Z1 & _). injection X as <-. cbn [map]. rewrite T0, T1, Z0, Z1. split; [reflexivity|]. cbn [nth feature_size fold_left]. unfold Rmax. destruct (Rle_dec 0 2); [reflexivity|lra].
Qed.

(** ** What the tangent spaces do not guarantee *)
(** the normal of a point on a line that is away from the origin can be parallel to the line, because the centroid is calculated with the number of all points instead of the number of neighbours *)
Definition line_points : list (list R) := [[-1; 10]; [0; 10]; [1; 10]; [5; 10]; [6; 10]; [7; 10]].
Definition line_indices : list (list nat) := [[0; 1; 2]; [1; 0; 2]; [2; 1; 0]; [3; 4; 5]; [4; 3; 5]; [5; 4; 3]]%nat.
Definition line_distances : list (list R) := [[0; 1; 2]; [0; 1; 1]; [0; 1; 2]; [0; 1; 2]; [0; 1; 1]; [0; 1; 2]].
Theorem C140_normal_refuted svd : local_svd svd line_points 6 2 3 line_indices ->
  exists spaces s, localTangentSpaces svd line_points 2 3 line_indices line_distances = Ok spaces /\ nth_error spaces 1 = Some s /\ (l_normal s = [1; 0] \/ l_normal s = [-1; 0]) /\
    plane_error line_points 2 3 [1; 0; 2]%nat (fun c => nth c (l_normal s) 0) = 2 /\ plane_error line_points 2 3 [1; 0; 2]%nat (fun c => nth c [0; 1] 0) = 0.
Proof.
  intro S. assert (T : table 6 2 line_points) by (split; [reflexivity|]; intros row Hr; cbn in Hr; intuition (subst; reflexivity)).
  assert (N : neighbourhoods 6 3 line_indices line_distances). { refine (conj eq_refl (conj _ eq_refl)). intros near Hn. cbn in Hn. intuition (subst; cbn in *; try lia; try reflexivity). }
  destruct (final_spaces svd line_points 6 2 3 _ _ T ltac:(lia) ltac:(lia) N S) as (spaces & E & L & G & _). destruct (G 1%nat ltac:(lia)) as (M & sigma & s & X & EM & SV & _ & Nn & _). exists spaces, s. refine (conj E (conj X _)).
  destruct (matrix_ok line_points 6 2 3 T [1; 0; 2]%nat 6) as (M' & E' & _ & H); [intros i Hi; cbn in Hi; lia|reflexivity|]. cbn [nth line_indices] in EM. rewrite EM in E'. injection E' as <-.
  assert (HM : forall r c, (r < 3)%nat -> (c < 2)%nat -> entry M r c = nth c (nth r [[0; 5]; [-1; 5]; [1; 5]] []) 0). { intros r c Hr Hcc. rewrite H by assumption. unfold neighbour, sumR, line_points. replace (INR 6) with 6 by (simpl; lra). destruct r as [|[|[|?]]], c as [|[|?]]; try lia; cbn; lra. }
  clear H. cbn [min Nat.sub] in Nn. assert (Ln : length (nth 1 (svd 3%nat 2%nat M) []) = 2%nat) by (apply (vector_length svd 2 3 M sigma); [exact SV|cbn; lia]).
  pose (a := entry (svd 3%nat 2%nat M) 0 0). pose (b := entry (svd 3%nat 2%nat M) 0 1). pose (c := entry (svd 3%nat 2%nat M) 1 0). pose (e := entry (svd 3%nat 2%nat M) 1 1).
  assert (F : forall x y, (5 * y) * (5 * y) + (- x + 5 * y) * (- x + 5 * y) + (x + 5 * y) * (x + 5 * y) = singular sigma 0 * singular sigma 0 * ((a * x + b * y) * (a * x + b * y)) + singular sigma 1 * singular sigma 1 * ((c * x + e * y) * (c * x + e * y))).
  { intros x y. pose proof (image_norm 3 2 M sigma _ SV (fun i => if (i =? 0)%nat then x else y)) as I. unfold along in I. cbn [min] in I. unfold sumR in I. cbn [seq map fold_right Nat.eqb] in I. rewrite !HM in I by lia. cbn [nth] in I. fold a b c e in I. lra. }
  assert (O : a * a + c * c = 1 /\ b * b + e * e = 1 /\ a * b + c * e = 0). { pose proof (svd_square _ _ _ _ _ SV ltac:(lia)) as Q. pose proof (Q 0%nat 0%nat ltac:(lia) ltac:(lia)) as Q0. pose proof (Q 1%nat 1%nat ltac:(lia) ltac:(lia)) as Q1. pose proof (Q 0%nat 1%nat ltac:(lia) ltac:(lia)) as Q2. unfold sumR, delta in *. cbn in Q0, Q1, Q2. fold a b c e in Q0, Q1, Q2. lra. }
  destruct (svd_order _ _ _ _ _ SV 0%nat 1%nat ltac:(cbn; lia)) as [S1 S0]. assert (O1 : a * a + b * b = 1). { pose proof (svd_orthonormal _ _ _ _ _ SV 0%nat 0%nat ltac:(cbn; lia) ltac:(cbn; lia)) as Q. unfold sumR, delta in Q. cbn in Q. fold a b in Q. lra. }
  destruct O as (Oa & Ob & Oc). set (p := singular sigma 0 * singular sigma 0) in *. set (q := singular sigma 1 * singular sigma 1) in *. assert (Hpq : 0 <= q <= p) by (unfold p, q; nra).
  pose proof (F 1 0) as F1. pose proof (F 0 1) as F2. pose proof (F 1 1) as F3. assert (G1 : 2 = p * (a * a) + q * (c * c)) by lra. assert (G2 : 75 = p * (b * b) + q * (e * e)) by lra. assert (G3 : p * (a * b) + q * (c * e) = 0) by lra. clear F F1 F2 F3.
  assert (G4 : (p - q) * (a * b) = 0) by (replace (c * e) with (- (a * b)) in G3 by lra; lra).
  assert (Hc0 : a = 0). { apply Rmult_integral in G4. destruct G4 as [G4|G4]; [exfalso; assert (p = q) by lra; subst p; nra|]. apply Rmult_integral in G4. destruct G4 as [G4|G4]; [exact G4|]. exfalso. assert (a * a = 1) by (rewrite G4 in O1; lra). assert (c * c = 0) by lra. assert (b * b = 0) by (rewrite G4; ring). assert (e * e = 1) by lra. nra. }
  assert (He : e = 0). { assert (b * b = 1) by (rewrite Hc0 in O1; lra). assert (Z : e * e = 0) by lra. apply Rmult_integral in Z. destruct Z; assumption. }
  assert (Hcc : c = 1 \/ c = -1). { assert (Z : (c - 1) * (c + 1) = 0) by (rewrite Hc0 in Oa; lra). apply Rmult_integral in Z. destruct Z; [left|right]; lra. }
  assert (Nv : nth 1 (svd 3%nat 2%nat M) [] = [c; e]). { unfold c, e, entry. destruct (nth 1 (svd 3%nat 2%nat M) []) as [|x [|y [|? ?]]]; try discriminate Ln. reflexivity. }
  rewrite Nv, He in Nn. assert (Nf : l_normal s = [1; 0] \/ l_normal s = [-1; 0]). { cbn [map] in Nn. rewrite Ropp_0 in Nn. destruct Nn as [->| ->], Hcc as [->| ->]; first [left; solve [f_equal; lra]|right; solve [f_equal; lra]]. }
  refine (conj Nf _). unfold plane_error, near_mean, neighbour, sumR, line_points. replace (INR 3) with 3 by (simpl; lra). destruct Nf as [->| ->]; cbn; lra.
Qed.
(** adjacent points can have opposite normals even though all normals can be oriented consistently *)
Theorem C140_orientation_refuted : exists sp0 sp a b, propagateOrientation sp0 = Ok sp /\ nth_error sp 0 = Some a /\ nth_error sp 2 = Some b /\ In 0%nat (l_indices b) /\ inner 1 (l_normal a) (l_normal b) < 0 /\
  exists signs : nat -> R, (forall i, signs i = 1 \/ signs i = -1) /\ forall i j s t, nth_error sp i = Some s -> nth_error sp j = Some t -> 0 < signs i * signs j * inner 1 (l_normal s) (l_normal t).
Proof.
  exists [LocalSpace [] [1] [] 0 [0; 2]%nat; LocalSpace [] [-1] [] 0 [1; 2]%nat; LocalSpace [] [1] [] 0 [2; 0]%nat], [LocalSpace [] [1] [] 0 [0; 2]%nat; LocalSpace [] [-1] [] 0 [1; 2]%nat; LocalSpace [] [-1] [] 0 [2; 0]%nat]. do 2 eexists. refine (conj _ (conj eq_refl (conj eq_refl (conj _ (conj _ _))))).
  - unfold propagateOrientation. cbn. unfold orient. cbn. unfold dot. cbn.
    repeat match goal with |- context [Rlt_dec ?x 0] => destruct (Rlt_dec x 0); try (exfalso; lra); cbn end. reflexivity.
  - simpl. auto.
  - unfold inner, sumR. cbn. lra.
  - exists (fun i => if (i =? 0)%nat then 1 else -1). split; [intro i; destruct (i =? 0)%nat; auto|]. intros i j s t Hi Hj. destruct i as [|[|[|[|?]]]], j as [|[|[|[|?]]]]; try discriminate; injection Hi as <-; injection Hj as <-; unfold inner, sumR; cbn; lra.
Qed.
(** the sphere belongs to the first positive eigenvalue, although the errors are smallest for the smallest one; the solver does not sort eigenvalues *)
Theorem C140_choice_refuted : exists container s W D solutions l u m v, sphere_rows container s = Ok (W, D) /\
  (forall re im w, In ((re, im), w) solutions -> im = 0 /\ pencil 3 (normal_matrix 1 W D) (pratt 1) re w /\ length w = 3%nat /\ exists x, In x w /\ x <> 0) /\ length solutions = 3%nat /\ NoDup (map fst solutions) /\
  In ((l, 0), u) solutions /\ In ((m, 0), v) solutions /\ 0 < m < l /\ select 1 solutions = u /\ meanCurvature u = 0 /\ 0 < meanCurvature v.
Proof.
  pose (P := [[0]; [-1]; [1]; [2]]). assert (T : table 4 1 P) by (split; [reflexivity|]; intros row Hr; cbn in Hr; intuition (subst; reflexivity)). pose (s := LocalSpace [] [1] [0] 2 [0; 1; 2; 3]%nat).
  pose (S := sqrt 209). assert (SS : S * S = 209) by (apply sqrt_sqrt; lra). assert (S0 : 0 < S) by (apply sqrt_lt_R0; lra). assert (S1 : 14 < S < 15) by (split; nra).
  assert (Wt : forall x y, 0 <= y -> x * x = y * y -> weight [0] [x] 2 = phi (y / 2)). { intros x y Hy E. unfold weight, norm, dot, vec2. cbn. replace ((0 - x) * (0 - x) + 0) with (y * y) by lra. rewrite sqrt_square by exact Hy. unfold divR. destruct (Req_EM_T 2 0); [lra|reflexivity]. }
  assert (ER : sphere_rows P s = Ok ([1; 81 / 256; 81 / 256; 0], [[1; 0; 0]; [1; -1; 1]; [1; 1; 1]; [1; 2; 4]])).
  { rewrite (sphere_rows_ok P 4 1 s T) by (intros i Hi; cbn in Hi; lia). cbn [map l_indices l_position l_size s nth P]. rewrite (Wt 0 0), (Wt (-1) 1), (Wt 1 1), (Wt 2 2) by lra. unfold phi. repeat match goal with |- context [Rlt_dec ?a 1] => destruct (Rlt_dec a 1); try (exfalso; lra) end. unfold sphere_row, dot, vec2. cbn. f_equal. f_equal; repeat (f_equal; try lra). }
  pose (A := normal_matrix 1 [1; 81 / 256; 81 / 256; 0] [[1; 0; 0]; [1; -1; 1]; [1; 1; 1]; [1; 2; 4]]).
  assert (HA : forall r c, (r < 3)%nat -> (c < 3)%nat -> entry_of A r c = nth c (nth r [[209 / 128; 0; 81 / 128]; [0; 81 / 128; 0]; [81 / 128; 0; 81 / 128]] []) 0). { intros r c Hr Hcc. unfold A. rewrite normal_entry by lia. unfold sumR, entry_of. destruct r as [|[|[|?]]], c as [|[|[|?]]]; try lia; cbn; lra. }
  assert (HC : forall r c, (r < 3)%nat -> (c < 3)%nat -> entry_of (pratt 1) r c = nth c (nth r [[0; 0; -2]; [0; 1; 0]; [-2; 0; 0]] []) 0). { intros r c Hr Hcc. unfold pratt. rewrite matrix_entry by lia. destruct r as [|[|[|?]]], c as [|[|[|?]]]; try lia; cbn; lra. }
  exists P, s, [1; 81 / 256; 81 / 256; 0], [[1; 0; 0]; [1; -1; 1]; [1; 1; 1]; [1; 2; 4]]. fold A. exists [((81 / 128, 0), [0; 1; 0]); (((9 * S - 81) / 256, 0), [1; 0; - S / 9]); (((- 9 * S - 81) / 256, 0), [1; 0; S / 9])], (81 / 128), [0; 1; 0], ((9 * S - 81) / 256), [1; 0; - S / 9].
  refine (conj ER (conj _ (conj eq_refl (conj _ (conj _ (conj _ (conj _ (conj _ (conj _ _))))))))).
  - intros re im w Hw. destruct Hw as [Hw|[Hw|[Hw|[]]]]; injection Hw as <- <- <-; (split; [reflexivity|]; split; [|split; [reflexivity|first [exists 1; split; [simpl; auto|lra]]]]); intros r Hr; unfold sumR; cbn [seq map fold_right]; rewrite !HA, !HC by lia; destruct r as [|[|[|?]]]; try lia; cbn [nth]; nra.
  - cbn [map fst]. constructor; [intros [X|[X|[]]]; injection X; intros; lra|]. constructor; [intros [X|[]]; injection X; intros; lra|]. constructor; [intros []|constructor].
  - simpl; auto.
  - simpl; auto.
  - lra.
  - unfold select. cbn [find fst snd]. destruct (Rlt_dec 0 (81 / 128)); [|lra]. destruct (Req_EM_T 0 0); [reflexivity|congruence].
  - unfold meanCurvature, radius, centre. cbn [last tl removelast map]. unfold divR at 1. destruct (Req_EM_T (2 * 0) 0); [reflexivity|lra].
  - unfold meanCurvature, radius, centre. cbn [last tl removelast map hd]. unfold divR. destruct (Req_EM_T (2 * (- S / 9)) 0) as [X|_]; [exfalso; lra|]. destruct (Req_EM_T (- S / 9) 0) as [X|_]; [exfalso; lra|]. unfold square_norm. cbn [fold_left]. unfold Kernels.sqrtR.
    assert (V : 0 < 0 + 0 / (2 * (- S / 9)) * (0 / (2 * (- S / 9))) - 1 / (- S / 9)). { replace (0 + 0 / (2 * (- S / 9)) * (0 / (2 * (- S / 9))) - 1 / (- S / 9)) with (9 * / S) by (field; lra). apply Rmult_lt_0_compat; [lra|apply Rinv_0_lt_compat; exact S0]. }
    destruct (Rle_dec 0 _) as [_|X]; [|exfalso; lra]. pose proof (sqrt_lt_R0 _ V) as Q. destruct (Rlt_dec 0 _) as [Y|Y]; [|exfalso; lra]. unfold Rdiv at 1. rewrite Rmult_1_l. apply Rinv_0_lt_compat. exact Y.
Qed.

Print Assumptions C140_spaces.
Print Assumptions C140_normal.
Print Assumptions C140_orientation.
Print Assumptions C140_weights.
Print Assumptions C140_farthest.
Print Assumptions C140_curvature.
Print Assumptions C140_normal_refuted.
Print Assumptions C140_orientation_refuted.
Print Assumptions C140_choice_refuted.
