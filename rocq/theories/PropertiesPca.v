(** * Principal component analysis (C139) *)
From Coq Require Import Reals List Arith Bool Lia Lra.
From Verif Require Import Base BaseFacts PropertiesHeat SpecSvd PrincipalComponents.
Import ListNotations.
Local Open Scope R_scope.

(** ** Specification *)
Definition table (n m : nat) (data : list (list R)) : Prop := length data = n /\ forall row, In row data -> length row = m.
Definition mean (n : nat) (data : list (list R)) (c : nat) : R := sumR n (fun r => entry data r c) / INR n.
(** the squared distances to the mean, measured along a direction [x] *)
Definition scatter (n m : nat) (data : list (list R)) (x : nat -> R) : R :=
  sumR n (fun r => let y := sumR m (fun c => (entry data r c - mean n data c) * x c) in y * y).
(** the decomposition that is used is correct for the matrix [M] *)
Definition correct_svd (svd : nat -> nat -> list (list R) -> list R * list (list R)) (n m : nat) (M : list (list R)) : Prop :=
  svd_spec n m M (fst (svd n m M)) (snd (svd n m M)).

(** ** Facts *)
Lemma rows_ok m data : (0 < m)%nat -> (forall row, In row data -> length row = m) -> pca_rows m data = Ok data.
Proof.
  intros Hm H. unfold pca_rows. assert (G : forall a b : list (list R), (forall row, In row b -> length row = m) -> foldM (fun (M : list (list R)) (row : list R) => if orb (length row <? m)%nat (length row =? 0)%nat then UB else Ok (M ++ [firstn m row])) b a = Ok (a ++ b)).
  { intros a b. revert a. induction b as [|row b IH]; intros a Hb; cbn [foldM]; [rewrite app_nil_r; reflexivity|]. rewrite (Hb row) by (simpl; auto). rewrite Nat.ltb_irrefl. destruct (Nat.eqb_spec m 0); [lia|]. cbn [orb bind]. rewrite IH by (intros; apply Hb; simpl; auto). rewrite <- app_assoc. cbn [app]. f_equal. f_equal. f_equal. rewrite <- (Hb row) by (simpl; auto). apply firstn_all. }
  apply (G [] data H).
Qed.
Lemma column_sum_ok data c : column_sum data c = sumR (length data) (fun r => entry data r c).
Proof.
  unfold column_sum, sumR, entry. f_equal. induction data as [|row data IH]; [reflexivity|]. cbn [length seq map nth]. f_equal. rewrite IH, <- seq_shift, map_map. reflexivity.
Qed.
Lemma scaled_table n m data : table n m data -> table n m (pca_scaled m data).
Proof.
  intros [H1 H2]. unfold pca_scaled. split; [rewrite map_length; exact H1|]. intros row Hr. apply in_map_iff in Hr. destruct Hr as (r & <- & _). rewrite map_length, seq_length. reflexivity.
Qed.
Lemma scaled_entry n m data r c : table n m data -> (r < n)%nat -> (c < m)%nat -> entry (pca_scaled m data) r c = (entry data r c - mean n data c) / sqrt (INR m).
Proof.
  intros [H1 H2] Hr Hc. unfold entry at 1, pca_scaled.
  rewrite (nth_indep _ [] (map (fun c0 => (nth c0 (@nil R) 0 - column_sum data c0 / INR (length data)) / sqrt (INR m)) (seq 0 m))) by (rewrite map_length; lia).
  rewrite (map_nth (fun row => map (fun c0 => (nth c0 row 0 - column_sum data c0 / INR (length data)) / sqrt (INR m)) (seq 0 m)) data [] r).
  rewrite (nth_indep _ 0 ((fun c0 => (nth c0 (nth r data []) 0 - column_sum data c0 / INR (length data)) / sqrt (INR m)) 0%nat)) by (rewrite map_length, seq_length; lia).
  rewrite (map_nth (fun c0 => (nth c0 (nth r data []) 0 - column_sum data c0 / INR (length data)) / sqrt (INR m)) (seq 0 m) 0%nat c). rewrite seq_nth by exact Hc. cbn [Nat.add].
  rewrite column_sum_ok, H1. reflexivity.
Qed.
Lemma components_ok (V : list (list R)) k : length V = k -> foldM (fun components i => let* column := get_ V i in Ok (components ++ [column])) (seq 0 k) [] = Ok V.
Proof.
  intros <-. assert (G : forall b a, V = a ++ b -> foldM (fun components i => let* column := get_ V i in Ok (components ++ [column])) (seq (length a) (length b)) a = Ok V).
  { induction b as [|v b IH]; intros a E; [cbn; f_equal; rewrite E; symmetry; apply app_nil_r|]. cbn [length seq foldM]. unfold get_ at 1. rewrite E at 1. rewrite nth_error_app2, Nat.sub_diag by lia. cbn [nth_error bind]. specialize (IH (a ++ [v])). rewrite app_length in IH. cbn [length] in IH. rewrite Nat.add_1_r in IH. apply IH. rewrite E, <- app_assoc. reflexivity. }
  apply (G V []). reflexivity.
Qed.
Lemma pca_ok svd n m data : correct_svd svd n m (pca_scaled m data) -> table n m data -> (0 < n)%nat -> (0 < m)%nat ->
  pca svd data = Ok (snd (svd n m (pca_scaled m data)), fst (svd n m (pca_scaled m data))).
Proof.
  intros Hs Ht Hn Hm. pose proof Ht as [H1 H2]. unfold pca. destruct data as [|first data]; [cbn [length] in H1; lia|]. cbv zeta. rewrite (H2 first) by (simpl; auto). rewrite H1. rewrite rows_ok by assumption. cbn [bind].
  pose proof Hs as S. unfold correct_svd in S. destruct (svd n m (pca_scaled m (first :: data))) as [sigma V]. cbn [fst snd] in *. rewrite (components_ok V) by (apply (svd_vectors _ _ _ _ _ S)). reflexivity.
Qed.
Lemma scaled_scatter n m data x : table n m data -> (0 < m)%nat -> INR m * sumR n (fun r => sumR m (fun c => entry (pca_scaled m data) r c * x c) * sumR m (fun c => entry (pca_scaled m data) r c * x c)) = scatter n m data x.
Proof.
  intros Ht Hm. assert (P : 0 < INR m) by (apply lt_0_INR; exact Hm). rewrite <- sumR_scale. unfold scatter. apply sumR_ext. intros r Hr. cbv zeta.
  rewrite (sumR_ext m (fun c => entry (pca_scaled m data) r c * x c) (fun c => / sqrt (INR m) * ((entry data r c - mean n data c) * x c))) by (intros c Hc; rewrite (scaled_entry n) by assumption; unfold Rdiv; ring).
  rewrite sumR_scale. set (y := sumR m _). assert (Q : sqrt (INR m) * sqrt (INR m) = INR m) by (apply sqrt_sqrt; lra). assert (0 < sqrt (INR m)) by (apply sqrt_lt_R0; exact P). rewrite <- Q at 1. field. lra.
Qed.

(** ** Results *)
Theorem C139_components svd n m data : correct_svd svd n m (pca_scaled m data) -> table n m data -> (0 < n)%nat -> (0 < m)%nat ->
  exists components values, pca svd data = Ok (components, values) /\ length components = min n m /\ length values = min n m /\ (forall v, In v components -> length v = m) /\
    (forall i j, (i < min n m)%nat -> (j < min n m)%nat -> sumR m (fun c => entry components i c * entry components j c) = if (i =? j)%nat then 1 else 0) /\
    (forall i j, (i <= j < min n m)%nat -> 0 <= nth j values 0 <= nth i values 0) /\
    (forall j, (j < min n m)%nat -> scatter n m data (entry components j) = INR m * (nth j values 0 * nth j values 0)) /\
    (forall j x, (j < min n m)%nat -> (forall k, (k < j)%nat -> sumR m (fun c => entry components k c * x c) = 0) -> scatter n m data x <= INR m * (nth j values 0 * nth j values 0) * sumR m (fun c => x c * x c)) /\
    ((m <= n)%nat -> forall x, INR m * (nth (m - 1) values 0 * nth (m - 1) values 0) * sumR m (fun c => x c * x c) <= scatter n m data x) /\
    INR m * sumR (min n m) (fun k => nth k values 0 * nth k values 0) = sumR n (fun r => sumR m (fun c => let y := entry data r c - mean n data c in y * y)).
Proof.
  intros Hs Ht Hn Hm. exists (snd (svd n m (pca_scaled m data))), (fst (svd n m (pca_scaled m data))). pose proof Hs as S. unfold correct_svd in S. assert (P : 0 < INR m) by (apply lt_0_INR; exact Hm).
  refine (conj (pca_ok svd n m data Hs Ht Hn Hm) _). destruct (svd n m (pca_scaled m data)) as [sigma V]. cbn [fst snd] in *.
  refine (conj (svd_vectors _ _ _ _ _ S) (conj (svd_values _ _ _ _ _ S) (conj (svd_width _ _ _ _ _ S) (conj (svd_orthonormal _ _ _ _ _ S) (conj (svd_order _ _ _ _ _ S) (conj _ (conj _ (conj _ _)))))))).
  - intros j Hj. rewrite <- (scaled_scatter n m data _ Ht Hm). f_equal. exact (image_vector n m _ _ _ S j Hj).
  - intros j x Hj Hk. rewrite <- (scaled_scatter n m data _ Ht Hm). rewrite Rmult_assoc. apply Rmult_le_compat_l; [lra|]. exact (stretch n m _ _ _ S x j Hj Hk).
  - intros Hmn x. rewrite <- (scaled_scatter n m data _ Ht Hm). rewrite Rmult_assoc. apply Rmult_le_compat_l; [lra|]. exact (shrink n m _ _ _ S x Hmn Hm).
  - pose proof (total n m _ _ _ S) as T. unfold singular in T. rewrite T, <- sumR_scale. apply sumR_ext. intros r Hr. rewrite <- sumR_scale. apply sumR_ext. intros c Hc. rewrite (scaled_entry n) by assumption. cbv zeta.
    assert (Q : sqrt (INR m) * sqrt (INR m) = INR m) by (apply sqrt_sqrt; lra). assert (0 < sqrt (INR m)) by (apply sqrt_lt_R0; exact P). rewrite <- Q at 1. field. lra.
Qed.
Theorem C139_empty svd : pca svd [] = Ok ([], []).
Proof. reflexivity. Qed.
(** moving all points does not change the result *)
Theorem C139_translation svd n m data t : table n m data -> (0 < n)%nat -> (0 < m)%nat ->
  pca svd (map (fun row => map (fun c => nth c row 0 + t c) (seq 0 m)) data) = pca svd data.
Proof.
  intros Ht Hn Hm. set (data' := map _ data). assert (Ht' : table n m data').
  { destruct Ht as [H1 H2]. split; [unfold data'; rewrite map_length; exact H1|]. intros row Hr. apply in_map_iff in Hr. destruct Hr as (r & <- & _). rewrite map_length, seq_length. reflexivity. }
  assert (E : forall r c, (r < n)%nat -> (c < m)%nat -> entry data' r c = entry data r c + t c).
  { intros r c Hr Hc. unfold entry at 1, data'. destruct Ht as [H1 _]. rewrite (nth_indep _ [] (map (fun c0 => nth c0 (@nil R) 0 + t c0) (seq 0 m))) by (rewrite map_length; lia). rewrite (map_nth (fun row => map (fun c0 => nth c0 row 0 + t c0) (seq 0 m)) data [] r).
    rewrite (nth_indep _ 0 (nth 0 (nth r data []) 0 + t 0%nat)) by (rewrite map_length, seq_length; lia). rewrite (map_nth (fun c0 => nth c0 (nth r data []) 0 + t c0) (seq 0 m) 0%nat c). rewrite seq_nth by exact Hc. reflexivity. }
  assert (EM : forall c, (c < m)%nat -> mean n data' c = mean n data c + t c).
  { intros c Hc. unfold mean. rewrite (sumR_ext n _ (fun r => entry data r c + t c)) by (intros r Hr; apply E; assumption). rewrite sumR_plus, sumR_const. assert (0 < INR n) by (apply lt_0_INR; exact Hn). field. lra. }
  assert (ES : pca_scaled m data' = pca_scaled m data).
  { apply (nth_ext _ _ [] []); [rewrite (proj1 (scaled_table n m _ Ht')), (proj1 (scaled_table n m _ Ht)); reflexivity|]. intros r Hr. rewrite (proj1 (scaled_table n m _ Ht')) in Hr.
    assert (L : forall d, table n m d -> length (nth r (pca_scaled m d) []) = m) by (intros d Hd; apply (scaled_table n m d Hd); apply nth_In; rewrite (proj1 (scaled_table n m d Hd)); exact Hr).
    apply (nth_ext _ _ 0 0); [rewrite !L by assumption; reflexivity|]. intros c Hc. rewrite L in Hc by exact Ht'. change (entry (pca_scaled m data') r c = entry (pca_scaled m data) r c). rewrite !(scaled_entry n) by assumption. rewrite E, EM by assumption. f_equal. ring. }
  unfold pca. destruct data' as [|f' d'] eqn:E'; [destruct Ht' as [X _]; cbn in X; lia|]. destruct data as [|f d] eqn:Ed; [destruct Ht as [X _]; cbn in X; lia|]. cbv zeta.
  rewrite (proj2 Ht' f') by (simpl; auto). rewrite (proj2 Ht f) by (simpl; auto). rewrite (proj1 Ht'), (proj1 Ht). rewrite rows_ok by (try exact Hm; apply Ht'). rewrite rows_ok by (try exact Hm; apply Ht). cbn [bind]. rewrite ES. reflexivity.
Qed.

(** ** Three points in the plane *)
Definition points3 : list (list R) := [[-2; 0]; [2; 0]; [0; 3]].
Example C139_example : svd_spec 3 2 (pca_scaled 2 points3) [2; sqrt 3] [[1; 0]; [0; 1]] /\ pca (fun _ _ _ => ([2; sqrt 3], [[1; 0]; [0; 1]])) points3 = Ok ([[1; 0]; [0; 1]], [2; sqrt 3]) /\ table 3 2 points3.
Proof.
  assert (T : table 3 2 points3) by (split; [reflexivity|]; intros row [<-|[<-|[<-|[]]]]; reflexivity).
  refine (conj _ (conj eq_refl T)). assert (A : sqrt 2 * sqrt 2 = 2) by (apply sqrt_sqrt; lra). assert (B : sqrt 3 * sqrt 3 = 3) by (apply sqrt_sqrt; lra). assert (0 < sqrt 2) by (apply sqrt_lt_R0; lra). assert (0 < sqrt 3) by (apply sqrt_lt_R0; lra).
  constructor; try reflexivity.
  - intros v [<-|[<-|[]]]; reflexivity.
  - intros i j Hij. cbn [min] in Hij. assert (sqrt 3 <= 2) by nra. destruct i as [|[|?]], j as [|[|?]]; try lia; unfold singular; cbn [nth]; lra.
  - intros i j Hi Hj. cbn [min] in Hi, Hj. unfold sumR, entry, delta. destruct i as [|[|?]], j as [|[|?]]; try lia; cbn; lra.
  - exists (fun k r => nth r (nth k [[- sqrt 2 / 2; sqrt 2 / 2; 0]; [- sqrt 2 * sqrt 3 / 6; - sqrt 2 * sqrt 3 / 6; sqrt 2 * sqrt 3 / 3]] []) 0). split.
    + intros i j Hi Hj. cbn [min] in Hi, Hj. unfold sumR, delta. destruct i as [|[|?]], j as [|[|?]]; try lia; cbn; try nra.
    + intros r c Hr Hc. rewrite (scaled_entry 3) by (try exact T; assumption). unfold mean, sumR, entry, singular. replace (INR 2) with 2 by (simpl; lra). replace (INR 3) with 3 by (simpl; lra). assert (Q : / sqrt 2 = sqrt 2 / 2) by (apply (Rmult_eq_reg_l (sqrt 2)); [|lra]; rewrite Rinv_r by lra; unfold Rdiv; rewrite <- Rmult_assoc, A; lra). unfold Rdiv at 1. rewrite Q.
      destruct r as [|[|[|?]]], c as [|[|?]]; try lia; cbn; try lra.
      all: match goal with |- _ = ?x => replace x with (x + 0) by ring end; nra.
  - intros _ c e Hc He. unfold sumR, entry, delta. destruct c as [|[|?]], e as [|[|?]]; try lia; cbn; lra.
Qed.

(** ** What the results do not guarantee *)
(** the squared singular values are not the variances of the components, neither of the points nor of the population the points are a sample of: they are divided by the number of columns *)
Theorem C139_variance_refuted : exists data, table 4 1 data /\ forall svd, correct_svd svd 4 1 (pca_scaled 1 data) ->
  exists v s, pca svd data = Ok ([v], [s]) /\ s * s = 12 /\ scatter 4 1 data (fun c => nth c v 0) / 4 = 3 /\ scatter 4 1 data (fun c => nth c v 0) / (4 - 1) = 4.
Proof.
  exists [[0]; [0]; [0]; [4]]. assert (T : table 4 1 [[0]; [0]; [0]; [4]]) by (split; [reflexivity|]; intros row [<-|[<-|[<-|[<-|[]]]]]; reflexivity). split; [exact T|]. intros svd Hs.
  destruct (C139_components svd 4 1 _ Hs T ltac:(lia) ltac:(lia)) as (components & values & E & L1 & L2 & W & O & _ & S & _). cbn [min] in *. destruct components as [|v [|? ?]]; try discriminate L1. destruct values as [|s [|? ?]]; try discriminate L2. exists v, s. split; [exact E|].
  specialize (O 0%nat 0%nat ltac:(lia) ltac:(lia)). specialize (S 0%nat ltac:(lia)). specialize (W v (or_introl eq_refl)). destruct v as [|x [|? ?]]; try discriminate W. cbn [nth INR] in S.
  assert (X : x * x = 1) by (unfold sumR, entry in O; cbn in O; lra).
  assert (Y : scatter 4 1 [[0]; [0]; [0]; [4]] (fun c => nth c [x] 0) = 12). { unfold scatter, mean, sumR, entry. cbn [seq map fold_right nth]. replace (INR 4) with 4 by (simpl; lra). cbv zeta. match goal with |- ?l = _ => replace l with (12 * (x * x)) by field end. rewrite X. lra. }
  change (entry [[x]] 0) with (fun c => nth c [x] 0) in S. rewrite Y in *. lra.
Qed.
Example C139_example_variance : svd_spec 4 1 (pca_scaled 1 [[0]; [0]; [0]; [4]]) [sqrt 12] [[1]].
Proof.
  assert (T : table 4 1 [[0]; [0]; [0]; [4]]) by (split; [reflexivity|]; intros row [<-|[<-|[<-|[<-|[]]]]]; reflexivity). assert (B : sqrt 12 * sqrt 12 = 12) by (apply sqrt_sqrt; lra). assert (0 < sqrt 12) by (apply sqrt_lt_R0; lra).
  constructor; try reflexivity.
  - intros v [<-|[]]; reflexivity.
  - intros i j Hij. cbn [min] in Hij. destruct i as [|?], j as [|?]; try lia; unfold singular; cbn [nth]; lra.
  - intros i j Hi Hj. cbn [min] in Hi, Hj. unfold sumR, entry, delta. destruct i as [|?], j as [|?]; try lia; cbn; lra.
  - exists (fun k r => nth r [- sqrt 12 / 12; - sqrt 12 / 12; - sqrt 12 / 12; sqrt 12 / 4] 0). split.
    + intros i j Hi Hj. cbn [min] in Hi, Hj. unfold sumR, delta. destruct i as [|?], j as [|?]; try lia. cbn. nra.
    + intros r c Hr Hc. rewrite (scaled_entry 4) by (try exact T; assumption). unfold mean, sumR, entry, singular. replace (INR 4) with 4 by (simpl; lra). replace (INR 1) with 1 by (simpl; lra). rewrite sqrt_1. destruct r as [|[|[|[|?]]]], c as [|?]; try lia; cbn; nra.
  - intros _ c e Hc He. unfold sumR, entry, delta. destruct c as [|?], e as [|?]; try lia; cbn; lra.
Qed.
(** a row that is shorter than the first one is read past its end; further elements of a longer row are ignored *)
Theorem C139_ragged_refuted svd : pca svd [[1; 2]; [3]] = UB /\ pca svd [[1]; [2; 3]] = pca svd [[1]; [2]].
Proof. split; reflexivity. Qed.

Print Assumptions C139_components.
Print Assumptions C139_empty.
Print Assumptions C139_translation.
Print Assumptions C139_variance_refuted.
Print Assumptions C139_ragged_refuted.
