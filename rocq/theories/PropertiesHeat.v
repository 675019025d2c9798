(** * Heat kernels. *)
From Coq Require Import Reals List Arith Bool ZArith Lia Lra.
From Verif Require Import Base BaseFacts Simplex SpecComplex Complex ComplexFacts SubcomplexFacts History PropertiesComplex BarycentricFacts FloydFacts SpecComponents
  SpecLaplacian Laplacian PropertiesLaplacian HeatKernel.
Import ListNotations.
Local Open Scope R_scope.

(** ** sums of real numbers *)
Definition sumR (n : nat) (f : nat -> R) : R := fold_right Rplus 0 (map f (seq 0 n)).
Definition delta (i j : nat) : R := if Nat.eqb i j then 1 else 0.

Lemma sumR_S n f : sumR (S n) f = sumR n f + f n.
Proof. unfold sumR. rewrite seq_S, map_app, fold_right_app. cbn [map fold_right Nat.add]. generalize (map f (seq 0 n)). intro l. induction l as [|a l IH]; cbn [fold_right]; lra. Qed.
Lemma sumR_ext n f g : (forall i, (i < n)%nat -> f i = g i) -> sumR n f = sumR n g.
Proof. intro H. unfold sumR. f_equal. apply map_ext_in. intros i Hi. apply H. apply in_seq in Hi. lia. Qed.
Lemma sumR_plus n f g : sumR n (fun i => f i + g i) = sumR n f + sumR n g.
Proof. induction n; [unfold sumR; simpl; lra|]. rewrite !sumR_S, IHn. lra. Qed.
Lemma sumR_scale n c f : sumR n (fun i => c * f i) = c * sumR n f.
Proof. induction n; [unfold sumR; simpl; lra|]. rewrite !sumR_S, IHn. lra. Qed.
Lemma sumR_zero n f : (forall i, (i < n)%nat -> f i = 0) -> sumR n f = 0.
Proof. intro H. induction n; [reflexivity|]. rewrite sumR_S, IHn, H by auto. lra. Qed.
Lemma sumR_swap n m f : sumR n (fun i => sumR m (fun j => f i j)) = sumR m (fun j => sumR n (fun i => f i j)).
Proof. induction n; [symmetry; apply sumR_zero; reflexivity|]. rewrite sumR_S, IHn. rewrite <- sumR_plus. apply sumR_ext. intros j Hj. rewrite sumR_S. reflexivity. Qed.
Lemma sumR_single n k f : (k < n)%nat -> (forall i, (i < n)%nat -> i <> k -> f i = 0) -> sumR n f = f k.
Proof.
  intros Hk H. induction n; [lia|]. rewrite sumR_S. destruct (Nat.eq_dec n k) as [->|Hn].
  - rewrite (sumR_zero k); [lra|]. intros i Hi. apply H; lia.
  - rewrite IHn by (try lia; intros; apply H; lia). rewrite (H n) by lia. lra.
Qed.
Lemma sumR_delta n k f : (k < n)%nat -> sumR n (fun i => delta k i * f i) = f k.
Proof. intro Hk. rewrite (sumR_single n k) by (try exact Hk; intros i _ Hne; unfold delta; destruct (Nat.eqb_spec k i); try congruence; lra). unfold delta. rewrite Nat.eqb_refl. lra. Qed.
Lemma sumR_nonneg n f : (forall i, (i < n)%nat -> 0 <= f i) -> 0 <= sumR n f.
Proof. intro H. induction n; [unfold sumR; simpl; lra|]. rewrite sumR_S. pose proof (H n ltac:(lia)). assert (0 <= sumR n f) by (apply IHn; intros; apply H; lia). lra. Qed.
Lemma sumR_le n f g : (forall i, (i < n)%nat -> f i <= g i) -> sumR n f <= sumR n g.
Proof. intro H. induction n; [unfold sumR; simpl; lra|]. rewrite !sumR_S. pose proof (H n ltac:(lia)). assert (sumR n f <= sumR n g) by (apply IHn; intros; apply H; lia). lra. Qed.
Lemma sumR_const n c : sumR n (fun _ => c) = INR n * c.
Proof. induction n; [unfold sumR; simpl; lra|]. rewrite sumR_S, S_INR, IHn. lra. Qed.
Lemma sumR_pos n f k : (forall i, (i < n)%nat -> 0 <= f i) -> (k < n)%nat -> 0 < f k -> 0 < sumR n f.
Proof.
  intros H Hk Hp. induction n; [lia|]. rewrite sumR_S. destruct (Nat.eq_dec n k) as [->|Hn].
  - assert (0 <= sumR k f) by (apply sumR_nonneg; intros; apply H; lia). lra.
  - pose proof (H n ltac:(lia)). assert (0 < sumR n f) by (apply IHn; [intros; apply H; lia|lia]). lra.
Qed.
Lemma sumR_IZR n f : sumR n (fun i => IZR (f i)) = IZR (sumZ n f).
Proof. induction n; [reflexivity|]. rewrite sumR_S, sumZ_S, IHn, plus_IZR. reflexivity. Qed.

(** ** the decomposition *)
(** [values] and [vectors] are the eigenvalues and an orthonormal basis of eigenvectors of
    the matrix [L]; the eigenvalues are in ascending order *)
Definition spectral (n : nat) (L : list (list Z)) (values : list R) (vectors : list (list R)) : Prop :=
  length values = n /\ length vectors = n /\ (forall u, In u vectors -> length u = n) /\
  (forall k i, (k < n)%nat -> (i < n)%nat -> sumR n (fun j => IZR (ent L i j) * nth j (nth k vectors []) 0) = nth k values 0 * nth i (nth k vectors []) 0) /\
  (forall k l, (k < n)%nat -> (l < n)%nat -> sumR n (fun i => nth i (nth k vectors []) 0 * nth i (nth l vectors []) 0) = delta k l) /\
  (forall i j, (i < n)%nat -> (j < n)%nat -> sumR n (fun k => nth i (nth k vectors []) 0 * nth j (nth k vectors []) 0) = delta i j) /\
  (forall k l, (k <= l)%nat -> (l < n)%nat -> nth k values 0 <= nth l values 0).

Lemma kahanR_list l s : fst (fold_left kahanR_add l (s, 0)) = s + fold_right Rplus 0 l /\ snd (fold_left kahanR_add l (s, 0)) = 0.
Proof.
  revert s. induction l as [|v l IH]; intro s; cbn [fold_left fold_right fst snd]; [split; lra|].
  assert (E : kahanR_add (s, 0) v = (s + v, 0)) by (unfold kahanR_add; cbn [fst snd]; f_equal; lra). rewrite E. destruct (IH (s + v)) as [A B]. split; [rewrite A; lra|exact B].
Qed.

Section Heat.
  Variables (n : nat) (L : list (list Z)) (values : list R) (vectors : list (list R)) (skip : bool).
  Hypothesis HS : spectral n L values vectors.
  Let h := Heat skip values vectors.
  Let lam k := nth k values 0.
  Let u k i := nth i (nth k vectors []) 0.
  Definition heat_value (i j : nat) (t : R) : R := sumR n (fun k => exp (- t * lam k) * (u k i * u k j)).

  Lemma get_value k : (k < n)%nat -> get_ values k = Ok (lam k).
  Proof. intro H. unfold get_. rewrite (nth_error_nth' values 0) by (destruct HS as [E _]; lia). reflexivity. Qed.
  Lemma get_vector k : (k < n)%nat -> exists v, get_ vectors k = Ok v /\ length v = n /\ v = nth k vectors [].
  Proof.
    destruct HS as (_ & E & Hl & _). intro H. exists (nth k vectors []). unfold get_. rewrite (nth_error_nth' vectors []) by lia. refine (conj eq_refl (conj _ eq_refl)).
    apply Hl. apply nth_In. lia.
  Qed.
  Lemma get_coefficient k i : (k < n)%nat -> (i < n)%nat -> get_ (nth k vectors []) i = Ok (u k i).
  Proof. intros Hk Hi. destruct (get_vector k Hk) as (v & _ & Hl & E). unfold get_. rewrite (nth_error_nth' _ 0) by (rewrite <- E; lia). reflexivity. Qed.

  Lemma kahan_fold (f : nat -> R) (step : R * R -> nat -> outcome (R * R)) m : (forall st k, (k < m)%nat -> step st k = Ok (kahanR_add st (f k))) ->
    foldM step (seq 0 m) (0, 0) = Ok (sumR m f, 0).
  Proof.
    intro H. assert (G : foldM step (seq 0 m) (0, 0) = Ok (fold_left kahanR_add (map f (seq 0 m)) (0, 0))).
    { assert (H' : forall st k, In k (seq 0 m) -> step st k = Ok (kahanR_add st (f k))) by (intros st k Hk; apply H; apply in_seq in Hk; lia). clear H.
      generalize (0, 0). induction (seq 0 m) as [|k l IH]; intro st; cbn [foldM map fold_left]; [reflexivity|]. rewrite H' by (simpl; auto). cbn [bind]. apply IH. intros; apply H'; simpl; auto. }
    rewrite G. destruct (kahanR_list (map f (seq 0 m)) 0) as [A B]. rewrite (surjective_pairing (fold_left _ _ _)), A, B. unfold sumR. f_equal. f_equal. lra.
  Qed.

  Lemma h_two_ok i j t : (i < n)%nat -> (j < n)%nat -> h_two h i j t = Ok (heat_value i j t).
  Proof.
    intros Hi Hj. unfold h_two. cbn [h_values h_vectors h]. rewrite (proj1 HS).
    rewrite (kahan_fold (fun k => exp (- t * lam k) * u k i * u k j)).
    - cbn [bind fst]. f_equal. apply sumR_ext. intros k Hk. lra.
    - intros st k Hk. rewrite get_value by exact Hk. cbn [bind]. destruct (get_vector k Hk) as (v & -> & _ & ->). cbn [bind]. rewrite !get_coefficient by assumption. reflexivity.
  Qed.
  Lemma h_auto_ok i t : (i < n)%nat -> h_auto h i t = Ok (heat_value i i t).
  Proof.
    intros Hi. unfold h_auto. cbn [h_values h_vectors h]. rewrite (proj1 HS).
    rewrite (kahan_fold (fun k => exp (- t * lam k) * u k i * u k i)).
    - cbn [bind fst]. f_equal. apply sumR_ext. intros k Hk. lra.
    - intros st k Hk. rewrite get_value by exact Hk. cbn [bind]. destruct (get_vector k Hk) as (v & -> & _ & ->). cbn [bind]. rewrite !get_coefficient by assumption. reflexivity.
  Qed.
  Lemma h_trace_ok t : h_trace h t = sumR n (fun k => exp (- t * lam k)).
  Proof.
    unfold h_trace. cbn [h_values h]. assert (E : forall l st, fold_left (fun result x => kahanR_add result (exp (- t * x))) l st = fold_left kahanR_add (map (fun x => exp (- t * x)) l) st).
    { induction l as [|a l IH]; intro st; [reflexivity|]. cbn [fold_left map]. apply IH. }
    rewrite E. destruct (kahanR_list (map (fun x => exp (- t * x)) values) 0) as [A _]. rewrite A. unfold sumR. assert (M : map (fun x => exp (- t * x)) values = map (fun k => exp (- t * lam k)) (seq 0 n)).
    { destruct HS as [<- _]. unfold lam. clear. rewrite <- (map_map (fun k => nth k values 0) (fun x => exp (- t * x))). f_equal. induction values as [|a l IH]; [reflexivity|]. cbn [length seq map nth]. f_equal. rewrite <- seq_shift, map_map. exact IH. }
    rewrite M. lra.
  Qed.

  Lemma heat_sym i j t : heat_value i j t = heat_value j i t.
  Proof. apply sumR_ext. intros k _. lra. Qed.
  Lemma heat_zero i j : (i < n)%nat -> (j < n)%nat -> heat_value i j 0 = delta i j.
  Proof. intros Hi Hj. destruct HS as (_ & _ & _ & _ & _ & C & _). rewrite <- (C i j Hi Hj). apply sumR_ext. intros k _. replace (- 0 * lam k) with 0 by lra. rewrite exp_0. unfold u. lra. Qed.
  Lemma heat_semigroup i j s t : (i < n)%nat -> (j < n)%nat -> sumR n (fun m => heat_value i m s * heat_value m j t) = heat_value i j (s + t).
  Proof.
    intros Hi Hj. destruct HS as (_ & _ & _ & _ & O & _). unfold heat_value.
    rewrite (sumR_ext n _ (fun m => sumR n (fun k => sumR n (fun l => exp (- s * lam k) * u k i * (exp (- t * lam l) * u l j) * (u k m * u l m))))).
    2:{ intros m _. rewrite Rmult_comm, <- sumR_scale. apply sumR_ext. intros k _. rewrite Rmult_comm, <- sumR_scale. apply sumR_ext. intros l _. ring. }
    rewrite sumR_swap. apply sumR_ext. intros k Hk. rewrite sumR_swap.
    rewrite (sumR_ext n _ (fun l => delta k l * (exp (- s * lam k) * u k i * (exp (- t * lam l) * u l j)))).
    2:{ intros l Hl. rewrite sumR_scale. unfold u at 3 4. rewrite (O k l Hk Hl). ring. }
    rewrite sumR_delta by exact Hk. replace (- (s + t) * lam k) with (- s * lam k + - t * lam k) by ring. rewrite exp_plus. ring.
  Qed.
  Lemma heat_trace t : sumR n (fun i => heat_value i i t) = sumR n (fun k => exp (- t * lam k)).
  Proof.
    destruct HS as (_ & _ & _ & _ & O & _). unfold heat_value. rewrite sumR_swap. apply sumR_ext. intros k Hk. rewrite sumR_scale. unfold u. rewrite (O k k Hk Hk). unfold delta. rewrite Nat.eqb_refl. ring.
  Qed.
  Lemma heat_eigen i j t : (i < n)%nat -> sumR n (fun m => IZR (ent L i m) * heat_value m j t) = sumR n (fun k => lam k * (exp (- t * lam k) * (u k i * u k j))).
  Proof.
    intro Hi. destruct HS as (_ & _ & _ & E & _). unfold heat_value.
    rewrite (sumR_ext n _ (fun m => sumR n (fun k => (exp (- t * lam k) * u k j) * (IZR (ent L i m) * u k m)))) by (intros m _; rewrite <- sumR_scale; apply sumR_ext; intros k _; ring).
    rewrite sumR_swap. apply sumR_ext. intros k Hk. rewrite sumR_scale. unfold u at 2. rewrite (E k i Hk Hi). unfold lam, u. ring.
  Qed.
  Lemma heat_pos i t : (i < n)%nat -> 0 < heat_value i i t.
  Proof.
    intro Hi. destruct HS as (_ & _ & _ & _ & _ & C & _). specialize (C i i Hi Hi). unfold delta in C. rewrite Nat.eqb_refl in C.
    assert (G : forall m, (forall k, (k < m)%nat -> u k i = 0) \/ exists k, (k < m)%nat /\ u k i <> 0).
    { induction m as [|m [IH|(k & Hk & IH)]]; [left; intros; lia| |right; exists k; split; [lia|exact IH]].
      destruct (Req_EM_T (u m i) 0) as [E|E]; [|right; exists m; split; [lia|exact E]]. left. intros k Hk. destruct (Nat.eq_dec k m) as [->|]; [exact E|apply IH; lia]. }
    destruct (G n) as [Z|(k & Hk & Hne)].
    - exfalso. rewrite (sumR_zero n) in C; [lra|]. intros k Hk. specialize (Z k Hk). unfold u in Z. rewrite Z. ring.
    - apply (sumR_pos n _ k); [|exact Hk|].
      + intros l _. pose proof (exp_pos (- t * lam l)). pose proof (Rle_0_sqr (u l i)). unfold Rsqr in *. nra.
      + pose proof (exp_pos (- t * lam k)). pose proof (Rsqr_pos_lt (u k i) Hne). unfold Rsqr in *. nra.
  Qed.
End Heat.

Lemma sumR_derivable (f d : nat -> R -> R) m t : (forall k, (k < m)%nat -> derivable_pt_lim (f k) t (d k t)) ->
  derivable_pt_lim (fun x => sumR m (fun k => f k x)) t (sumR m (fun k => d k t)).
Proof.
  intro H. induction m as [|m IH].
  - apply (derivable_pt_lim_ext (fct_cte 0)); [reflexivity|]. apply derivable_pt_lim_const.
  - rewrite sumR_S. apply (derivable_pt_lim_ext ((fun x => sumR m (fun k => f k x)) + f m)%F); [intro z; unfold plus_fct; symmetry; apply sumR_S|].
    apply derivable_pt_lim_plus; [apply IH; intros; apply H; lia|apply H; lia].
Qed.

Lemma exp_derivable l c t : derivable_pt_lim (fun x => exp (- x * l) * c) t (- (l * (exp (- t * l) * c))).
Proof.
  replace (- (l * (exp (- t * l) * c))) with (c * (exp (- t * l) * (- l))) by ring.
  apply (derivable_pt_lim_ext (mult_real_fct c (comp exp (fun x => - x * l)))); [intro z; unfold mult_real_fct, comp; ring|]. apply derivable_pt_lim_scal.
  apply derivable_pt_lim_comp; [|apply derivable_pt_lim_exp]. apply (derivable_pt_lim_ext (mult_real_fct (- l) id)); [intro z; unfold mult_real_fct, id; ring|].
  replace (- l) with (- l * 1) at 2 by ring. apply derivable_pt_lim_scal. apply derivable_pt_lim_id.
Qed.

Section Laplace.
  Variables (n : nat) (L : list (list Z)) (values : list R) (vectors : list (list R)).
  Hypothesis HS : spectral n L values vectors.
  Hypothesis Lsym : forall i j, (i < n)%nat -> (j < n)%nat -> ent L i j = ent L j i.
  Hypothesis Lrow : forall i, (i < n)%nat -> sumZ n (fun j => ent L i j) = 0%Z.
  Let lam k := nth k values 0.
  Let u k i := nth i (nth k vectors []) 0.
  Let H := heat_value n values vectors.

  Lemma heat_equation i j t : (i < n)%nat -> derivable_pt_lim (fun x => H i j x) t (- sumR n (fun m => IZR (ent L i m) * H m j t)).
  Proof.
    intro Hi. unfold H at 2. rewrite (heat_eigen n L values vectors HS i j t Hi).
    replace (- sumR n (fun k => nth k values 0 * (exp (- t * nth k values 0) * (nth i (nth k vectors []) 0 * nth j (nth k vectors []) 0))))
      with (sumR n (fun k => - (lam k * (exp (- t * lam k) * (u k i * u k j))))).
    2:{ unfold lam, u. match goal with |- _ = - ?X => replace (- X) with ((-1) * X) by ring end. rewrite <- sumR_scale. apply sumR_ext. intros k _. ring. }
    unfold H, heat_value. apply (sumR_derivable (fun k x => exp (- x * lam k) * (u k i * u k j)) (fun k x => - (lam k * (exp (- x * lam k) * (u k i * u k j))))). intros k _. apply exp_derivable.
  Qed.

  (** the product with the constant function vanishes unless the eigenvalue is 0 *)
  Lemma one_orthogonal k : (k < n)%nat -> lam k * sumR n (fun i => u k i) = 0.
  Proof.
    intro Hk. destruct HS as (_ & _ & _ & E & _). rewrite <- sumR_scale. rewrite (sumR_ext n _ (fun i => sumR n (fun j => IZR (ent L i j) * u k j))) by (intros i Hi; unfold lam, u; rewrite (E k i Hk Hi); reflexivity).
    rewrite sumR_swap. apply sumR_zero. intros j Hj. rewrite (sumR_ext n _ (fun i => u k j * IZR (ent L j i))) by (intros i Hi; rewrite (Lsym i j) by assumption; ring).
    rewrite sumR_scale, sumR_IZR, Lrow by exact Hj. ring.
  Qed.

  Lemma heat_conserved i t : (i < n)%nat -> sumR n (fun j => H i j t) = 1.
  Proof.
    intro Hi. unfold H, heat_value. rewrite sumR_swap.
    rewrite (sumR_ext n _ (fun k => sumR n (fun j => u k i * u k j))).
    - rewrite sumR_swap. destruct HS as (_ & _ & _ & _ & _ & C & _). rewrite (sumR_ext n _ (fun j => delta i j * 1)) by (intros j Hj; unfold u; rewrite (C i j Hi Hj); ring). rewrite sumR_delta by exact Hi. reflexivity.
    - intros k Hk. fold (lam k). rewrite sumR_scale. rewrite !sumR_scale. pose proof (one_orthogonal k Hk) as O. destruct (Rmult_integral _ _ O) as [Z|Z].
      + rewrite Z. replace (- t * 0) with 0 by ring. rewrite exp_0. rewrite Rmult_1_l. reflexivity.
      + change (sumR n (fun i0 => nth i0 (nth k vectors []) 0) = 0) in Z. change (sumR n (u k)) with (sumR n (fun i0 => nth i0 (nth k vectors []) 0)). rewrite Z. ring.
  Qed.

  Hypothesis Lneg : forall i j, (i < n)%nat -> (j < n)%nat -> i <> j -> (ent L i j <= 0)%Z.

  Lemma eigen_nonneg k : (k < n)%nat -> 0 <= lam k.
  Proof.
    intro Hk. destruct HS as (_ & _ & _ & E & O & _). specialize (O k k Hk Hk). unfold delta in O. rewrite Nat.eqb_refl in O.
    assert (Q : lam k = sumR n (fun i => sumR n (fun j => IZR (ent L i j) * (u k i * u k j)))).
    { rewrite <- (Rmult_1_r (lam k)), <- O, <- sumR_scale. apply sumR_ext. intros i Hi. transitivity (u k i * (lam k * u k i)); [unfold u; ring|]. unfold lam, u at 2. rewrite <- (E k i Hk Hi), <- sumR_scale. apply sumR_ext. intros j _. unfold u. ring. }
    assert (Z1 : sumR n (fun i => sumR n (fun j => IZR (ent L i j) * (u k i * u k i))) = 0).
    { apply sumR_zero. intros i Hi. rewrite (sumR_ext n _ (fun j => (u k i * u k i) * IZR (ent L i j))) by (intros; ring). rewrite sumR_scale, sumR_IZR, Lrow by exact Hi. ring. }
    assert (Z2 : sumR n (fun i => sumR n (fun j => IZR (ent L i j) * (u k j * u k j))) = 0).
    { rewrite sumR_swap, <- Z1. apply sumR_ext. intros i Hi. apply sumR_ext. intros j Hj. rewrite (Lsym j i) by assumption. reflexivity. }
    assert (P : 2 * lam k = sumR n (fun i => sumR n (fun j => - IZR (ent L i j) * ((u k i - u k j) * (u k i - u k j))))).
    { rewrite Q. transitivity (2 * sumR n (fun i => sumR n (fun j => IZR (ent L i j) * (u k i * u k j))) + (-1) * sumR n (fun i => sumR n (fun j => IZR (ent L i j) * (u k i * u k i))) + (-1) * sumR n (fun i => sumR n (fun j => IZR (ent L i j) * (u k j * u k j)))); [rewrite Z1, Z2; ring|].
      rewrite <- !sumR_scale, <- !sumR_plus. apply sumR_ext. intros i Hi. rewrite <- !sumR_scale, <- !sumR_plus. apply sumR_ext. intros j Hj. ring. }
    assert (0 <= 2 * lam k); [|lra]. rewrite P. apply sumR_nonneg. intros i Hi. apply sumR_nonneg. intros j Hj.
    pose proof (Rle_0_sqr (u k i - u k j)) as S. unfold Rsqr in S. destruct (Nat.eq_dec i j) as [->|Hne]; [replace (u k j - u k j) with 0 by ring; lra|].
    pose proof (IZR_le _ _ (Lneg i j Hi Hj Hne)). nra.
  Qed.

  Lemma first_eigenvalue : (0 < n)%nat -> lam 0 = 0.
  Proof.
    intro Hn. assert (G : forall m, (forall k, (k < m)%nat -> sumR n (fun i => u k i) = 0) \/ exists k, (k < m)%nat /\ sumR n (fun i => u k i) <> 0).
    { induction m as [|m [IH|(k & Hk & IH)]]; [left; intros; lia| |right; exists k; split; [lia|exact IH]].
      destruct (Req_EM_T (sumR n (fun i => u m i)) 0) as [E|E]; [|right; exists m; split; [lia|exact E]]. left. intros k Hk. destruct (Nat.eq_dec k m) as [->|]; [exact E|apply IH; lia]. }
    destruct (G n) as [Z|(k & Hk & Hne)].
    - exfalso. pose proof HS as (_ & _ & _ & _ & _ & C & _). assert (X : sumR n (fun j => sumR n (fun k => u k 0%nat * u k j)) = 1).
      { rewrite (sumR_ext n _ (fun j => delta 0 j * 1)) by (intros j Hj; unfold u; rewrite (C 0%nat j Hn Hj); ring). rewrite sumR_delta by exact Hn. reflexivity. }
      rewrite sumR_swap in X. rewrite (sumR_zero n) in X; [lra|]. intros k Hk. rewrite sumR_scale. assert (Zk : sumR n (u k) = 0) by exact (Z k Hk). rewrite Zk. ring.
    - pose proof (one_orthogonal k Hk) as O. destruct (Rmult_integral _ _ O) as [Z|Z]; [|contradiction]. pose proof HS as (_ & _ & _ & _ & _ & _ & A). pose proof (A 0%nat k ltac:(lia) Hk) as B. pose proof (eigen_nonneg 0 Hn). unfold lam in *. lra.
  Qed.

  Lemma heat_le i t s : (i < n)%nat -> 0 <= t -> t <= s -> H i i s <= H i i t.
  Proof.
    intros Hi Ht Hts. apply sumR_le. intros k Hk. fold (lam k) (u k i). pose proof (Rle_0_sqr (u k i)) as S. unfold Rsqr in S. apply Rmult_le_compat_r; [exact S|].
    pose proof (eigen_nonneg k Hk). destruct (Rle_lt_or_eq_dec (- s * lam k) (- t * lam k)) as [B|B]; [nra|left; apply exp_increasing; exact B|rewrite B; lra].
  Qed.
End Laplace.

(** ** C106 *)
(** the solver returns a spectral decomposition of the Laplacian *)
Definition decomposes (solver : dense -> list R * list (list R)) (K : complex) : Prop :=
  forall L, weightedLaplacianMatrix K = Ok L -> spectral (length (k_vertices K)) L (fst (solver L)) (snd (solver L)).

(** The values solve the heat equation of the Laplacian, with the identity at time 0. *)
Theorem C106_heat : forall solver K, reachable K -> edges_have_ends K -> decomposes solver K ->
  let n := length (k_vertices K) in
  exists L h H, weightedLaplacianMatrix K = Ok L /\ h_make solver K = Ok h /\
    (forall i j t, (i < n)%nat -> (j < n)%nat -> h_two h i j t = Ok (H i j t)) /\
    (forall i t, (i < n)%nat -> h_auto h i t = Ok (H i i t)) /\
    (forall i j, (i < n)%nat -> (j < n)%nat -> H i j 0 = if Nat.eqb i j then 1 else 0) /\
    (forall i j t, (i < n)%nat -> (j < n)%nat -> derivable_pt_lim (fun x => H i j x) t (- sumR n (fun m => IZR (ent L i m) * H m j t))) /\
    (forall i j t, H i j t = H j i t) /\
    (forall i j s t, (i < n)%nat -> (j < n)%nat -> sumR n (fun m => H i m s * H m j t) = H i j (s + t)) /\
    (forall i t, (i < n)%nat -> sumR n (fun j => H i j t) = 1) /\
    (forall i t, (i < n)%nat -> 0 < H i i t) /\
    (forall t, h_trace h t = sumR n (fun i => H i i t)).
Proof.
  intros solver K HR HE HD n. destruct (C104_laplacian K HR HE) as (L & EL & _ & _ & RL & SL). fold n in RL, SL. pose proof (HD L EL) as HS. fold n in HS. destruct (solver L) as [values vectors] eqn:E. cbn [fst snd] in HS.
  exists L, (Heat false values vectors), (heat_value n values vectors). refine (conj EL (conj _ (conj _ (conj _ (conj _ (conj _ (conj _ (conj _ (conj _ (conj _ _)))))))))).
  - unfold h_make. rewrite EL. cbn [bind]. rewrite E. reflexivity.
  - intros i j t. apply (h_two_ok n L); exact HS.
  - intros i t. apply (h_auto_ok n L); exact HS.
  - intros i j. apply (heat_zero n L); exact HS.
  - intros i j t Hi _. apply (heat_equation n L); assumption.
  - intros i j t. apply heat_sym.
  - intros i j s t. apply (heat_semigroup n L); exact HS.
  - intros i t. apply (heat_conserved n L); assumption.
  - intros i t. apply (heat_pos n L); exact HS.
  - intro t. rewrite (h_trace_ok n L values vectors false HS). symmetry. apply (heat_trace n L); exact HS.
Qed.

(** For weights that are not negative, the eigenvalues are not negative, the first one is 0,
    and the auto-diffusion decreases with time. *)
Definition nonneg_edges (K : complex) : Prop := forall s, In s (by_index K) -> length (verts s) = 2%nat -> (0 <= data s)%Z.

Lemma nonneg_offdiagonal K L : reachable K -> nonneg_edges K -> let vs := k_vertices K in let n := length vs in
  (forall i j, (i < n)%nat -> (j < n)%nat -> i <> j -> edge_weight (by_index K) (nth i vs 0%nat) (nth j vs 0%nat) (- ent L i j)) ->
  forall i j, (i < n)%nat -> (j < n)%nat -> i <> j -> (ent L i j <= 0)%Z.
Proof.
  intros HR HN vs n H i j Hi Hj Hne. destruct (H i j Hi Hj Hne) as [[Hv (s & Hs & Es & Ed)]|[E _]]; [|lia].
  assert (D : (0 <= data s)%Z); [|lia]. apply HN; [exact Hs|]. pose proof (reachable_kwf K HR) as HK. destruct (kwf_good K HK s Hs) as [Hwf _]. apply Nat.le_antisymm.
  - apply (NoDup_incl_length (l' := [nth i vs 0%nat; nth j vs 0%nat])); [apply SSgt_NoDup; exact Hwf|]. intros w Hw. apply Es. exact Hw.
  - apply (NoDup_incl_length (l := [nth i vs 0%nat; nth j vs 0%nat]) (l' := verts s)); [constructor; [intros [X|[]]; congruence|constructor; [intros []|constructor]]|]. intros w Hw. apply Es. exact Hw.
Qed.

Theorem C106_spectrum : forall solver K, reachable K -> edges_have_ends K -> nonneg_edges K -> decomposes solver K ->
  let n := length (k_vertices K) in
  exists h, h_make solver K = Ok h /\ length (h_values h) = n /\ (forall l, In l (h_values h) -> 0 <= l) /\ ((0 < n)%nat -> nth 0 (h_values h) 1 = 0) /\
    forall i t s, (i < n)%nat -> 0 <= t -> t <= s -> exists x y, h_auto h i t = Ok x /\ h_auto h i s = Ok y /\ 0 < y /\ y <= x /\ x <= 1.
Proof.
  intros solver K HR HE HN HD n. destruct (C104_laplacian K HR HE) as (L & EL & _ & NL & RL & SL). fold n in NL, RL, SL. pose proof (HD L EL) as HS. fold n in HS. destruct (solver L) as [values vectors] eqn:E. cbn [fst snd] in HS.
  pose proof (nonneg_offdiagonal K L HR HN NL) as LN. fold n in LN. exists (Heat false values vectors). cbn [h_values].
  refine (conj _ (conj (proj1 HS) (conj _ (conj _ _)))).
  - unfold h_make. rewrite EL. cbn [bind]. rewrite E. reflexivity.
  - intros l Hl. apply In_nth with (d := 0) in Hl. destruct Hl as (k & Hk & <-). apply (eigen_nonneg n L values vectors HS SL RL LN). rewrite <- (proj1 HS). exact Hk.
  - intro Hn. rewrite (nth_indep values 1 0) by (rewrite (proj1 HS); exact Hn). apply (first_eigenvalue n L values vectors HS SL RL LN Hn).
  - intros i t s Hi Ht Hs. exists (heat_value n values vectors i i t), (heat_value n values vectors i i s). refine (conj _ (conj _ (conj _ (conj _ _)))).
    + apply (h_auto_ok n L); assumption.
    + apply (h_auto_ok n L); assumption.
    + apply (heat_pos n L); assumption.
    + apply (heat_le n L); assumption.
    + replace 1 with (heat_value n values vectors i i 0); [apply (heat_le n L); try assumption; lra|]. rewrite (heat_zero n L) by assumption. unfold delta. rewrite Nat.eqb_refl. reflexivity.
Qed.

(** FINDING: the determinant is always 0, since the product starts with 0; the determinant of
    an exponential is positive. *)
Theorem C106_determinant_refuted : forall h t, h_determinant h t = 0.
Proof. intros h t. unfold h_determinant. induction (h_values h) as [|l v IH]; [reflexivity|]. cbn [fold_left]. rewrite Rmult_0_l. exact IH. Qed.

(** FINDING: the evaluation for all vertices adds matrices of different sizes. *)
Theorem C106_all_refuted : forall h t, h_values h <> [] -> h_all h t = UB.
Proof. intros h t H. unfold h_all. destruct (h_values h); [contradiction|reflexivity]. Qed.

(** ** C107 *)
Lemma last_opt_nth (l : list R) : l <> [] -> last_opt l = Some (nth (length l - 1) l 0).
Proof.
  induction l as [|a l IH]; intro H; [contradiction|]. destruct l as [|b l]; [reflexivity|]. change (last_opt (a :: b :: l)) with (last_opt (b :: l)). rewrite IH by discriminate.
  cbn [length Nat.sub]. rewrite Nat.sub_0_r. reflexivity.
Qed.

(** The samples are a geometric progression between the two ends. *)
Theorem C107_sampling : forall h m, h_skip h = false -> (2 <= length (h_values h))%nat -> (2 <= m)%nat ->
  let l1 := nth 1 (h_values h) 0 in let l2 := nth (length (h_values h) - 1) (h_values h) 0 in
  0 < l1 -> 0 < l2 ->
  exists samples q, h_sampling h m = Ok (Some samples) /\ length samples = m /\ 0 < q /\ (l1 <= l2 -> 1 <= q) /\
    (forall i, (i < m)%nat -> nth i samples 0 = 4 * ln 10 / l2 * q ^ i) /\
    nth (m - 1) samples 0 = 4 * ln 10 / l1.
Proof.
  intros h m Hs Hl Hm l1 l2 H1 H2. unfold h_sampling. rewrite last_opt_nth by (intro X; rewrite X in Hl; simpl in Hl; lia). fold l2. rewrite Hs. unfold get_.
  rewrite (nth_error_nth' _ 0) by lia. fold l1. cbn [bind]. assert (P10 : 0 < ln 10) by (rewrite <- ln_1; apply ln_increasing; lra).
  unfold divR. destruct (Req_EM_T l2 0); [lra|]. destruct (Req_EM_T l1 0); [lra|]. destruct m as [|m]; [lia|]. destruct (Req_EM_T (INR (S m - 1)) 0) as [Z|Z]; [apply (INR_eq _ 0%nat) in Z; lia|].
  set (tmin := 4 * ln 10 / l2). set (tmax := 4 * ln 10 / l1). assert (Pmin : 0 < tmin) by (unfold tmin, Rdiv; apply Rmult_lt_0_compat; [lra|apply Rinv_0_lt_compat; exact H2]). assert (Pmax : 0 < tmax) by (unfold tmax, Rdiv; apply Rmult_lt_0_compat; [lra|apply Rinv_0_lt_compat; exact H1]).
  set (off := (ln tmax - ln tmin) / INR (S m - 1)). exists (map (fun i => Rpower (exp 1) (ln tmin + INR i * off)) (seq 0 (S m))), (exp off).
  assert (V : forall i, (i < S m)%nat -> nth i (map (fun i => Rpower (exp 1) (ln tmin + INR i * off)) (seq 0 (S m))) 0 = tmin * exp off ^ i).
  { intros i Hi. rewrite (nth_indep _ 0 (Rpower (exp 1) (ln tmin + INR 0 * off))) by (rewrite map_length, seq_length; exact Hi). rewrite (map_nth (fun i => Rpower (exp 1) (ln tmin + INR i * off))), seq_nth by exact Hi. cbn [Nat.add].
    unfold Rpower. rewrite ln_exp, Rmult_1_r, exp_plus, exp_ln by exact Pmin. f_equal. rewrite <- (ln_exp off) at 1. fold (Rpower (exp off) (INR i)). apply Rpower_pow. apply exp_pos. }
  refine (conj eq_refl (conj _ (conj (exp_pos off) (conj _ (conj V _))))).
  - rewrite map_length, seq_length. reflexivity.
  - intro Hle. rewrite <- exp_0. assert (O : 0 <= off).
    { unfold off. assert (PI : 0 < INR (S m - 1)) by (apply lt_0_INR; lia). unfold Rdiv. apply Rmult_le_pos; [|left; apply Rinv_0_lt_compat; exact PI].
      assert (T : tmin <= tmax) by (unfold tmin, tmax, Rdiv; apply Rmult_le_compat_l; [lra|apply Rinv_le_contravar; assumption]). destruct (Rle_lt_or_eq_dec _ _ T) as [T'|T']; [pose proof (ln_increasing _ _ Pmin T'); lra|rewrite T'; lra]. }
    destruct (Rle_lt_or_eq_dec _ _ O) as [O'|O']; [left; apply exp_increasing; exact O'|rewrite <- O'; lra].
  - rewrite V by lia. rewrite <- (Rpower_pow (S m - 1)) by apply exp_pos. unfold Rpower. rewrite ln_exp. unfold off. replace (INR (S m - 1) * ((ln tmax - ln tmin) / INR (S m - 1))) with (ln tmax - ln tmin) by (field; exact Z).
    unfold Rminus. rewrite exp_plus, exp_Ropp, !exp_ln by assumption. field. lra.
Qed.

(** FINDING: the samples are not finite for a single sample, and if the first eigenvalue is to
    be skipped: this can be demanded after the construction only, which never skips it. *)
Theorem C107_single_refuted : forall h, h_values h <> [] -> (h_skip h = false -> (2 <= length (h_values h))%nat) -> h_sampling h 1 = Ok None.
Proof.
  intros h Hne H. unfold h_sampling. rewrite last_opt_nth by exact Hne. assert (G : exists x, (if h_skip h then get_ (h_values h) 0 else get_ (h_values h) 1) = Ok x).
  { unfold get_. destruct (h_values h) as [|a [|b v]]; [contradiction| |destruct (h_skip h); cbn [nth_error]; eauto]. destruct (h_skip h); [cbn [nth_error]; eauto|]. specialize (H eq_refl). simpl in H. lia. }
  destruct G as [x ->]. cbn [bind]. f_equal. destruct (divR _ _); [|reflexivity]. destruct (divR _ _); [|reflexivity]. unfold divR. cbn [Nat.sub INR]. destruct (Req_EM_T 0 0); [reflexivity|lra].
Qed.

Theorem C107_skip_refuted : forall solver K m, reachable K -> edges_have_ends K -> nonneg_edges K -> decomposes solver K -> (0 < length (k_vertices K))%nat -> (0 < m)%nat ->
  exists h, h_make solver K = Ok h /\ h_sampling (h_setSkip h true) m = Ok None.
Proof.
  intros solver K m HR HE HN HD Hn Hm. destruct (C106_spectrum solver K HR HE HN HD) as (h & E & Hl & _ & Z & _). exists h. split; [exact E|]. specialize (Z Hn). unfold h_sampling, h_setSkip. cbn [h_values h_skip].
  rewrite last_opt_nth by (intro X; rewrite X in Hl; simpl in Hl; lia). unfold get_. rewrite (nth_error_nth' _ 1) by lia. rewrite Z. cbn [bind]. f_equal. destruct m; [lia|].
  destruct (divR _ _); [|reflexivity]. unfold divR. destruct (Req_EM_T 0 0); [reflexivity|lra].
Qed.

(** For a single vertex, the second eigenvalue is read although there is none. *)
Theorem C107_vertex_refuted : forall solver K m, reachable K -> edges_have_ends K -> decomposes solver K -> length (k_vertices K) = 1%nat ->
  exists h, h_make solver K = Ok h /\ h_sampling h m = UB.
Proof.
  intros solver K m HR HE HD Hn. destruct (C104_laplacian K HR HE) as (L & EL & _). pose proof (HD L EL) as HS. destruct (solver L) as [values vectors] eqn:E. cbn [fst snd] in HS.
  exists (Heat false values vectors). split; [unfold h_make; rewrite EL; cbn [bind]; rewrite E; reflexivity|]. destruct HS as (Hl & _). rewrite Hn in Hl. unfold h_sampling. cbn [h_values h_skip].
  destruct values as [|a [|b r]]; try discriminate. reflexivity.
Qed.

(** An edge of weight 1: the eigenvalues are 0 and 2, and the heat that has moved from one
    end to the other is [(1 - exp (-2 t)) / 2]. *)
Example C106_example :
  let K := match k_of_range (map (fun vs => simplex_of vs 1) [[0]; [1]; [0; 1]]%nat) with Ok K => K | _ => k_empty end in
  let a := / sqrt 2 in
  let solver := fun _ : dense => ([0; 2], [[a; a]; [a; - a]]) in
  decomposes solver K /\ exists h, h_make solver K = Ok h /\ forall t, h_two h 0 1 t = Ok ((1 - exp (- t * 2)) / 2).
Proof.
  intros K a solver. assert (S2 : sqrt 2 * sqrt 2 = 2) by (apply sqrt_sqrt; lra). assert (P2 : 0 < sqrt 2) by (apply sqrt_lt_R0; lra).
  assert (A : a * a = / 2). { unfold a. rewrite <- Rinv_mult. rewrite S2. reflexivity. }
  assert (D : spectral 2 [[1; -1]; [-1; 1]]%Z [0; 2] [[a; a]; [a; - a]]).
  { refine (conj eq_refl (conj eq_refl (conj _ (conj _ (conj _ (conj _ _)))))).
    - intros u [<-|[<-|[]]]; reflexivity.
    - intros k i Hk Hi. do 2 (destruct k as [|k]; [do 2 (destruct i as [|i]; [unfold sumR, ent; cbn [seq map fold_right nth]; lra|]); lia|]). lia.
    - intros k l Hk Hl. do 2 (destruct k as [|k]; [do 2 (destruct l as [|l]; [unfold sumR, delta; cbn [seq map fold_right nth Nat.eqb]; lra|]); lia|]). lia.
    - intros k l Hk Hl. do 2 (destruct k as [|k]; [do 2 (destruct l as [|l]; [unfold sumR, delta; cbn [seq map fold_right nth Nat.eqb]; lra|]); lia|]). lia.
    - intros k l Hkl Hl. do 2 (destruct k as [|k]; [do 2 (destruct l as [|l]; [try lia; cbn [nth]; lra|]); lia|]). lia. }
  assert (EL : weightedLaplacianMatrix K = Ok [[1; -1]; [-1; 1]]%Z) by (vm_compute; reflexivity).
  split; [intros L E; rewrite EL in E; injection E as <-; exact D|]. exists (Heat false [0; 2] [[a; a]; [a; - a]]). split; [unfold h_make; rewrite EL; reflexivity|].
  intro t. rewrite (h_two_ok 2 _ _ _ false D) by lia. f_equal. unfold heat_value, sumR. cbn [seq map fold_right nth]. replace (- t * 0) with 0 by ring. rewrite exp_0. replace (a * - a) with (- (a * a)) by ring. rewrite A. lra.
Qed.

(** Eigenvalues 0, 1 and 4: three samples double from [ln 10] to [4 ln 10]. *)
Example C107_example : exists samples, h_sampling (Heat false [0; 1; 4] []) 3 = Ok (Some samples) /\
  nth 0 samples 0 = ln 10 /\ nth 1 samples 0 = 2 * ln 10 /\ nth 2 samples 0 = 4 * ln 10.
Proof.
  destruct (C107_sampling (Heat false [0; 1; 4] []) 3 eq_refl) as (samples & q & E & _ & Hq & _ & V & Z); try (cbn; lra); try (cbn; lia).
  exists samples. cbn [h_values nth length Nat.sub] in V, Z. assert (P10 : 0 < ln 10) by (rewrite <- ln_1; apply ln_increasing; lra).
  pose proof (V 0%nat ltac:(lia)) as V0. pose proof (V 1%nat ltac:(lia)) as V1. pose proof (V 2%nat ltac:(lia)) as V2. cbn [pow] in V0, V1, V2.
  assert (Q : q = 2). { rewrite Z in V2. assert (X : (q - 2) * (q + 2) = 0) by (apply (Rmult_eq_reg_l (ln 10)); [|lra]; lra). apply Rmult_integral in X. destruct X; lra. }
  subst q. refine (conj E (conj _ (conj _ _))); lra.
Qed.

Print Assumptions C106_heat.
Print Assumptions C106_spectrum.
Print Assumptions C106_determinant_refuted.
Print Assumptions C106_all_refuted.
Print Assumptions C107_sampling.
Print Assumptions C107_single_refuted.
Print Assumptions C107_skip_refuted.
Print Assumptions C107_vertex_refuted.
