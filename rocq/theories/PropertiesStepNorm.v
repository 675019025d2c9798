(** * C141: absolute values, powers, norms and normalization of step functions. *)

From Coq Require Import List Permutation Sorted Reals Lra Lia.
From Verif Require Import Base BaseFacts StepNorm.
Import ListNotations.
Local Open Scope R_scope.

(** ** Specification *)

(** intervals of positive length in ascending order that meet in end points only *)
Definition ordered (f : rstep) : Prop := StronglySorted (fun i j => rb i <= ra j) f /\ Forall (fun i => ra i < rb i) f.

Definition inside (i : rindicator) (x : R) : Prop := ra i <= x <= rb i.

(** the value at an argument that at most one interval contains *)
Definition has_value (f : rstep) (x y : R) : Prop :=
  (exists i, In i f /\ inside i x /\ ry i = y /\ forall j, In j f -> inside j x -> j = i) \/
  ((forall j, In j f -> ~ inside j x) /\ y = 0).

(** powers of non-negative numbers, for positive exponents *)
Definition power (y p : R) : R := if Req_EM_T y 0 then 0 else Rpower y p.

(** the integral of [h(f)], where [h] maps 0 to 0 *)
Definition area (h : R -> R) (f : rstep) : R := fold_right (fun i acc => h (ry i) * (rb i - ra i) + acc) 0 f.

(** intervals are kept, values are changed by [h] *)
Definition with_values (h : R -> R) (f : rstep) : rstep := map (fun i => RInd (ra i) (rb i) (h (ry i))) f.

(** ** Proofs *)

Lemma contains_iff x i : r_contains x i = true <-> inside i x.
Proof. unfold r_contains, inside. destruct (Rle_dec (ra i) x); [destruct (Rle_dec x (rb i))|]; split; intro H; try easy; lra. Qed.

Lemma ordered_tail i f : ordered (i :: f) -> ordered f.
Proof. intros [H1 H2]. inversion H1; inversion H2; subst. split; auto. Qed.

Lemma insert_end x f : Forall (fun j => rb j <= ra x /\ ra x < rb x /\ ra j < rb j) f -> r_insert x f = f ++ [x].
Proof.
  induction 1 as [|j f (H1 & H2 & H3) _ IH]; [reflexivity|]. cbn [r_insert app]. unfold r_ltb.
  destruct (Rle_dec (rb x) (ra j)); [lra|]. destruct (Rle_dec (rb j) (ra x)); [|lra]. f_equal. exact IH.
Qed.

Lemma sorted_split (f rest : rstep) i : StronglySorted (fun i j => rb i <= ra j) (f ++ i :: rest) -> forall k, In k f -> rb k <= ra i.
Proof.
  induction f as [|j f IH]; intros H k; [intros []|]. cbn [app] in H. inversion H as [|? ? H1 H2]; subst. intros [<-|Hk]; [|auto].
  rewrite Forall_forall in H2. apply H2. apply in_app_iff. simpl. auto.
Qed.

Lemma fold_values h : forall rest f, ordered (f ++ rest) ->
  fold_left (fun g i => r_insert (RInd (ra i) (rb i) (h (ry i))) g) rest (with_values h f) = with_values h (f ++ rest).
Proof.
  induction rest as [|i rest IH]; intros f Hp; [rewrite app_nil_r; reflexivity|]. cbn [fold_left]. rewrite insert_end.
  - replace (with_values h f ++ [RInd (ra i) (rb i) (h (ry i))]) with (with_values h (f ++ [i])) by (unfold with_values; rewrite map_app; reflexivity).
    rewrite IH by (rewrite <- app_assoc; exact Hp). rewrite <- app_assoc. reflexivity.
  - apply Forall_forall. intros j Hj. unfold with_values in Hj. apply in_map_iff in Hj as (k & <- & Hk). cbn [ra rb].
    destruct Hp as [H1 H3]. rewrite Forall_forall in H3. split; [exact (sorted_split _ _ _ H1 k Hk)|].
    split; apply H3, in_app_iff; simpl; auto.
Qed.

Lemma foldM_values h : forall rest f, ordered (f ++ rest) ->
  foldM (fun g i => r_add (ra i) (rb i) (h (ry i)) g) rest (with_values h f) = Ok (with_values h (f ++ rest)).
Proof.
  intros rest f Hp. rewrite <- (fold_values h rest f Hp).
  assert (Hr : Forall (fun i => ra i < rb i) rest) by (destruct Hp as [_ H]; apply Forall_app in H; tauto).
  clear Hp. generalize (with_values h f). induction Hr as [|i rest Hi _ IH]; intro g; [reflexivity|]. cbn [foldM fold_left]. unfold r_add at 1, rindicator_of.
  destruct (Rlt_dec (rb i) (ra i)); [lra|]. cbn [bind]. apply IH.
Qed.

Lemma ordered_values h f : ordered f -> ordered (with_values h f).
Proof.
  intros [H1 H2]. unfold with_values. split.
  - clear H2. induction H1 as [|i f _ IH Hf]; cbn [map]; constructor; auto. rewrite Forall_map. cbn [ra rb]. exact Hf.
  - rewrite Forall_map. cbn [ra rb]. exact H2.
Qed.

Lemma values_values h k f : with_values h (with_values k f) = with_values (fun y => h (k y)) f.
Proof. unfold with_values. rewrite map_map. reflexivity. Qed.

Lemma values_ext h k f : (forall i, In i f -> h (ry i) = k (ry i)) -> with_values h f = with_values k f.
Proof. intro H. apply map_ext_in. intros i Hi. rewrite (H i Hi). reflexivity. Qed.

Lemma has_value_values h f x y : ordered f -> h 0 = 0 -> has_value f x y -> has_value (with_values h f) x (h y).
Proof.
  intros Hf H0 [(i & Hi & Hx & <- & Hu)|[Hn ->]].
  - left. exists (RInd (ra i) (rb i) (h (ry i))). split; [apply (in_map (fun i => RInd (ra i) (rb i) (h (ry i)))); exact Hi|]. split; [exact Hx|]. split; [reflexivity|].
    intros j Hj Hxj. apply in_map_iff in Hj as (k & <- & Hk). rewrite (Hu k Hk Hxj). reflexivity.
  - right. split; [|exact H0]. intros j Hj Hxj. apply in_map_iff in Hj as (k & <- & Hk). exact (Hn k Hk Hxj).
Qed.

(** evaluation where at most one interval contains the argument *)
Lemma eval_value f x y : ordered f -> has_value f x y -> r_eval f x = y.
Proof.
  intros Hf [(i & Hi & Hx & <- & Hu)|[Hn ->]]; unfold r_eval.
  - assert (E : r_take (r_contains x) (r_drop (r_contains x) f) = [i]).
    { induction f as [|j f IH]; [destruct Hi|]. cbn [r_drop]. destruct (r_contains x j) eqn:Ej.
      - apply contains_iff in Ej. assert (j = i) as -> by (apply Hu; simpl; auto). cbn [r_take]. rewrite (proj2 (contains_iff x i) Hx). f_equal.
        destruct f as [|k f]; [reflexivity|]. cbn [r_take]. destruct (r_contains x k) eqn:Ek; [|reflexivity]. exfalso. apply contains_iff in Ek.
        assert (k = i) as -> by (apply Hu; simpl; auto). destruct Hf as [H1 H2]. apply Forall_inv in H2. apply StronglySorted_inv in H1 as [_ H1]. apply Forall_inv in H1. cbv beta in H1, H2. lra.
      - apply IH.
        + exact (ordered_tail _ _ Hf).
        + destruct Hi as [->|Hi]; [|exact Hi]. rewrite (proj2 (contains_iff x i) Hx) in Ej. discriminate.
        + intros k Hk. apply Hu. simpl. auto. }
    rewrite E. cbn [fold_left]. unfold r_eval_step, r_ind_eval. rewrite (proj2 (contains_iff x i) Hx).
    destruct (Rlt_dec 0 (Rabs (ry i))) as [|N]; [reflexivity|]. destruct (Req_dec (ry i) 0) as [->|Hz]; [reflexivity|]. apply Rabs_pos_lt in Hz. contradiction.
  - assert (E : r_drop (r_contains x) f = []).
    { clear Hf. induction f as [|j f IH]; [reflexivity|]. cbn [r_drop]. destruct (r_contains x j) eqn:Ej.
      - exfalso. apply contains_iff in Ej. apply (Hn j); simpl; auto.
      - apply IH. intros k Hk. apply Hn. simpl. auto. }
    rewrite E. reflexivity.
Qed.

Lemma pow_power other y p : 0 <= y -> 0 < p -> cpp_pow other y p = power y p.
Proof.
  intros H0 Hp. unfold cpp_pow, power. destruct (Req_EM_T y 0) as [->|Hy].
  - destruct (Rlt_dec 0 0); [lra|]. destruct (Rlt_dec 0 p); [reflexivity|lra].
  - destruct (Rlt_dec 0 y); [reflexivity|lra].
Qed.

Lemma power_nonneg y p : 0 <= power y p.
Proof. unfold power. destruct (Req_EM_T y 0); [lra|]. left. apply exp_pos. Qed.

Lemma abs_values f : ordered f -> r_abs f = with_values Rabs f.
Proof. intro H. exact (fold_values Rabs f [] H). Qed.
Lemma pow_values other p f : ordered f -> 0 < p -> Forall (fun i => 0 <= ry i) f -> r_pow other p f = with_values (fun y => power y p) f.
Proof.
  intros H Hp Hn. etransitivity; [exact (fold_values (fun y => cpp_pow other y p) f [] H)|]. apply values_ext. intros i Hi.
  apply pow_power; [|exact Hp]. rewrite Forall_forall in Hn. auto.
Qed.

Lemma integral_area f : forall v, fold_left (fun v i => v + r_integral i) f v = v + area (fun y => y) f.
Proof. induction f as [|i f IH]; intro v; cbn [fold_left area fold_right]; [lra|]. rewrite IH. unfold area, r_integral. lra. Qed.

Lemma area_values h k f : area h (with_values k f) = area (fun y => h (k y)) f.
Proof. unfold area, with_values. induction f as [|i f IH]; [reflexivity|]. cbn [map fold_right ra rb ry]. rewrite IH. reflexivity. Qed.

Lemma abs_pow other p f : ordered f -> 0 < p -> r_pow other p (r_abs f) = with_values (fun y => power (Rabs y) p) f.
Proof.
  intros Hf Hp. rewrite abs_values by exact Hf. rewrite pow_values; [apply values_values|apply ordered_values; exact Hf|exact Hp|].
  unfold with_values. rewrite Forall_map. apply Forall_forall. intros i _. apply Rabs_pos.
Qed.

(** An interval is added at its place if it does not overlap with the others, else the function is unchanged. *)
Lemma insert_spec x : ra x < rb x -> forall f, ordered f ->
  (Forall (fun j => rb j <= ra x \/ rb x <= ra j) f /\ ordered (r_insert x f) /\ Permutation (r_insert x f) (x :: f)) \/
  (Exists (fun j => ra j < rb x /\ ra x < rb j) f /\ r_insert x f = f).
Proof.
  intros Hx f. induction f as [|y t IH]; intros Hf.
  - left. refine (conj (Forall_nil _) (conj _ (Permutation_refl _))). split; repeat constructor. exact Hx.
  - pose proof Hf as [Hs Hp]. pose proof (Forall_inv Hp) as Hy. cbn beta in Hy. pose proof (StronglySorted_inv Hs) as [Hs' Hyt]. cbn [r_insert]. unfold r_ltb. destruct (Rle_dec (rb x) (ra y)) as [H1|H1].
    + left. refine (conj _ (conj _ (Permutation_refl _))).
      * constructor; [right; exact H1|]. apply Forall_forall. intros j Hj. right. rewrite Forall_forall in Hyt. specialize (Hyt j Hj). lra.
      * split; [|constructor; assumption]. constructor; [exact Hs|]. constructor; [exact H1|]. apply Forall_forall. intros j Hj. rewrite Forall_forall in Hyt. specialize (Hyt j Hj). lra.
    + destruct (Rle_dec (rb y) (ra x)) as [H2|H2].
      * destruct (IH (ordered_tail _ _ Hf)) as [(A & (B2 & B1) & C)|[A B]].
        -- left. refine (conj _ (conj _ _)); [constructor; [left; exact H2|exact A]| |].
           ++ split; [|constructor; assumption]. constructor; [exact B2|]. apply Forall_forall. intros j Hj. apply (Permutation_in _ C) in Hj. destruct Hj as [<-|Hj]; [exact H2|]. rewrite Forall_forall in Hyt. exact (Hyt j Hj).
           ++ eapply Permutation_trans; [apply perm_skip, C|apply perm_swap].
        -- right. split; [apply Exists_cons_tl; exact A|rewrite B; reflexivity].
      * right. split; [|reflexivity]. apply Exists_cons_hd. lra.
Qed.
Theorem C141_add : forall a b y f, a < b -> ordered f -> exists g, r_add a b y f = Ok g /\ ordered g /\
  ((forall j, In j f -> rb j <= a \/ b <= ra j) -> Permutation g (RInd a b y :: f)) /\
  ((exists j, In j f /\ ra j < b /\ a < rb j) -> g = f).
Proof.
  intros a b y f Hab Hf. unfold r_add, rindicator_of. destruct (Rlt_dec b a) as [E|_]; [exfalso; lra|].
  eexists. split; [reflexivity|]. destruct (insert_spec (RInd a b y) Hab f Hf) as [(A & B & C)|[A B]]; cbn [ra rb] in *.
  - refine (conj B (conj (fun _ => C) _)). intros (j & Hj & H1 & H2). rewrite Forall_forall in A. destruct (A j Hj); exfalso; lra.
  - rewrite B. refine (conj Hf (conj _ (fun _ => eq_refl))). intro H. exfalso. apply Exists_exists in A. destruct A as (j & Hj & H1 & H2). destruct (H j Hj); lra.
Qed.
(** [abs] and [pow] change the values only, pointwise wherever at most one interval contains the argument. *)
Theorem C141_pointwise : forall other f p, ordered f -> 0 < p ->
  ordered (r_pow other p (r_abs f)) /\
  map (fun i => (ra i, rb i)) (r_pow other p (r_abs f)) = map (fun i => (ra i, rb i)) f /\
  (forall x y, has_value f x y -> r_eval (r_abs f) x = Rabs y /\ r_eval (r_pow other p (r_abs f)) x = power (Rabs y) p) /\
  (Forall (fun i => 0 <= ry i) f -> forall x y, has_value f x y -> r_eval (r_pow other p f) x = power y p).
Proof.
  intros other f p Hf Hp. assert (P0 : power (Rabs 0) p = 0) by (rewrite Rabs_R0; unfold power; destruct (Req_EM_T 0 0); [reflexivity|congruence]).
  rewrite abs_pow by auto. split; [apply ordered_values; exact Hf|]. split; [unfold with_values; rewrite map_map; reflexivity|]. split.
  - intros x y Hv. split.
    + rewrite abs_values by exact Hf. apply eval_value; [apply ordered_values; exact Hf|]. apply has_value_values; [exact Hf|apply Rabs_R0|exact Hv].
    + apply eval_value; [apply ordered_values; exact Hf|]. apply (has_value_values (fun y => power (Rabs y) p)); auto.
  - intros Hn x y Hv. rewrite pow_values by auto. apply eval_value; [apply ordered_values; exact Hf|].
    apply (has_value_values (fun y => power y p)); auto. rewrite Rabs_R0 in P0. exact P0.
Qed.

(** [f.abs().pow( p ).integral()] is the integral of the power of the absolute value; it is never negative
    and zero for the zero function only. *)
Theorem C141_distance : forall other f p, ordered f -> 0 < p ->
  r_integral_all (r_pow other p (r_abs f)) = area (fun y => power (Rabs y) p) f /\
  r_integral_all (r_abs f) = area Rabs f /\
  0 <= r_integral_all (r_pow other p (r_abs f)) /\
  (r_integral_all (r_pow other p (r_abs f)) = 0 <-> forall i, In i f -> ry i = 0).
Proof.
  intros other f p Hf Hp.
  assert (E : r_integral_all (r_pow other p (r_abs f)) = area (fun y => power (Rabs y) p) f).
  { rewrite abs_pow by auto. unfold r_integral_all. rewrite integral_area, area_values. cbv beta. lra. }
  assert (N : forall g : rstep, Forall (fun i => ra i < rb i) g -> 0 <= area (fun y => power (Rabs y) p) g).
  { induction 1 as [|i g Hi _ IH]; [apply Rle_refl|]. cbn [area fold_right]. fold (area (fun y => power (Rabs y) p) g).
    assert (0 <= power (Rabs (ry i)) p * (rb i - ra i)) by (apply Rmult_le_pos; [apply power_nonneg|lra]). lra. }
  split; [exact E|]. split; [rewrite abs_values by exact Hf; unfold r_integral_all; rewrite integral_area, area_values; apply Rplus_0_l|].
  rewrite E. split; [apply N, Hf|]. destruct Hf as [_ Hf]. clear E. induction Hf as [|i g Hi Hg IH].
  - split; [intros _ i []|reflexivity].
  - cbn [area fold_right]. fold (area (fun y => power (Rabs y) p) g). pose proof (N g Hg) as Ng.
    assert (Ni : 0 <= power (Rabs (ry i)) p * (rb i - ra i)) by (apply Rmult_le_pos; [apply power_nonneg|lra]).
    assert (Z : power (Rabs (ry i)) p * (rb i - ra i) = 0 <-> ry i = 0).
    { unfold power. destruct (Req_EM_T (Rabs (ry i)) 0) as [Hz|Hz].
      - split; [intros _|intros _; lra]. destruct (Req_dec (ry i) 0) as [|X]; [assumption|]. apply Rabs_no_R0 in X. contradiction.
      - split; intro X.
        + apply Rmult_integral in X as [X|X]; [|lra]. exfalso. pose proof (exp_pos (p * ln (Rabs (ry i)))) as Y. unfold Rpower in X. lra.
        + rewrite X, Rabs_R0 in Hz. contradiction. }
    split.
    + intros H j [<-|Hj]; [apply Z; lra|]. apply IH; [lra|exact Hj].
    + intro H. rewrite (proj2 Z), (proj2 IH); [lra|intros j Hj; apply H; simpl; auto|apply H; simpl; auto].
Qed.

(** For the exponent 1 [integral_p] is the integral of the absolute value. *)
Theorem C141_first_norm : forall other f, ordered f -> integral_p other 1 f = area Rabs f.
Proof.
  intros other f Hf. unfold integral_p. destruct f as [|k f']; [reflexivity|]. set (f := k :: f') in *.
  assert (P1 : forall y, 0 <= y -> cpp_pow other y 1 = y).
  { intros y Hy. rewrite pow_power by lra. unfold power. destruct (Req_EM_T y 0); [auto|]. apply Rpower_1. lra. }
  replace (1 / 1) with 1 by lra.
  assert (G : forall (g : rstep) v, Forall (fun i => ra i < rb i) g -> fold_left (fun v i => v + r_integral_p other 1 i) g v = v + area Rabs g).
  { induction g as [|i g IH]; intros v Hg; [unfold area; simpl; lra|]. inversion Hg; subst. cbn [fold_left area fold_right]. fold (area Rabs g). rewrite IH by assumption.
    unfold r_integral_p. rewrite P1 by apply Rabs_pos. unfold r_integral. rewrite Rabs_mult, (Rabs_pos_eq (rb i - ra i)) by lra. lra. }
  rewrite G by apply Hf. rewrite P1; [lra|]. rewrite Rplus_0_l. destruct Hf as [_ Hf]. clearbody f. induction Hf as [|i g Hi _ IH]; [apply Rle_refl|].
  cbn [area fold_right]. fold (area Rabs g). assert (0 <= Rabs (ry i) * (rb i - ra i)) by (apply Rmult_le_pos; [apply Rabs_pos|lra]). lra.
Qed.

(** For every exponent it is the p-norm of the vector of areas of the steps, which a spec in terms of the function cannot be. *)
Theorem C141_integral_p : forall other f p, f <> [] -> 0 < p ->
  integral_p other p f = power (fold_right (fun i acc => power (Rabs (ry i * (rb i - ra i))) p + acc) 0 f) (1 / p).
Proof.
  intros other f p Hn Hp. unfold integral_p. destruct f as [|k f']; [easy|]. set (f := k :: f').
  assert (G : forall (g : rstep) v, fold_left (fun v i => v + r_integral_p other p i) g v = v + fold_right (fun i acc => power (Rabs (ry i * (rb i - ra i))) p + acc) 0 g).
  { induction g as [|i g IH]; intro v; [simpl; lra|]. cbn [fold_left fold_right]. rewrite IH. unfold r_integral_p. rewrite pow_power by (auto; apply Rabs_pos). unfold r_integral. lra. }
  rewrite G, Rplus_0_l. apply pow_power.
  - clear G. generalize f. clear. induction f as [|i g IH]; [apply Rle_refl|]. cbn [fold_right]. pose proof (power_nonneg (Rabs (ry i * (rb i - ra i))) p). lra.
  - unfold Rdiv. rewrite Rmult_1_l. apply Rinv_0_lt_compat. exact Hp.
Qed.

Lemma power_2 y : 0 <= y -> power y 2 = y * y.
Proof.
  intro H. unfold power. destruct (Req_EM_T y 0) as [->|N]; [lra|]. replace 2 with (INR 2) by (simpl; lra). rewrite Rpower_pow by lra. simpl. lra.
Qed.
Lemma power_half y : 0 < y -> power y (1 / 2) = sqrt y.
Proof. intro H. unfold power. destruct (Req_EM_T y 0); [lra|]. replace (1 / 2) with (/ 2) by lra. apply Rpower_sqrt. exact H. Qed.

(** FINDING: [integral_p] is not the norm of the function: it is 2 for the function that is 1 on an interval of
    length 2 (the norm is the root of 2), and it changes if the interval is written as two. *)
Theorem C141_norm_refuted : exists f g, ordered f /\ ordered g /\
  (forall x y, has_value g x y -> r_eval f x = r_eval g x) /\
  (forall other, integral_p other 2 f = 2) /\ area (fun y => power (Rabs y) 2) f = 2 /\
  (forall other, integral_p other 2 g = sqrt 2).
Proof.
  exists [RInd 0 2 1], [RInd 0 1 1; RInd 1 2 1].
  assert (O1 : ordered [RInd 0 2 1]) by (split; repeat constructor; cbn [ra rb]; lra).
  assert (O2 : ordered [RInd 0 1 1; RInd 1 2 1]) by (split; repeat constructor; cbn [ra rb]; lra).
  split; [exact O1|]. split; [exact O2|]. split; [|split; [|split]].
  - intros x y Hv. rewrite (eval_value _ x y O2 Hv). apply eval_value; [exact O1|]. destruct Hv as [(i & Hi & Hx & <- & Hu)|[Hn ->]].
    + left. exists (RInd 0 2 1). split; [simpl; auto|]. unfold inside in *. destruct Hi as [<-|[<-|[]]]; cbn [ra rb ry] in *;
        (split; [lra|]; split; [reflexivity|]; intros j [<-|[]] _; reflexivity).
    + right. split; [|reflexivity]. intros j [<-|[]] Hx. unfold inside in *. cbn [ra rb] in *.
      destruct (Rle_dec x 1); [apply (Hn (RInd 0 1 1)); [simpl; auto|cbn [ra rb]; lra]|apply (Hn (RInd 1 2 1)); [simpl; auto|cbn [ra rb]; lra]].
  - intro other. rewrite C141_integral_p by (try discriminate; lra). cbn [fold_right ra rb ry]. replace (1 * (2 - 0)) with 2 by lra. rewrite Rabs_pos_eq, power_2 by lra.
    rewrite power_half by lra. replace (2 * 2 + 0) with (2 * 2) by lra. apply sqrt_square. lra.
  - unfold area. cbn [fold_right ra rb ry]. rewrite Rabs_pos_eq, power_2 by lra. lra.
  - intro other. rewrite C141_integral_p by (try discriminate; lra). cbn [fold_right ra rb ry]. replace (1 * (1 - 0)) with 1 by lra. replace (1 * (2 - 1)) with 1 by lra.
    rewrite Rabs_pos_eq, power_2 by lra. rewrite power_half by lra. f_equal. lra.
Qed.

(** ** Normalization *)

Lemma rset_in x s z : In z (rset_insert x s) <-> z = x \/ In z s.
Proof.
  induction s as [|y s IH]; cbn [rset_insert]; [simpl; intuition congruence|]. destruct (Rlt_dec x y); [simpl; intuition congruence|].
  destruct (Rlt_dec y x); [simpl; rewrite IH; intuition congruence|]. assert (x = y) by lra. simpl. subst. intuition congruence.
Qed.
Lemma rset_sorted x s : StronglySorted Rlt s -> StronglySorted Rlt (rset_insert x s).
Proof.
  induction 1 as [|y s Hs IH Hy]; cbn [rset_insert]; [repeat constructor|]. destruct (Rlt_dec x y).
  - constructor; [constructor; auto|]. constructor; auto. eapply Forall_impl; [|exact Hy]. intros z Hz. lra.
  - destruct (Rlt_dec y x); [|constructor; auto]. constructor; auto. apply Forall_forall. intros z Hz. apply rset_in in Hz as [->|Hz]; [lra|]. rewrite Forall_forall in Hy. auto.
Qed.
Lemma image_spec f : let s := fold_left (fun s i => rset_insert (ry i) s) f [] in
  StronglySorted Rlt s /\ forall z, In z s <-> exists i, In i f /\ ry i = z.
Proof.
  assert (G : forall (f : rstep) s0, StronglySorted Rlt s0 -> let s := fold_left (fun s i => rset_insert (ry i) s) f s0 in
    StronglySorted Rlt s /\ forall z, In z s <-> In z s0 \/ exists i, In i f /\ ry i = z).
  { clear f. induction f as [|i f IH]; intros s0 H0; cbn [fold_left].
    - split; [exact H0|]. intro z. split; [auto|]. intros [H|(i & [] & _)]. exact H.
    - destruct (IH (rset_insert (ry i) s0) (rset_sorted _ _ H0)) as [H1 H2]. split; [exact H1|]. intro z. rewrite H2, rset_in. split.
      + intros [[->|H]|(j & Hj & E)]; [right; exists i; simpl; auto|auto|right; exists j; simpl; auto].
      + intros [H|(j & [<-|Hj] & E)]; [auto|auto|right; exists j; auto]. }
  destruct (G f [] (SSorted_nil _)) as [H1 H2]. split; [exact H1|]. intro z. rewrite H2. simpl. intuition.
Qed.
Lemma last_max s d : StronglySorted Rlt s -> s <> [] -> In (last s d) s /\ forall z, In z s -> z <= last s d.
Proof.
  induction 1 as [|y s Hs IH Hy]; intro Hn; [easy|]. destruct s as [|y' s]; [simpl; split; [auto|]; intros z [<-|[]]; lra|].
  change (last (y :: y' :: s) d) with (last (y' :: s) d). destruct IH as [H1 H2]; [discriminate|]. split; [simpl in *; auto|].
  intros z [<-|Hz]; [|auto]. rewrite Forall_forall in Hy. specialize (Hy _ H1). lra.
Qed.

(** what the code yields for functions with at least two values *)
Lemma normalize_values f a b max : ordered f -> (exists i j, In i f /\ In j f /\ ry i <> ry j) ->
  (exists i, In i f /\ ry i = max) -> (forall i, In i f -> ry i <= max) ->
  r_normalize f a b = if Req_EM_T max 0 then Throw RuntimeError else Ok (with_values (fun y => a + (y / max) * (b - a)) f).
Proof.
  intros Hf (i & j & Hi & Hj & Hij) Hmax Hle. unfold r_normalize. pose proof (image_spec f) as I. cbv zeta in I. destruct I as [I1 I2].
  set (s := fold_left (fun s i => rset_insert (ry i) s) f []) in *.
  assert (Si : In (ry i) s) by (apply I2; eauto). assert (Sj : In (ry j) s) by (apply I2; eauto).
  assert (El : last s 0 = max).
  { destruct (last_max s 0 I1) as [L1 L2]; [intro E; rewrite E in Si; destruct Si|]. apply I2 in L1 as (k & Hk & Ek). pose proof (Hle k Hk) as H1.
    destruct Hmax as (m & Hm & Em). assert (H2 : max <= last s 0) by (apply L2, I2; eauto). lra. }
  assert (Hs : forall (A : Type) (x y z : A), match s with [] => x | [_] => y | _ => z end = z).
  { intros A x y z. destruct s as [|u [|v s']]; [destruct Si| |reflexivity]. exfalso. destruct Si as [E|[]], Sj as [E'|[]]. congruence. }
  rewrite Hs, El. unfold r_minus_scalar, r_plus_scalar.
  assert (E1 : foldM (fun g i => r_add (ra i) (rb i) (- 0 + ry i) g) f [] = Ok f).
  { etransitivity; [exact (foldM_values (fun y => - 0 + y) f [] Hf)|]. f_equal. cbn [app].
    etransitivity; [apply (values_ext _ (fun y => y)); intros; lra|]. unfold with_values. etransitivity; [|apply map_id]. apply map_ext. intros []. reflexivity. }
  rewrite E1. cbn [bind]. unfold r_divide. rewrite Rminus_0_r. destruct (Req_EM_T max 0) as [|N]; [reflexivity|]. cbn [bind].
  assert (E2 : forall l g, ordered g -> r_scale l g = with_values (fun y => y * l) g) by (intros l g Hg; exact (fold_values (fun y => y * l) g [] Hg)).
  rewrite (E2 _ f Hf), E2 by (apply ordered_values; exact Hf). rewrite values_values.
  etransitivity; [apply (foldM_values (fun y => a + y) _ [])|]; [cbn [app]; apply ordered_values; exact Hf|]. cbn [app]. rewrite values_values. f_equal.
  apply values_ext. intros k _. unfold Rdiv. lra.
Qed.

(** A function with non-negative values, at least two of which differ, is scaled such that 0 is mapped to [a], its
    maximum to [b], and all values are between them in the same order; intervals are kept. *)
Theorem C141_normalize : forall f a b, ordered f -> a <= b ->
  Forall (fun i => 0 <= ry i) f -> (exists i j, In i f /\ In j f /\ ry i <> ry j) ->
  exists g, r_normalize f a b = Ok g /\ ordered g /\ length g = length f /\
    (forall k i, nth_error f k = Some i -> exists i', nth_error g k = Some i' /\ ra i' = ra i /\ rb i' = rb i /\
       a <= ry i' <= b /\
       (ry i = 0 -> ry i' = a) /\
       ((forall j, In j f -> ry j <= ry i) -> ry i' = b) /\
       (forall m j j', nth_error f m = Some j -> nth_error g m = Some j' -> ry i <= ry j -> ry i' <= ry j')).
Proof.
  intros f a b Hf Hab Hn H2. rewrite Forall_forall in Hn.
  assert (M : exists max, (exists i, In i f /\ ry i = max) /\ forall i, In i f -> ry i <= max).
  { destruct H2 as (i0 & _ & Hi0 & _). pose proof (image_spec f) as I. cbv zeta in I. destruct I as [I1 I2]. set (s := fold_left (fun s i => rset_insert (ry i) s) f []) in *.
    destruct (last_max s 0 I1) as [L1 L2]; [intro E; assert (X : In (ry i0) s) by (apply I2; eauto); rewrite E in X; destruct X|].
    exists (last s 0). split; [apply I2; exact L1|]. intros i Hi. apply L2, I2. eauto. }
  destruct M as (max & M1 & M2). rewrite (normalize_values f a b max Hf H2 M1 M2).
  assert (Mpos : 0 < max).
  { destruct H2 as (i & j & Hi & Hj & D). pose proof (Hn i Hi). pose proof (Hn j Hj). pose proof (M2 i Hi). pose proof (M2 j Hj). lra. }
  destruct (Req_EM_T max 0); [lra|]. eexists. split; [reflexivity|]. split; [apply ordered_values; exact Hf|]. split; [unfold with_values; apply map_length|].
  assert (Mono : forall y z, y <= z -> a + y / max * (b - a) <= a + z / max * (b - a)).
  { intros y z H. apply Rplus_le_compat_l, Rmult_le_compat_r; [lra|]. unfold Rdiv. apply Rmult_le_compat_r; [left; apply Rinv_0_lt_compat; exact Mpos|exact H]. }
  assert (V0 : a + 0 / max * (b - a) = a) by (unfold Rdiv; lra).
  assert (V1 : a + max / max * (b - a) = b) by (unfold Rdiv; rewrite Rinv_r by lra; lra).
  intros k i Hk. pose proof (nth_error_In _ _ Hk) as Hi. eexists. split; [unfold with_values; rewrite nth_error_map, Hk; reflexivity|]. cbn [ra rb ry].
  split; [reflexivity|]. split; [reflexivity|]. split; [|split; [|split]].
  - pose proof (Mono 0 (ry i) (Hn i Hi)). pose proof (Mono (ry i) max (M2 i Hi)). lra.
  - intros ->. exact V0.
  - intro Hm. destruct M1 as (m & Hm1 & Em). pose proof (Hm m Hm1) as Hge. pose proof (M2 i Hi) as Hle. assert (ry i = max) as -> by lra. exact V1.
  - intros m j j' Hj Hj' Hle. unfold with_values in Hj'. rewrite nth_error_map, Hj in Hj'. injection Hj' as <-. cbn [ry]. apply Mono. exact Hle.
Qed.

(** FINDING: a function with one value is returned as it is, whatever [a] and [b] are. *)
Theorem C141_single_refuted : forall f a b y, Forall (fun i => ry i = y) f -> r_normalize f a b = Ok f.
Proof.
  intros f a b y Hf. unfold r_normalize. pose proof (image_spec f) as I. cbv zeta in I. destruct I as [I1 I2]. set (s := fold_left (fun s i => rset_insert (ry i) s) f []) in *.
  destruct s as [|u [|v s]]; [reflexivity|reflexivity|]. exfalso. rewrite Forall_forall in Hf. assert (U : u = y) by (destruct (proj1 (I2 u) (or_introl eq_refl)) as (i & Hi & <-); auto).
  assert (V : v = y) by (destruct (proj1 (I2 v) (or_intror (or_introl eq_refl))) as (i & Hi & <-); auto). inversion I1 as [|? ? _ H]; inversion H; subst. lra.
Qed.

(** FINDING: the code takes 0 for the minimum; a function with negative values leaves the range, the order of its
    values is reversed if all are negative, and the function throws if the largest is 0. *)
Theorem C141_negative_refuted :
  (exists f g, ordered f /\ r_normalize f 0 1 = Ok g /\ exists i, In i g /\ ry i < 0) /\
  (exists f g, ordered f /\ r_normalize f 0 1 = Ok g /\ map ry f = [-1; -2] /\ map ry g = [1; 2]) /\
  (forall f a b, ordered f -> (forall i, In i f -> ry i <= 0) -> (exists i, In i f /\ ry i = 0) -> (exists i, In i f /\ ry i <> 0) ->
     r_normalize f a b = Throw RuntimeError).
Proof.
  assert (O : forall y z, ordered [RInd 0 1 y; RInd 1 2 z]) by (intros y z; split; repeat constructor; cbn [ra rb]; lra). split; [|split].
  - exists [RInd 0 1 1; RInd 1 2 (-1)]. eexists. split; [apply O|]. split.
    + rewrite (normalize_values _ 0 1 1 (O _ _)).
      * destruct (Req_EM_T 1 0); [lra|reflexivity].
      * exists (RInd 0 1 1), (RInd 1 2 (-1)). simpl. split; [auto|]. split; [auto|]. lra.
      * exists (RInd 0 1 1). simpl. auto.
      * intros i [<-|[<-|[]]]; cbn [ry]; lra.
    + exists (RInd 1 2 (0 + -1 / 1 * (1 - 0))). split; [simpl; auto|]. cbn [ry]. lra.
  - exists [RInd 0 1 (-1); RInd 1 2 (-2)]. eexists. split; [apply O|]. split.
    + rewrite (normalize_values _ 0 1 (-1) (O _ _)).
      * destruct (Req_EM_T (-1) 0); [lra|reflexivity].
      * exists (RInd 0 1 (-1)), (RInd 1 2 (-2)). simpl. split; [auto|]. split; [auto|]. lra.
      * exists (RInd 0 1 (-1)). simpl. auto.
      * intros i [<-|[<-|[]]]; cbn [ry]; lra.
    + split; [reflexivity|]. cbn [with_values map ry]. f_equal; [lra|f_equal; lra].
  - intros f a b Hf Hle (i & Hi & Ei) (j & Hj & Ej). rewrite (normalize_values f a b 0 Hf); [destruct (Req_EM_T 0 0); [reflexivity|congruence]| |eauto|exact Hle].
    exists i, j. split; [exact Hi|]. split; [exact Hj|]. congruence.
Qed.

(** two steps, of heights 1 and 4, between -1 and 1 *)
Example C141_example :
  let f := [RInd 0 1 1; RInd 1 3 4] in
  ordered f /\ r_normalize f (-1) 1 = Ok [RInd 0 1 (-1 + 1 / 4 * (1 - -1)); RInd 1 3 (-1 + 4 / 4 * (1 - -1))] /\
  area (fun y => power (Rabs y) 2) f = 33.
Proof.
  intro f. assert (O : ordered f) by (split; repeat constructor; cbn [ra rb]; lra). split; [exact O|]. split.
  - rewrite (normalize_values f (-1) 1 4 O).
    + destruct (Req_EM_T 4 0); [lra|reflexivity].
    + exists (RInd 0 1 1), (RInd 1 3 4). simpl. split; [auto|]. split; [auto|]. lra.
    + exists (RInd 1 3 4). simpl. auto.
    + intros i [<-|[<-|[]]]; cbn [ry]; lra.
  - unfold area, f. cbn [fold_right ra rb ry]. rewrite !Rabs_pos_eq, !power_2 by lra. lra.
Qed.

Print Assumptions C141_pointwise.
Print Assumptions C141_distance.
Print Assumptions C141_first_norm.
Print Assumptions C141_integral_p.
Print Assumptions C141_norm_refuted.
Print Assumptions C141_normalize.
Print Assumptions C141_single_refuted.
Print Assumptions C141_negative_refuted.
