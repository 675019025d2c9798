(** * Property C143: signatures and perversities of triangulations. *)
From Coq Require Import List Arith Bool ZArith Lia Permutation Sorted Factorial.
From Verif Require Import Base BaseFacts Matrix SpecMatrix PairingFacts DualFacts RepFacts PropertiesMatrix
  SpecHomology HomologyFacts Simplex SpecComplex Complex ComplexFacts FiltrationFacts History SubcomplexFacts
  PropertiesComplex PropertiesHomology SpecDiagram Diagram DiagramFacts PropertiesDiagram FloydFacts EnumerateFacts
  Perversity PropertiesSmall PropertiesWitness PropertiesMLE Signatures.
Import ListNotations.
Local Open Scope nat_scope.

(** ** enumerating the perversities *)
Fixpoint dec (n i : nat) : list nat :=
  match n with O => [] | S m => dec m (i / (m + 2)) ++ [i mod (m + 2)] end.

Lemma dec_length n : forall i, length (dec n i) = n.
Proof. induction n as [|n IH]; intro i; cbn [dec length]; [reflexivity|]. rewrite app_length, IH. cbn [length]. lia. Qed.

Lemma dec_bound n : forall i k x, nth_error (dec n i) k = Some x -> x < k + 2.
Proof.
  induction n as [|n IH]; intros i k x H; cbn [dec] in H; [destruct k; discriminate|].
  destruct (Nat.lt_ge_cases k n) as [L|L].
  - rewrite nth_error_app1 in H by (rewrite dec_length; auto). apply (IH _ _ _ H).
  - rewrite nth_error_app2 in H by (rewrite dec_length; auto). rewrite dec_length in H.
    destruct (k - n) as [|j] eqn:E; [|destruct j; discriminate]. cbn in H. injection H as <-.
    pose proof (Nat.mod_upper_bound i (n + 2)). lia.
Qed.

Lemma dec_zero n : dec n 0 = repeat 0 n.
Proof.
  induction n as [|n IH]; [reflexivity|]. cbn [dec]. rewrite Nat.div_0_l, Nat.mod_0_l, IH by lia.
  change (repeat 0 (S n)) with (0 :: repeat 0 n). rewrite repeat_cons. reflexivity.
Qed.

Lemma step_small m i : i mod (m + 2) + 1 < m + 2 -> (i + 1) / (m + 2) = i / (m + 2) /\ (i + 1) mod (m + 2) = i mod (m + 2) + 1.
Proof.
  intro H. pose proof (Nat.div_mod i (m + 2) ltac:(lia)) as E.
  assert (E1 : i + 1 = (m + 2) * (i / (m + 2)) + (i mod (m + 2) + 1)) by lia.
  split; [symmetry; apply (Nat.div_unique _ _ _ _ H E1)|symmetry; apply (Nat.mod_unique _ _ _ _ H E1)].
Qed.
Lemma step_large m i : m + 2 <= i mod (m + 2) + 1 -> (i + 1) / (m + 2) = i / (m + 2) + 1 /\ (i + 1) mod (m + 2) = 0.
Proof.
  intro H. pose proof (Nat.div_mod i (m + 2) ltac:(lia)) as E. pose proof (Nat.mod_upper_bound i (m + 2) ltac:(lia)) as B.
  assert (E1 : i + 1 = (m + 2) * (i / (m + 2) + 1) + 0) by lia.
  assert (Z0 : 0 < m + 2) by lia.
  split; [symmetry; apply (Nat.div_unique _ _ _ _ Z0 E1)|symmetry; apply (Nat.mod_unique _ _ _ _ Z0 E1)].
Qed.

Lemma values_length d : length (possible_values d) = d + 2.
Proof. unfold possible_values. rewrite map_length, seq_length. reflexivity. Qed.

Lemma at_mid {A} (l : list A) x t : at_ (l ++ x :: t) (length l) = Ok x.
Proof. unfold at_. rewrite nth_error_app2, Nat.sub_diag by lia. reflexivity. Qed.
Lemma upd_mid {A} (l : list A) x y t : upd (l ++ x :: t) (length l) y = l ++ y :: t.
Proof. induction l as [|a l IH]; cbn [app length upd]; [reflexivity|]. rewrite IH. reflexivity. Qed.

Lemma propagate_dec d : forall i t, propagate d (dec d i ++ t) = Ok (dec d (i + 1) ++ t).
Proof.
  induction d as [|d IH]; intros i t; cbn [propagate dec]; [reflexivity|].
  rewrite <- !app_assoc. cbn [app]. pose proof (dec_length d (i / (d + 2))) as L.
  pose proof (at_mid (dec d (i / (d + 2))) (i mod (d + 2)) t) as A. rewrite L in A. rewrite A. cbn [bind].
  pose proof (fun y => upd_mid (dec d (i / (d + 2))) (i mod (d + 2)) y t) as U. rewrite L in U. rewrite U, values_length.
  destruct (Nat.ltb_spec (i mod (d + 2) + 1) (d + 2)) as [S1|S1].
  - destruct (step_small d i S1) as [-> ->]. reflexivity.
  - destruct (step_large d i S1) as [-> ->].
    pose proof (upd_mid (dec d (i / (d + 2))) (i mod (d + 2) + 1) 0 t) as U2. rewrite L in U2. rewrite U2, IH. reflexivity.
Qed.

Lemma next_dec d i : 0 < d -> next_indices d (dec d i) = Ok (dec d (i + 1)).
Proof.
  destruct d as [|d]; [lia|]. intros _. pose proof (propagate_dec (S d) i []) as H. rewrite !app_nil_r in H. rewrite <- H.
  cbn [next_indices propagate]. destruct (at_ (dec (S d) i) d) as [v| | |]; cbn [bind]; try reflexivity.
  rewrite Nat.ltb_antisym. destruct (length (possible_values d) <=? v + 1); reflexivity.
Qed.

Definition value_of (k : nat) : Z := (Z.of_nat k - 1)%Z.

Lemma current_dec d i : current_values (dec d i) d = Ok (map value_of (dec d i)).
Proof.
  unfold current_values.
  assert (G : forall k x, nth_error (dec d i) k = Some x -> nth_error (possible_values k) x = Some (value_of x)).
  { intros k x H. apply dec_bound in H. unfold possible_values. rewrite nth_error_map.
    rewrite (nth_error_nth' (seq 0 (k + 2)) 0) by (rewrite seq_length; auto). rewrite seq_nth by auto. reflexivity. }
  rewrite (foldM_ext_in (fun values k => let* index := at_ (dec d i) k in let* v := at_ (possible_values k) index in Ok (values ++ [v]))
    (fun acc k => let* y := (let* index := at_ (dec d i) k in at_ (possible_values k) index) in Ok (acc ++ [y]))).
  2:{ intros s k _. destruct (at_ (dec d i) k); reflexivity. }
  rewrite (foldM_collect _ (fun k => value_of (nth k (dec d i) 0))).
  - cbn [app]. f_equal. rewrite <- (map_map (fun k => nth k (dec d i) 0) value_of). f_equal.
    replace (seq 0 d) with (seq 0 (length (dec d i))) by (rewrite dec_length; reflexivity). clear. induction (dec d i) as [|x l IH]; [reflexivity|].
    cbn [length seq map nth]. rewrite <- seq_shift, map_map. f_equal. exact IH.
  - intros k Hk. apply in_seq in Hk. pose proof (nth_error_nth' (dec d i) 0 (n := k) ltac:(rewrite dec_length; lia)) as E.
    unfold at_ at 1. rewrite E. cbn [bind]. unfold at_. rewrite (G _ _ E). reflexivity.
Qed.

Fixpoint total (n : nat) : nat := match n with O => 1 | S m => total m * (m + 2) end.
Lemma total_fact n : total n = fact (n + 1).
Proof. induction n as [|n IH]; [reflexivity|]. cbn [total]. rewrite IH. replace (S n + 1) with (S (n + 1)) by lia. cbn [fact]. nia. Qed.
Lemma combinations_total n : num_combinations n = total n.
Proof.
  unfold num_combinations. induction n as [|n IH]; [reflexivity|]. rewrite seq_S, fold_left_app, IH. cbn [fold_left total Nat.add].
  rewrite values_length. reflexivity.
Qed.

Lemma dec_inj n : forall i j, i < total n -> j < total n -> dec n i = dec n j -> i = j.
Proof.
  induction n as [|n IH]; intros i j Hi Hj E; cbn [total dec] in *; [lia|].
  apply app_inj_tail in E. destruct E as [E1 E2].
  apply IH in E1; [|apply Nat.div_lt_upper_bound; lia|apply Nat.div_lt_upper_bound; lia].
  rewrite (Nat.div_mod i (n + 2)), (Nat.div_mod j (n + 2)) by lia. rewrite E1, E2. reflexivity.
Qed.

Lemma dec_surj n : forall l, length l = n -> (forall k x, nth_error l k = Some x -> x < k + 2) -> exists i, i < total n /\ dec n i = l.
Proof.
  induction n as [|n IH]; intros l L H.
  - destruct l; [|discriminate]. exists 0. split; [cbn; lia|reflexivity].
  - destruct (exists_last (l := l)) as (l' & x & ->); [intros ->; discriminate|].
    rewrite app_length in L. cbn [length] in L.
    destruct (IH l') as (i & Hi & E); [lia| |].
    + intros k y Hy. apply (H k y). rewrite nth_error_app1; [auto|]. apply nth_error_Some. congruence.
    + assert (Hx : x < n + 2). { pose proof (H n x) as Hn. rewrite nth_error_app2 in Hn by lia. replace (n - length l') with 0 in Hn by lia. apply Hn; reflexivity. }
      exists (i * (n + 2) + x). cbn [total dec]. split; [nia|].
      rewrite Nat.div_add_l, Nat.div_small, Nat.add_0_r by lia. rewrite E. f_equal. f_equal.
      rewrite Nat.add_comm, Nat.mod_add, Nat.mod_small by lia. reflexivity.
Qed.

Lemma nth_error_same {A} : forall l l' : list A, (forall k, nth_error l k = nth_error l' k) -> l = l'.
Proof.
  induction l as [|x l IH]; intros [|y l'] H; [reflexivity|specialize (H 0); discriminate|specialize (H 0); discriminate|].
  pose proof (H 0) as H0. injection H0 as ->. f_equal. apply IH. intro k. apply (H (S k)).
Qed.

(** ** C143: the enumeration of perversities yields exactly the sequences p_0, ...
    with -1 <= p_k <= k, each of them once *)
Theorem C143_perversities : forall n, 0 < n ->
  exists ps, getPerversities n = Ok ps /\ length ps = fact (n + 1) /\ NoDup ps /\
    forall p, In p ps <-> length p = n /\ forall k x, nth_error p k = Some x -> (-1 <= x <= Z.of_nat k)%Z.
Proof.
  intros n Hn.
  assert (Hval : forall i, perversity (map value_of (dec n i)) = map value_of (dec n i)).
  { intro i. destruct (C43_perversity (map value_of (dec n i))) as (L & H & _). apply nth_error_same. intro k.
    destruct (nth_error (map value_of (dec n i)) k) as [x|] eqn:E.
    - apply H; [auto|]. rewrite nth_error_map in E. destruct (nth_error (dec n i) k) as [y|] eqn:Ey; [|discriminate].
      cbn in E. injection E as <-. apply dec_bound in Ey. unfold value_of. lia.
    - apply nth_error_None. rewrite L. apply nth_error_None. exact E. }
  exists (map (fun i => map value_of (dec n i)) (seq 0 (total n))).
  assert (E : getPerversities n = Ok (map (fun i => map value_of (dec n i)) (seq 0 (total n)))).
  { unfold getPerversities. rewrite combinations_total, <- dec_zero.
    destruct (foldM_ind (perversity_step n) (fun i st => st = (dec n i, map (fun i => map value_of (dec n i)) (seq 0 i))) (seq 0 (total n)) (dec n 0, []))
      as (st & E & ->); [reflexivity| |].
    - intros i b a _ ->. unfold perversity_step. cbn [fst snd]. rewrite current_dec. cbn [bind]. rewrite next_dec by auto. cbn [bind].
      eexists. split; [reflexivity|]. rewrite Hval, seq_S, map_app, Nat.add_1_r. reflexivity.
    - rewrite E. cbn [bind snd]. rewrite seq_length. reflexivity. }
  refine (conj E (conj _ (conj _ _))).
  - rewrite map_length, seq_length. apply total_fact.
  - apply NoDup_map_inj_in; [|apply seq_NoDup]. intros i j Hi Hj Eq. apply in_seq in Hi, Hj.
    apply (dec_inj n); [lia|lia|].
    revert Eq. generalize (dec n i) (dec n j). clear. induction l as [|x l IH]; intros [|y l0] Eq; cbn in Eq; try discriminate; [reflexivity|].
    unfold value_of at 1 3 in Eq. injection Eq as E1 E2. f_equal; [lia|auto].
  - intro p. split.
    + intro H. apply in_map_iff in H. destruct H as (i & <- & _). rewrite map_length, dec_length. split; [reflexivity|].
      intros k x Hx. rewrite nth_error_map in Hx. destruct (nth_error (dec n i) k) as [y|] eqn:Ey; [|discriminate].
      cbn in Hx. injection Hx as <-. apply dec_bound in Ey. unfold value_of. lia.
    + intros (L & H). destruct (dec_surj n (map (fun z => Z.to_nat (z + 1)) p)) as (i & Hi & Ei); [rewrite map_length; auto| |].
      * intros k x Hx. rewrite nth_error_map in Hx. destruct (nth_error p k) as [z|] eqn:Ez; [|discriminate].
        cbn in Hx. injection Hx as <-. apply H in Ez. lia.
      * apply in_map_iff. exists i. split; [|apply in_seq; lia]. rewrite Ei, map_map.
        rewrite <- (map_id p) at 2. apply map_ext_in. intros z Hz. apply In_nth_error in Hz. destruct Hz as (k & Hk). apply H in Hk.
        unfold value_of. lia.
Qed.

Example C143_perversities_example :
  getPerversities 2 = Ok [[-1; -1]; [-1; 0]; [-1; 1]; [0; -1]; [0; 0]; [0; 1]]%Z.
Proof. reflexivity. Qed.

(** a complex without edges makes the tool fail *)
Theorem C143_dimension_zero_refuted : getPerversities 0 = Throw OutOfRange.
Proof. reflexivity. Qed.

(** ** signatures *)
Lemma signature_fold inf : forall ds b,
  (forall D, In D ds -> dgm_dim D < length b) -> NoDup (map dgm_dim ds) ->
  exists b', foldM (signature_step inf) ds b = Ok b' /\ length b' = length b /\
    (forall D, In D ds -> nth (dgm_dim D) b' 0 = d_betti inf D) /\
    (forall d, ~ In d (map dgm_dim ds) -> nth d b' 0 = nth d b 0).
Proof.
  induction ds as [|D ds IH]; intros b Hb Hnd.
  - exists b. cbn [foldM]. refine (conj eq_refl (conj eq_refl (conj _ _))); [intros D []|auto].
  - cbn [map] in Hnd. apply NoDup_cons_iff in Hnd. destruct Hnd as [Hni Hnd].
    pose proof (Hb D (or_introl eq_refl)) as HD.
    assert (ES : signature_step inf b D = Ok (upd b (dgm_dim D) (d_betti inf D))).
    { unfold signature_step, at_. rewrite (nth_error_nth' b 0 HD). reflexivity. }
    destruct (IH (upd b (dgm_dim D) (d_betti inf D))) as (b' & E & L & H1 & H2); [|exact Hnd|].
    + intros D' HD'. rewrite upd_length. apply Hb. simpl; auto.
    + exists b'. cbn [foldM]. rewrite ES. cbn [bind]. refine (conj E (conj _ (conj _ _))).
      * rewrite L. apply upd_length.
      * intros D' [<-|HD']; [|apply H1; auto]. rewrite H2 by auto. rewrite nth_upd, Nat.eqb_refl. apply Nat.ltb_lt in HD. rewrite HD. reflexivity.
      * intros d Hd. cbn [map In] in Hd. rewrite H2 by tauto. rewrite nth_upd.
        destruct (Nat.eqb_spec d (dgm_dim D)); [exfalso; apply Hd; auto|reflexivity].
Qed.

Theorem C143_signature : forall inf ds n, NoDup (map dgm_dim ds) ->
  (forall D, In D ds -> dgm_dim D <= n) ->
  exists b, makeSignature inf ds n = Ok b /\ length b = n + 1 /\
    (forall D, In D ds -> nth (dgm_dim D) b 0 = d_betti inf D) /\
    (forall d, ~ In d (map dgm_dim ds) -> nth d b 0 = 0).
Proof.
  intros inf ds n Hnd Hb. unfold makeSignature. destruct (signature_fold inf ds (repeat 0 (n + 1))) as (b & E & L & H1 & H2); auto.
  - intros D HD. rewrite repeat_length. apply Hb in HD. lia.
  - exists b. rewrite repeat_length in L. refine (conj E (conj L (conj H1 _))). intros d Hd. rewrite H2 by auto. apply nth_repeat.
Qed.

Theorem C143_signature_fails : forall inf ds n,
  (exists D, In D ds /\ n < dgm_dim D) -> makeSignature inf ds n = Throw OutOfRange.
Proof.
  intros inf ds n. unfold makeSignature. assert (L : length (repeat 0 (n + 1)) = n + 1) by apply repeat_length.
  revert L. generalize (repeat 0 (n + 1)). induction ds as [|D ds IH]; intros b L (D0 & HD & Hn); [destruct HD|].
  cbn [foldM]. unfold signature_step at 1, at_. destruct (nth_error b (dgm_dim D)) eqn:E; cbn [bind]; [|reflexivity].
  apply IH; [rewrite upd_length; auto|]. exists D0. split; [|auto]. destruct HD as [<-|HD]; [|auto].
  assert (dgm_dim D < length b) by (apply nth_error_Some; congruence). lia.
Qed.

(** ** the order of signatures *)
Theorem C143_order : forall a b, signature_ltb a b = true <->
  (exists c x y a' b', a = c ++ x :: a' /\ b = c ++ y :: b' /\ x < y) \/ (exists y b', b = a ++ y :: b').
Proof.
  induction a as [|x a IH]; intros [|y b]; cbn [signature_ltb].
  - split; [discriminate|]. intros [(c & x & y & a' & b' & _ & E & _)|(y & b' & E)]; [destruct c; discriminate|discriminate].
  - split; [|reflexivity]. intros _. right. exists y, b. reflexivity.
  - split; [discriminate|]. intros [(c & x0 & y & a' & b' & _ & E & _)|(y & b' & E)]; [destruct c; discriminate|discriminate].
  - destruct (Nat.ltb_spec x y) as [L|L].
    + split; [|reflexivity]. intros _. left. exists [], x, y, a, b. auto.
    + destruct (Nat.ltb_spec y x) as [L2|L2].
      * split; [discriminate|]. intros [(c & x0 & y0 & a' & b' & E1 & E2 & H)|(y0 & b' & E)].
        -- destruct c as [|z c]; cbn [app] in E1, E2; injection E1 as E1 _; injection E2 as E2 _; lia.
        -- injection E as E _. lia.
      * assert (x = y) by lia. subst y. rewrite IH. split.
        -- intros [(c & x0 & y0 & a' & b' & -> & -> & H)|(y0 & b' & ->)]; [left; exists (x :: c), x0, y0, a', b'; auto|right; exists y0, b'; auto].
        -- intros [(c & x0 & y0 & a' & b' & E1 & E2 & H)|(y0 & b' & E)].
           ++ destruct c as [|z c]; cbn [app] in E1, E2; injection E1 as E1 E1'; injection E2 as E2 E2'; [lia|].
              left. exists c, x0, y0, a', b'. auto.
           ++ injection E as E. right. exists y0, b'. auto.
Qed.

(** ** the Euler characteristic *)
Definition sgn (d : nat) : Z := if Nat.even d then 1%Z else (-1)%Z.
Definition sumZ (l : list Z) : Z := fold_right Z.add 0%Z l.

Lemma sumZ_app a b : sumZ (a ++ b) = (sumZ a + sumZ b)%Z.
Proof. induction a as [|x a IH]; [reflexivity|]. cbn [app sumZ fold_right]. fold (sumZ (a ++ b)) (sumZ a). lia. Qed.
Lemma sumZ_perm a b : Permutation a b -> sumZ a = sumZ b.
Proof. induction 1; unfold sumZ in *; cbn [fold_right]; lia. Qed.
Lemma sumZ_map_add {A} (f g : A -> Z) l : sumZ (map (fun x => (f x + g x)%Z) l) = (sumZ (map f l) + sumZ (map g l))%Z.
Proof. induction l as [|x l IH]; [reflexivity|]. unfold sumZ in *. cbn [map fold_right]. lia. Qed.

Lemma sgn_S d : sgn (S d) = (- sgn d)%Z.
Proof. unfold sgn. rewrite Nat.even_succ, <- Nat.negb_even. destruct (Nat.even d); reflexivity. Qed.

Lemma euler_fold : forall b chi k, 
  fst (fold_left euler_step b (chi, Nat.even k)) = (chi + sumZ (map (fun d => sgn (k + d) * Z.of_nat (nth d b 0%nat)) (seq 0 (length b))))%Z.
Proof.
  induction b as [|x b IH]; intros chi k; [cbn; lia|].
  cbn [fold_left]. unfold euler_step at 2. cbn [fst snd].
  replace (negb (Nat.even k)) with (Nat.even (S k)) by (rewrite Nat.even_succ, <- Nat.negb_even; reflexivity).
  rewrite IH. cbn [length seq map]. unfold sumZ at 2. cbn [fold_right nth]. fold (sumZ (map (fun d => sgn (k + d) * Z.of_nat (nth d (x :: b) 0%nat)) (seq 1 (length b)))%Z).
  rewrite <- seq_shift, map_map. rewrite Nat.add_0_r.
  assert (E : map (fun d => (sgn (S k + d) * Z.of_nat (nth d b 0%nat))%Z) (seq 0 (length b)) = map (fun d => (sgn (k + S d) * Z.of_nat (nth d b 0%nat))%Z) (seq 0 (length b))).
  { apply map_ext. intro d. replace (S k + d) with (k + S d) by lia. reflexivity. }
  rewrite E. unfold sumZ. change (sgn k) with (if Nat.even k then 1%Z else (-1)%Z). destruct (Nat.even k); lia.
Qed.

Theorem C143_euler : forall b,
  signature_euler b = sumZ (map (fun d => sgn d * Z.of_nat (nth d b 0%nat))%Z (seq 0 (length b))).
Proof. intro b. unfold signature_euler. change true with (Nat.even 0). rewrite euler_fold. reflexivity. Qed.

(** counting with signs, dimension by dimension *)
Lemma sum_by_dimension {A} (f : A -> nat) n : forall l, (forall x, In x l -> f x < n) ->
  sumZ (map (fun d => sgn d * Z.of_nat (length (filter (fun x => (f x =? d)%nat) l)))%Z (seq 0 n)) = sumZ (map (fun x => sgn (f x)) l).
Proof.
  induction l as [|x l IH]; intro H.
  - cbn [filter length map]. change (Z.of_nat 0) with 0%Z. induction (seq 0 n) as [|d s IHs]; [reflexivity|]. unfold sumZ in *. cbn [map fold_right]. rewrite IHs. cbn [map fold_right]. lia.
  - assert (E : map (fun d => (sgn d * Z.of_nat (length (filter (fun x => (f x =? d)%nat) (x :: l))))%Z) (seq 0 n)
      = map (fun d => ((if (f x =? d)%nat then sgn d else 0) + sgn d * Z.of_nat (length (filter (fun x => (f x =? d)%nat) l)))%Z) (seq 0 n)).
    { apply map_ext. intro d. cbn [filter]. destruct (f x =? d); cbn [length]; lia. }
    rewrite E, sumZ_map_add, IH by (intros; apply H; simpl; auto). cbn [map]. unfold sumZ at 3. cbn [fold_right]. fold (sumZ (map (fun y => sgn (f y)) l)).
    f_equal. pose proof (H x (or_introl eq_refl)) as Hx. clear - Hx.
    assert (G : forall a m, sumZ (map (fun d => if (f x =? d)%nat then sgn d else 0%Z) (seq a m)) = if (a <=? f x) && (f x <? a + m) then sgn (f x) else 0%Z).
    { intros a m. revert a. induction m as [|m IH]; intro a.
      - cbn [seq map sumZ fold_right]. destruct (Nat.leb_spec a (f x)); destruct (Nat.ltb_spec (f x) (a + 0)); cbn [andb]; try reflexivity; lia.
      - cbn [seq map]. unfold sumZ. cbn [fold_right]. fold (sumZ (map (fun d => if (f x =? d)%nat then sgn d else 0%Z) (seq (S a) m))). rewrite IH.
        destruct (Nat.eqb_spec (f x) a) as [e|e]; destruct (Nat.leb_spec a (f x)); destruct (Nat.leb_spec (S a) (f x));
          destruct (Nat.ltb_spec (f x) (a + S m)); destruct (Nat.ltb_spec (f x) (S a + m)); cbn [andb]; try lia. rewrite e. lia. }
    rewrite G. cbn [Nat.leb andb Nat.add]. destruct (Nat.ltb_spec (f x) n); [reflexivity|lia].
Qed.

Lemma cancel_pairs dimension : forall p,
  (forall u v, In (u, Some v) p -> dimension v = S (dimension u)) ->
  sumZ (map (fun i => sgn (dimension i)) (pair_indices p)) =
  sumZ (map (fun q => sgn (dimension (fst q))) (filter (fun q : nat * option nat => match snd q with Some _ => false | None => true end) p)).
Proof.
  induction p as [|[u [v|]] p IH]; intro H; [reflexivity| |]; unfold pair_indices in *; cbn [flat_map fst snd filter app map]; unfold sumZ in *; cbn [fold_right].
  - rewrite IH by (intros; apply H; simpl; auto). rewrite (H u v) by (simpl; auto). rewrite sgn_S. lia.
  - rewrite IH by (intros; apply H; simpl; auto). cbn [map fold_right fst]. reflexivity.
Qed.

(** ** C143: the signature of a complex has the Euler characteristic of the complex *)
Theorem C143_euler_poincare : forall inf order a K dual,
  (forall l, Permutation (order l) l) ->
  reachable K -> closed (by_index K) -> filtration_order (by_index K) -> by_index K <> [] ->
  (forall s, In s (by_index K) -> (data s < inf)%Z) ->
  exists ds n b, calculatePersistenceDiagrams inf order a K dual true = Ok ds /\ k_dimension K = Ok n /\
    makeSignature inf ds n = Ok b /\
    signature_euler b = sumZ (map (fun s => sgn (sdim s)) (by_index K)).
Proof.
  intros inf order a K dual Ho HR HC HF HNE HI.
  destruct (pipeline inf K true HR HC HF) as (M & p & p1 & ds & E & HV & HL & Hdims & Hp & Hp1 & Hb & Ed & H). subst p1.
  pose proof (reachable_kwf K HR) as HK.
  destruct (dimension_spec K HK) as [_ HD]. destruct (HD HNE) as (n & En & _ & Hn).
  destruct (tabulates_pairing inf K p HK Hb) as (ds' & Ed' & Hs & Hpt & Hq). rewrite Ed in Ed'. injection Ed' as <-.
  assert (Hdim : forall u, u < k_size K -> nth u (dims M) 0 = dim_at K u).
  { intros u Hu. rewrite Hdims. unfold dim_at.
    destruct (nth_error (by_index K) u) as [s|] eqn:Es; [|apply nth_error_None in Es; unfold k_size in Hu; lia].
    rewrite (nth_error_nth _ _ dummy_simplex Es). apply (map_nth_error sdim) in Es. apply (nth_error_nth _ _ 0 Es). }
  assert (Hdn : forall u, u < k_size K -> dim_at K u <= n).
  { intros u Hu. assert (Q : length (verts (nth u (by_index K) dummy_simplex)) <= S n) by (apply Hn; apply nth_In; exact Hu). unfold dim_at. lia. }
  destruct (C143_signature inf ds n) as (b & Eb & Lb & H1 & H2).
  - apply SSlt_NoDup. exact Hs.
  - intros D HD'. destruct (Hpt D HD') as [Hne Ep].
    destruct (filter (fun q => dim_at K (fst q) =? dgm_dim D) p) as [|q l] eqn:Ef; [rewrite Ep in Hne; exfalso; apply Hne; reflexivity|].
    assert (Hin : In q (filter (fun q => dim_at K (fst q) =? dgm_dim D) p)) by (rewrite Ef; simpl; auto).
    apply filter_In in Hin. destruct Hin as [Hin Hd]. apply Nat.eqb_eq in Hd. rewrite <- Hd. apply Hdn, Hb, Hin.
  - exists ds, n, b. refine (conj (H order a dual Ho) (conj En (conj Eb _))).
    rewrite C143_euler, Lb.
    set (open := filter (fun q : nat * option nat => match snd q with Some _ => false | None => true end) p).
    assert (Hbetti : forall d, nth d b 0 = length (filter (fun q => (dim_at K (fst q) =? d)%nat) open)).
    { intro d.
      assert (G : length (filter (fun q => (dim_at K (fst q) =? d)%nat) open) = d_betti inf (Diagram d (map (pair_point inf K) (filter (fun q => (dim_at K (fst q) =? d)%nat) p)))).
      { unfold d_betti, open. cbn [points]. rewrite filter_map_len, !filter_filter. f_equal. apply filter_ext_in.
        intros [u [v|]] Hin; unfold isUnpaired, pair_point; cbn [fst snd].
        - apply Hp in Hin. destruct Hin as [Hv _]. rewrite HL in Hv. pose proof Hv as Hv'. apply Nat.ltb_lt in Hv'. unfold k_size in Hv'. rewrite Hv'.
          assert (data_at K v < inf)%Z by (apply HI; apply nth_In; exact Hv).
          destruct (Z.eqb_spec (data_at K v) inf); [lia|]. destruct (dim_at K u =? d); reflexivity.
        - rewrite Z.eqb_refl. destruct (dim_at K u =? d); reflexivity. }
      rewrite G. destruct (in_dec Nat.eq_dec d (map dgm_dim ds)) as [Hd|Hd].
      - apply in_map_iff in Hd. destruct Hd as (D & <- & HD'). rewrite (H1 D HD'). destruct (Hpt D HD') as [_ Ep]. unfold d_betti. rewrite Ep. reflexivity.
      - rewrite (H2 d Hd). replace (filter (fun q => (dim_at K (fst q) =? d)%nat) p) with (@nil (nat * option nat)); [reflexivity|].
        symmetry. apply filter_nil. intros q Hin. apply Nat.eqb_neq. intro Eq. destruct (Hq q Hin) as (D & HD' & E2). apply Hd. rewrite <- Eq, <- E2. apply in_map. exact HD'. }
    rewrite (map_ext _ (fun d => (sgn d * Z.of_nat (length (filter (fun q => (dim_at K (fst q) =? d)%nat) open)))%Z)) by (intro d; rewrite Hbetti; reflexivity).
    rewrite (sum_by_dimension (fun q => dim_at K (fst q))).
    2:{ intros q Hin. unfold open in Hin. apply filter_In in Hin. destruct Hin as [Hin _]. pose proof (Hdn _ (Hb q Hin)). lia. }
    destruct (pairing_structure M p HV Hp) as [HP HS]. rewrite HL in HP.
    unfold open. rewrite <- cancel_pairs.
    2:{ intros u v Hin. destruct (HS u v Hin) as [Hlt Hd]. pose proof (Hb _ Hin) as Hu. cbn [fst] in Hu.
        apply Hp in Hin. destruct Hin as [Hv _]. rewrite HL in Hv. rewrite !Hdim in Hd by auto. exact Hd. }
    rewrite (sumZ_perm _ (map (fun i => sgn (dim_at K i)) (seq 0 (k_size K)))) by (apply Permutation_map; exact HP).
    f_equal. unfold k_size, dim_at, sdim. clear. generalize (by_index K). intro l.
    assert (G : forall l, map (fun i => nth i l dummy_simplex) (seq 0 (length l)) = l).
    { clear. induction l as [|x l IH]; [reflexivity|]. cbn [length seq map nth]. rewrite <- seq_shift, map_map. f_equal. exact IH. }
    transitivity (map (fun s => sgn (length (verts s) - 1)) (map (fun i => nth i l dummy_simplex) (seq 0 (length l)))); [rewrite map_map; reflexivity|rewrite G; reflexivity].
Qed.

(** the boundary of a triangle: one component, one cycle, Euler characteristic zero *)
Definition circle : complex := mk [PushBack [0] 1; PushBack [1] 2; PushBack [2] 3; PushBack [0;1] 4; PushBack [1;2] 5; PushBack [0;2] 6].
Example C143_example :
  (let* ds := calculatePersistenceDiagrams 99 (fun l => l) ATwist circle true true in makeSignature 99 ds 1) = Ok [1; 1] /\
  signature_euler [1; 1] = 0%Z /\ signature_euler [1; 0; 1] = 2%Z /\
  makeSignature 99 [Diagram 2 [(1, 99)]]%Z 1 = Throw OutOfRange /\
  signature_ltb [1; 0; 1] [1; 1] = true /\ signature_ltb [1; 1] [1; 1; 0] = true.
Proof. repeat split; reflexivity. Qed.

Print Assumptions C143_perversities.
Print Assumptions C143_dimension_zero_refuted.
Print Assumptions C143_signature.
Print Assumptions C143_signature_fails.
Print Assumptions C143_order.
Print Assumptions C143_euler.
Print Assumptions C143_euler_poincare.
