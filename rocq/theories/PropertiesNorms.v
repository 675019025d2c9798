(** * C75: norms of persistence diagrams and extraction of persistence values *)

From Coq Require Import List Arith Bool ZArith QArith Lia Permutation Sorted.
From Verif Require Import Base BaseFacts Diagram DiagramFacts Hausdorff PropertiesHausdorff PropertiesSmall SpecNorms Norms.
Import ListNotations.
Local Open Scope Z_scope.

Lemma fold_left_map {A B C} (f : A -> B -> A) (g : C -> B) l : forall a,
  fold_left (fun a x => f a (g x)) l a = fold_left f (map g l) a.
Proof. induction l as [|x l IH]; intro a; cbn; auto. Qed.

Lemma kahan_map {A} (f : A -> Z) l :
  fst (fold_left (fun r p => kahan_add r (f p)) l (0, 0)) = zsum (map f l).
Proof. rewrite fold_left_map, kahan_exact. cbn [fst]. unfold zsum. lia. Qed.

(** the total persistence is the (weighted) sum of powers of absolute persistence values *)
Theorem C75_total : forall D k,
  totalPersistence D k false = power_sum k (points D) /\
  totalPersistence D k true = weighted_power_sum k (points D).
Proof.
  intros D k. unfold totalPersistence, power_sum, weighted_power_sum. cbn [negb].
  split; apply (kahan_map (A := point)).
Qed.

Lemma total_zsum k (w : bool) : exists f : point -> Z,
  (forall p, f p = (if w then Z.abs (fst p) else 1) * Z.abs (pers p) ^ Z.of_nat k) /\
  forall D', totalPersistence D' k w = zsum (map f (points D')).
Proof.
  exists (fun p : point => (if w then Z.abs (fst p) else 1) * Z.abs (pers p) ^ Z.of_nat k). split; [reflexivity|].
  intro D'. destruct (C75_total D' k) as [H1 H2]. destruct w; [exact H2|]. rewrite H1. unfold power_sum. f_equal. apply map_ext.
  intro p. rewrite Z.mul_1_l. reflexivity.
Qed.

Lemma zsum_app l m : zsum (l ++ m) = zsum l + zsum m.
Proof. induction l as [|x l IH]; cbn; [reflexivity|]. fold (zsum (l ++ m)) (zsum l). lia. Qed.

(** the order of the points does not matter, merging adds up, and the value is
    the one of an (unrooted) norm: nonnegative, and 0 just for diagrams whose
    points are all on the diagonal *)
Theorem C75_total_norm : forall D E k w,
  (Permutation (points D) (points E) -> totalPersistence D k w = totalPersistence E k w) /\
  totalPersistence (d_merge D E) k w = totalPersistence D k w + totalPersistence E k w /\
  0 <= totalPersistence D k w /\
  ((0 < k)%nat -> (totalPersistence D k false = 0 <-> forall p, In p (points D) -> fst p = snd p)).
Proof.
  intros D E k w. destruct (total_zsum k w) as (f & Hf & H). rewrite !H.
  assert (N : forall p, 0 <= f p). { intro p. rewrite Hf. apply Z.mul_nonneg_nonneg; [destruct w; lia|apply Z.pow_nonneg; lia]. }
  refine (conj _ (conj _ (conj _ _))).
  - intro P. apply sum_perm, Permutation_map. exact P.
  - cbn [d_merge points]. rewrite map_app. apply zsum_app.
  - induction (points D) as [|p l IH]; cbn; [lia|]. fold (zsum (map f l)). specialize (N p). lia.
  - intro Hk. destruct (C75_total D k) as [-> _]. unfold power_sum.
    assert (P : forall p, 0 <= Z.abs (pers p) ^ Z.of_nat k) by (intro p; apply Z.pow_nonneg; lia).
    induction (points D) as [|p l IH]; cbn [map zsum fold_right]; [split; [intros _ q []|reflexivity]|].
    fold (zsum (map (fun p => Z.abs (pers p) ^ Z.of_nat k) l)).
    assert (G : 0 <= zsum (map (fun p => Z.abs (pers p) ^ Z.of_nat k) l)).
    { clear -P. induction l as [|q l IH]; cbn; [lia|]. fold (zsum (map (fun p => Z.abs (pers p) ^ Z.of_nat k) l)). specialize (P q). lia. }
    pose proof (P p) as Pp. split.
    + intro E0. intros q [<-|Hq]; [|apply IH; [lia|exact Hq]].
      assert (Z0 : Z.abs (pers p) ^ Z.of_nat k = 0) by lia. apply Z.pow_eq_0 in Z0; [unfold pers in Z0; lia|lia].
    + intro A. assert (B : zsum (map (fun p => Z.abs (pers p) ^ Z.of_nat k) l) = 0) by (apply IH; intros q Hq; apply A; right; exact Hq).
      rewrite B. unfold pers. rewrite (A p (or_introl eq_refl)), Z.sub_diag. cbn [Z.abs]. rewrite Z.pow_0_l; lia.
Qed.

Theorem C75_pnorm : forall root D p w,
  pNorm root D 0 w = Throw RuntimeError /\
  ((0 < p)%nat -> pNorm root D p w = Ok (root p (totalPersistence D p w))).
Proof. intros root D p w. split; [reflexivity|]. unfold pNorm. destruct p; [lia|reflexivity]. Qed.

Lemma max_fold l : forall m, let r := fold_left (fun a y => if (a <? y)%Z then y else a) l m in
  m <= r /\ (forall y, In y l -> y <= r) /\ (r = m \/ In r l).
Proof.
  induction l as [|x l IH]; intro m; cbn [fold_left]; [cbn; repeat split; [lia|intros y []|left; reflexivity]|].
  destruct (IH (if m <? x then x else m)) as (A & B & C). cbv zeta. set (r := fold_left _ _ _) in *.
  destruct (Z.ltb_spec m x); (split; [lia|split]).
  - intros y [<-|Hy]; auto. - right. destruct C as [C|C]; [left; congruence|right; exact C].
  - intros y [<-|Hy]; [lia|auto]. - destruct C as [C|C]; [left; exact C|right; right; exact C].
Qed.

Lemma push_map {A B} (f : A -> B) l : forall acc, fold_left (fun v p => v ++ [f p]) l acc = acc ++ map f l.
Proof. induction l as [|x l IH]; intro acc; cbn; [symmetry; apply app_nil_r|]. rewrite IH, <- app_assoc. reflexivity. Qed.

(** the infinity norm is the largest absolute persistence value, 0 for an empty diagram *)
Theorem C75_infinity : forall D, exists r, infinityNorm D = Ok r /\
  (forall p, In p (points D) -> Z.abs (pers p) <= r) /\
  ((points D = [] /\ r = 0) \/ exists p, In p (points D) /\ Z.abs (pers p) = r).
Proof.
  intro D. unfold infinityNorm. destruct (points D) as [|p l] eqn:E.
  - exists 0. split; [reflexivity|]. split; [intros p []|left; auto].
  - rewrite push_map. cbn [app map max_element]. eexists. split; [reflexivity|].
    destruct (max_fold (map (fun p => Z.abs (point_persistence p)) l) (Z.abs (point_persistence p))) as (A & B & C). cbv zeta in A, B, C.
    set (r := fold_left _ _ _) in *. split.
    + intros q [<-|Hq]; [exact A|]. apply B. apply (in_map (fun p => Z.abs (point_persistence p))). exact Hq.
    + right. destruct C as [C|C]; [exists p; split; [left; reflexivity|symmetry; exact C]|].
      apply in_map_iff in C as (q & Eq & Hq). exists q. split; [right; exact Hq|exact Eq].
Qed.

(** the infinity norm is the limit of the other norms *)
Theorem C75_sandwich : forall D k r, infinityNorm D = Ok r -> points D <> [] ->
  r ^ Z.of_nat k <= totalPersistence D k false <= Z.of_nat (length (points D)) * r ^ Z.of_nat k.
Proof.
  intros D k r H N. destruct (C75_infinity D) as (r' & H' & A & B). rewrite H in H'. injection H' as <-.
  destruct B as [[B _]|(p & Hp & B)]; [contradiction|]. destruct (C75_total D k) as [-> _]. unfold power_sum. split.
  - rewrite <- B. clear -Hp. induction (points D) as [|q l IH]; [destruct Hp|].
    cbn [map zsum fold_right]. fold (zsum (map (fun p => Z.abs (pers p) ^ Z.of_nat k) l)).
    assert (G : 0 <= zsum (map (fun p => Z.abs (pers p) ^ Z.of_nat k) l)).
    { clear. induction l as [|q l IH]; cbn [map zsum fold_right]; [lia|]. fold (zsum (map (fun p => Z.abs (pers p) ^ Z.of_nat k) l)).
      assert (0 <= Z.abs (pers q) ^ Z.of_nat k) by (apply Z.pow_nonneg; lia). lia. }
    assert (0 <= Z.abs (pers q) ^ Z.of_nat k) by (apply Z.pow_nonneg; lia).
    destruct Hp as [->|Hp]; [lia|]. specialize (IH Hp). lia.
  - clear -A. induction (points D) as [|q l IH]; [cbn; lia|].
    cbn [map zsum fold_right length]. fold (zsum (map (fun p => Z.abs (pers p) ^ Z.of_nat k) l)).
    assert (Z.abs (pers q) ^ Z.of_nat k <= r ^ Z.of_nat k) by (apply Z.pow_le_mono_l; split; [lia|apply A; left; reflexivity]).
    specialize (IH (fun p Hp => A p (or_intror Hp))). lia.
Qed.

(** ** extraction *)
Theorem C75_values : forall D,
  persistence_values D false = map pers (points D) /\
  persistence_values D true = map (fun p => Z.abs (pers p)) (points D).
Proof. intro D. split; reflexivity. Qed.

Lemma peqb p q : point_eqb p q = true <-> p = q.
Proof.
  unfold point_eqb. rewrite andb_true_iff, !Z.eqb_eq. destruct p, q. cbn. split; [intros [-> ->]; reflexivity|injection 1; auto].
Qed.

Lemma unique_lex l : StronglySorted (fun a b => point_ltb b a = false) l -> StronglySorted lex_lt (cpp_unique point_eqb l).
Proof.
  induction l as [|a l IH]; intro Hs; [constructor|]. destruct l as [|b l]; [repeat constructor|].
  change (cpp_unique point_eqb (a :: b :: l)) with
    (if point_eqb a b then match cpp_unique point_eqb (b :: l) with [] => [a] | _ :: r => a :: r end else a :: cpp_unique point_eqb (b :: l)).
  inversion Hs as [|? ? S1 F1]; subst. specialize (IH S1). rewrite Forall_forall in F1.
  destruct (cpp_unique_head point_eqb b l) as [r E]. rewrite E in *.
  inversion IH as [|? ? S2 F2]; subst. destruct (point_eqb a b) eqn:Eab.
  - apply peqb in Eab. subst b. exact IH.
  - assert (L : lex_lt a b).
    { pose proof (F1 b (or_introl eq_refl)) as F. unfold lex_lt. destruct (point_lt_total a b) as [H|[H|H]]; [exact H| |].
      - exfalso. subst b. assert (T : point_eqb a a = true) by (apply peqb; reflexivity). congruence.
      - exfalso. apply point_ltb_spec in H. congruence. }
    constructor; [exact IH|]. apply Forall_forall. rewrite Forall_forall in F2. intros x [<-|Hx]; [exact L|]. specialize (F2 x Hx).
    unfold lex_lt in *. lia.
Qed.

Lemma count_points_occ p l : count_points p l = count_occ pair_dec l p.
Proof.
  unfold count_points. induction l as [|q l IH]; [reflexivity|]. cbn [filter count_occ].
  destruct (pair_dec q p) as [->|N].
  - replace (point_eqb p p) with true by (symmetry; apply peqb; reflexivity). cbn [length]. rewrite IH. reflexivity.
  - destruct (point_eqb q p) eqn:E; [apply peqb in E; contradiction|exact IH].
Qed.

Lemma count_perm l m p : Permutation l m -> count_occ pair_dec l p = count_occ pair_dec m p.
Proof. intro H. apply (proj1 (Permutation_count_occ pair_dec l m) H). Qed.

(** one value for every distinct point, in lexicographic order: the fraction of
    the points that are equal to it times its persistence *)
Theorem C75_weighted : forall D, exists U,
  StronglySorted lex_lt U /\ (forall p, In p U <-> In p (points D)) /\
  weightedPersistence D =
    map (fun p => (inject_Z (Z.of_nat (count_occ pair_dec (points D) p)) / inject_Z (Z.of_nat (length (points D))) * inject_Z (pers p))%Q) U.
Proof.
  intro D. exists (cpp_unique point_eqb (cpp_sort extraction_ltb (points D))). refine (conj _ (conj _ _)).
  - apply unique_lex. apply (cpp_sort_sorted point_ltb). apply point_ltb_swo.
  - intro p. rewrite (cpp_unique_In point_eqb peqb), cpp_sort_In. tauto.
  - unfold weightedPersistence. apply map_ext. intro p. rewrite count_points_occ, cpp_sort_length.
    rewrite (count_perm _ (points D) p (cpp_sort_perm extraction_ltb (points D))). reflexivity.
Qed.

Lemma qsum_app l m : (qsum (l ++ m) == qsum l + qsum m)%Q.
Proof.
  induction l as [|x l IH]; [unfold qsum at 2; cbn [app fold_right]; ring|].
  unfold qsum at 1 2. cbn [app fold_right]. fold (qsum (l ++ m)) (qsum l). rewrite IH. ring.
Qed.

(** the sum over the distinct points, each taken as often as it occurs, is the sum over all points *)
Lemma distinct_sum (f : Z * Z -> Q) : forall l U, NoDup U -> (forall p, In p l -> In p U) ->
  (qsum (map (fun p => inject_Z (Z.of_nat (count_occ pair_dec l p)) * f p) U) == qsum (map f l))%Q.
Proof.
  induction l as [|q l IH]; intros U Hn Hin.
  - cbn [count_occ map]. clear. induction U as [|p U IH]; [reflexivity|]. cbn [map qsum fold_right]. unfold qsum in IH. cbn [map fold_right] in IH. rewrite IH. cbn [Z.of_nat]. unfold inject_Z. ring.
  - assert (Hq : In q U) by (apply Hin; left; reflexivity). apply in_split in Hq as (U1 & U2 & EU).
    specialize (IH U Hn (fun p Hp => Hin p (or_intror Hp))). cbn [map qsum fold_right]. fold (qsum (map f l)). rewrite <- IH.
    assert (G : forall V, ~ In q V -> map (fun p => (inject_Z (Z.of_nat (count_occ pair_dec (q :: l) p)) * f p)%Q) V
                = map (fun p => (inject_Z (Z.of_nat (count_occ pair_dec l p)) * f p)%Q) V).
    { intros V HV. apply map_ext_in. intros p Hp. rewrite count_occ_cons_neq; [reflexivity|]. intros ->. contradiction. }
    subst U. apply NoDup_remove_2 in Hn. rewrite in_app_iff in Hn.
    rewrite !map_app, !qsum_app. cbn [map]. rewrite !G by tauto. cbn [qsum fold_right].
    fold (qsum (map (fun p => (inject_Z (Z.of_nat (count_occ pair_dec l p)) * f p)%Q) U2)).
    rewrite count_occ_cons_eq by reflexivity. rewrite Nat2Z.inj_succ. unfold Z.succ. rewrite inject_Z_plus. ring.
Qed.

(** multiplicities are accounted for: the weighted values add up to the mean persistence *)
Theorem C75_mean : forall D, points D <> [] ->
  (qsum (weightedPersistence D) * inject_Z (Z.of_nat (length (points D))) == inject_Z (zsum (map pers (points D))))%Q.
Proof.
  intros D N. destruct (C75_weighted D) as (U & Hs & Hin & ->). set (n := inject_Z (Z.of_nat (length (points D)))).
  assert (Hn : ~ (n == 0)%Q). { unfold n, Qeq. cbn. destruct (points D); [contradiction|cbn; lia]. }
  assert (Nd : NoDup U).
  { clear -Hs. induction Hs as [|p U S IH F]; constructor; auto. intro H. rewrite Forall_forall in F. specialize (F p H). unfold lex_lt in F. lia. }
  assert (E : (qsum (map (fun p => inject_Z (Z.of_nat (count_occ pair_dec (points D) p)) / n * inject_Z (pers p)) U) * n
               == qsum (map (fun p => inject_Z (Z.of_nat (count_occ pair_dec (points D) p)) * inject_Z (pers p)) U))%Q).
  { generalize (count_occ pair_dec (points D)). intro c. clear -Hn. induction U as [|p U IH]; cbn [map qsum fold_right]; [ring|].
    fold (qsum (map (fun p => inject_Z (Z.of_nat (c p)) / n * inject_Z (pers p))%Q U)).
    fold (qsum (map (fun p => inject_Z (Z.of_nat (c p)) * inject_Z (pers p))%Q U)). rewrite <- IH. field. exact Hn. }
  rewrite E. rewrite (distinct_sum (fun p => inject_Z (pers p)) (points D) U Nd (fun p Hp => proj2 (Hin p) Hp)).
  clear. induction (points D) as [|p l IH]; cbn [map qsum zsum fold_right]; [reflexivity|].
  fold (qsum (map (fun p => inject_Z (pers p)) l)) (zsum (map pers l)). rewrite inject_Z_plus, IH. reflexivity.
Qed.

Definition n_D := Diagram 1 [(1, 4); (-2, 0); (1, 4); (3, 3); (5, 1)].
Example C75_example :
  totalPersistence n_D 2 false = 38 /\ totalPersistence n_D 2 true = 9 + 8 + 9 + 80 /\ infinityNorm n_D = Ok 4 /\
  persistence_values n_D false = [3; 2; 3; 0; -4] /\ persistence_values n_D true = [3; 2; 3; 0; 4] /\
  map Qred (weightedPersistence n_D) = [2 # 5; 6 # 5; 0 # 1; -4 # 5]%Q /\
  infinityNorm (Diagram 0 []) = Ok 0 /\ totalPersistence (Diagram 0 []) 3 true = 0.
Proof. vm_compute. repeat split; reflexivity. Qed.

Print Assumptions C75_total.
Print Assumptions C75_total_norm.
Print Assumptions C75_pnorm.
Print Assumptions C75_infinity.
Print Assumptions C75_sandwich.
Print Assumptions C75_values.
Print Assumptions C75_weighted.
Print Assumptions C75_mean.
