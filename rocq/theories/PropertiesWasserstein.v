(** * C35: the Wasserstein distance is the cost of an optimal partial matching. *)
From Coq Require Import List Arith Bool ZArith Lia Permutation.
From Verif Require Import Base BaseFacts Diagram Hausdorff Munkres MunkresFacts PropertiesMunkres Wasserstein.
Import ListNotations.

(** ** specification *)
Section Spec.
  Variables (d : point -> point -> Z) (o : point -> Z).

  (** A partial matching between the points (by their positions): no point occurs twice. *)
  Definition partial_matching (D1 D2 : list point) (m : list (nat * nat)) : Prop :=
    NoDup (map fst m) /\ NoDup (map snd m) /\ forall i j, In (i, j) m -> i < length D1 /\ j < length D2.

  Definition pt (D : list point) (i : nat) : point := nth i D (0%Z, 0%Z).
  Definition sum {A} (f : A -> Z) (l : list A) : Z := fold_right (fun x a => (f x + a)%Z) 0%Z l.
  Definition unmatched (D : list point) (used : list nat) : list nat :=
    filter (fun i => negb (existsb (Nat.eqb i) used)) (seq 0 (length D)).

  (** matched points cost their distance, the others their distance to the diagonal *)
  Definition matching_cost (D1 D2 : list point) (m : list (nat * nat)) : Z :=
    (sum (fun p => d (pt D1 (fst p)) (pt D2 (snd p))) m
     + sum (fun i => o (pt D1 i)) (unmatched D1 (map fst m))
     + sum (fun j => o (pt D2 j)) (unmatched D2 (map snd m)))%Z.

  Definition smallest_cost (D1 D2 : list point) (v : Z) : Prop :=
    (exists m, partial_matching D1 D2 m /\ matching_cost D1 D2 m = v) /\
    forall m, partial_matching D1 D2 m -> (v <= matching_cost D1 D2 m)%Z.
End Spec.

(** ** the cost matrix *)
Lemma fold_flat {A B S} (f : S -> B -> S) (g : A -> list B) l : forall s, fold_left (fun s a => fold_left f (g a) s) l s = fold_left f (flat_map g l) s.
Proof. induction l as [|a l IH]; intro s; [reflexivity|]. cbn. rewrite fold_left_app. apply IH. Qed.

Definition write := (nat * nat * Z)%type.
Definition put (m : matrix Z) (w : write) : matrix Z := mset m (fst (fst w)) (snd (fst w)) (snd w).

Lemma puts_spec (F : nat -> nat -> Z) W : (forall w, In w W -> snd w = F (fst (fst w)) (snd (fst w))) -> forall m i j,
  (m i j = F i j \/ exists w, In w W /\ fst w = (i, j)) -> fold_left put W m i j = F i j.
Proof.
  induction W as [|w W IH]; intros HW m i j H; [destruct H as [H|(w & [] & _)]; exact H|]. cbn [fold_left]. apply IH; [intros; apply HW; simpl; auto|].
  assert (Hw := HW w (or_introl eq_refl)). unfold put, mset. destruct w as [[r c] v]. cbn [fst snd] in *. destruct (Nat.eqb_spec i r), (Nat.eqb_spec j c); cbn [andb]; subst; auto;
  (destruct H as [H|(w & [<-|Hw] & E)]; [auto| |right; eauto]); cbn in E; injection E; intros; congruence.
Qed.

Section Costs.
  Variables (top : Z) (dist : point -> point -> Z) (orth : point -> Z).

  (** the entries of the cost matrix *)
  Definition entry (D1 D2 : list point) (r c : nat) : Z :=
    if r <? length D1 then
      if c <? length D2 then dist (pt D1 r) (pt D2 c)
      else if point_eqb (pt D1 (c - length D2)) (pt D1 r) then orth (pt D1 (c - length D2)) else top
    else
      if c <? length D2 then if point_eqb (pt D2 (r - length D1)) (pt D2 c) then orth (pt D2 (r - length D1)) else top
      else 0%Z.

  Lemma enum_In (D : list point) i p : In (i, p) (enum D) <-> i < length D /\ p = pt D i.
  Proof.
    unfold enum, pt. assert (G : forall (D : list point) s, In (i, p) (combine (seq s (length D)) D) <-> s <= i < s + length D /\ p = nth (i - s) D (0%Z, 0%Z)).
    { induction D0 as [|q D0 IH]; intro s; cbn; [split; [easy|lia]|]. rewrite IH. split.
      - intros [[= -> ->]|[H1 H2]]; [split; [lia|]; rewrite Nat.sub_diag; reflexivity|]. split; [lia|]. replace (i - s) with (S (i - S s)) by lia. exact H2.
      - intros [H1 H2]. destruct (Nat.eq_dec i s) as [->|Hne]; [left; rewrite Nat.sub_diag in H2; subst; reflexivity|]. right. split; [lia|]. replace (i - s) with (S (i - S s)) in H2 by lia. exact H2. }
    rewrite G, Nat.sub_0_r. intuition lia.
  Qed.

  Definition writes (D1 D2 : list point) : list write :=
    flat_map (fun p1 => flat_map (fun p2 => [(fst p1, fst p2, dist (snd p1) (snd p2)); (fst p2 + length D1, fst p1 + length D2, 0%Z)]) (enum D2)) (enum D1) ++
    flat_map (fun p1 => map (fun p2 => (fst p2, length D2 + fst p1, if point_eqb (snd p1) (snd p2) then orth (snd p1) else top)) (enum D1)) (enum D1) ++
    flat_map (fun p1 => map (fun p2 => (length D1 + fst p1, fst p2, if point_eqb (snd p1) (snd p2) then orth (snd p1) else top)) (enum D2)) (enum D2).

  Lemma fold_ext {A S} (f g : S -> A -> S) l : (forall s a, f s a = g s a) -> forall s, fold_left f l s = fold_left g l s.
  Proof. intro H. induction l as [|a l IH]; intro s; [reflexivity|]. cbn. rewrite H. apply IH. Qed.
  Lemma fold_put {A} (h : A -> write) l : forall m, fold_left (fun m a => put m (h a)) l m = fold_left put (map h l) m.
  Proof. induction l as [|a l IH]; intro m; [reflexivity|]. cbn. apply IH. Qed.

  Lemma costs_writes D1 D2 : wasserstein_costs top dist orth D1 D2 = fold_left put (writes D1 D2) (fun _ _ => 0%Z).
  Proof.
    unfold wasserstein_costs, writes. rewrite !fold_left_app. unfold second_projection, first_projection, regular_block.
    rewrite <- !fold_flat. rewrite (fold_ext _ (fun m p1 => fold_left put (map (fun p2 => (length D1 + fst p1, fst p2, if point_eqb (snd p1) (snd p2) then orth (snd p1) else top)) (enum D2)) m)) by (intros m p1; rewrite <- fold_put; reflexivity).
    f_equal. rewrite (fold_ext _ (fun m p1 => fold_left put (map (fun p2 => (fst p2, length D2 + fst p1, if point_eqb (snd p1) (snd p2) then orth (snd p1) else top)) (enum D1)) m)) by (intros m p1; rewrite <- fold_put; reflexivity).
    f_equal. apply fold_ext. intros m p1. rewrite <- fold_flat. apply fold_ext. intros m' p2. reflexivity.
  Qed.

  Lemma costs_entry D1 D2 r c : r < length D1 + length D2 -> c < length D1 + length D2 -> wasserstein_costs top dist orth D1 D2 r c = entry D1 D2 r c.
  Proof.
    intros Hr Hc. rewrite costs_writes. apply puts_spec.
    - intros w Hw. unfold writes in Hw. rewrite !in_app_iff in Hw. destruct Hw as [Hw|[Hw|Hw]].
      + apply in_flat_map in Hw as ([i p] & Hi & Hw). apply in_flat_map in Hw as ([j q] & Hj & Hw). apply enum_In in Hi as [Hi ->]. apply enum_In in Hj as [Hj ->].
        cbn in Hw. destruct Hw as [<-|[<-|[]]]; cbn; unfold entry.
        * destruct (Nat.ltb_spec i (length D1)), (Nat.ltb_spec j (length D2)); try lia; reflexivity.
        * destruct (Nat.ltb_spec (j + length D1) (length D1)), (Nat.ltb_spec (i + length D2) (length D2)); try lia; reflexivity.
      + apply in_flat_map in Hw as ([i p] & Hi & Hw). apply in_map_iff in Hw as ([j q] & <- & Hj). apply enum_In in Hi as [Hi ->]. apply enum_In in Hj as [Hj ->]. cbn. unfold entry.
        destruct (Nat.ltb_spec j (length D1)), (Nat.ltb_spec (length D2 + i) (length D2)); try lia. replace (length D2 + i - length D2) with i by lia. reflexivity.
      + apply in_flat_map in Hw as ([i p] & Hi & Hw). apply in_map_iff in Hw as ([j q] & <- & Hj). apply enum_In in Hi as [Hi ->]. apply enum_In in Hj as [Hj ->]. cbn. unfold entry.
        destruct (Nat.ltb_spec (length D1 + i) (length D1)), (Nat.ltb_spec j (length D2)); try lia. replace (length D1 + i - length D1) with i by lia. reflexivity.
    - unfold entry. destruct (Nat.ltb_spec r (length D1)) as [H1|H1], (Nat.ltb_spec c (length D2)) as [H2|H2]; [right|right|right|left; reflexivity].
      + exists (r, c, dist (pt D1 r) (pt D2 c)). split; [|reflexivity]. apply in_app_iff. left. apply in_flat_map. exists (r, pt D1 r). split; [apply enum_In; auto|]. apply in_flat_map. exists (c, pt D2 c). split; [apply enum_In; auto|simpl; auto].
      + eexists. split; [apply in_app_iff; right; apply in_app_iff; left; apply in_flat_map; exists (c - length D2, pt D1 (c - length D2)); split; [apply enum_In; split; [lia|auto]|apply in_map_iff; exists (r, pt D1 r); split; [reflexivity|apply enum_In; auto]]|].
        cbn. f_equal. lia.
      + eexists. split; [apply in_app_iff; right; apply in_app_iff; right; apply in_flat_map; exists (r - length D1, pt D2 (r - length D1)); split; [apply enum_In; split; [lia|auto]|apply in_map_iff; exists (c, pt D2 c); split; [reflexivity|apply enum_In; auto]]|].
        cbn. f_equal. lia.
  Qed.
End Costs.

(** ** assignments and partial matchings *)
Lemma zsum_split {A} (b : A -> bool) (f : A -> Z) l : zsum f l = (zsum f (filter b l) + zsum f (filter (fun x => negb (b x)) l))%Z.
Proof. induction l as [|x l IH]; cbn; [reflexivity|]. destruct (b x); cbn; unfold zsum in *; lia. Qed.
Lemma zsum_zero {A} (f : A -> Z) l : (forall x, In x l -> f x = 0%Z) -> zsum f l = 0%Z.
Proof. induction l as [|x l IH]; intro H; cbn; [reflexivity|]. rewrite (H x) by (simpl; auto). assert (zsum f l = 0%Z) by (apply IH; intros; apply H; simpl; auto). unfold zsum in *. lia. Qed.
Lemma zsum_elem {A} (f : A -> Z) l x : (forall x, In x l -> (0 <= f x)%Z) -> In x l -> (f x <= zsum f l)%Z.
Proof.
  induction l as [|y l IH]; intros H Hx; [easy|]. cbn. assert (Hy := H y (or_introl eq_refl)). assert (H' : forall x, In x l -> (0 <= f x)%Z) by (intros; apply H; simpl; auto).
  destruct Hx as [->|Hx]; [assert (G := zsum_nonneg f l H')|assert (G := IH H' Hx)]; unfold zsum in *; lia.
Qed.

Lemma cost_nth C a : assignment_cost C a = zsum (fun r => C r (nth r a 0)) (seq 0 (length a)).
Proof.
  rewrite cost_zsum. assert (G : forall (a : list nat) s (pre : list nat), length pre = s -> zsum (fun p => C (fst p) (snd p)) (combine (seq s (length a)) a) = zsum (fun r => C r (nth r (pre ++ a) 0)) (seq s (length a))).
  { induction a0 as [|x a0 IH]; intros s pre Hs; [reflexivity|]. cbn. rewrite app_nth2, Hs, Nat.sub_diag by lia. cbn [nth]. f_equal.
    assert (E := IH (S s) (pre ++ [x])). rewrite app_length, Hs in E. cbn in E. specialize (E ltac:(lia)). rewrite <- app_assoc in E. exact E. }
  exact (G a 0 [] eq_refl).
Qed.

Lemma map_nth_seq (h : nat -> nat) n r : r < n -> nth r (map h (seq 0 n)) 0 = h r.
Proof. intro H. rewrite (nth_indep _ 0 (h 0)) by (rewrite map_length, seq_length; auto). rewrite map_nth, seq_nth by auto. reflexivity. Qed.

Lemma perm_of_function n h : (forall r, r < n -> h r < n) -> (forall r r', r < n -> r' < n -> h r = h r' -> r = r') -> assignment n (map h (seq 0 n)).
Proof.
  intros H1 H2. apply NoDup_Permutation_bis.
  - apply NoDup_map_inj; [|apply seq_NoDup]. intros x y Hx Hy. apply in_seq in Hx. apply in_seq in Hy. apply H2; lia.
  - rewrite map_length, !seq_length. lia.
  - intros c H. apply in_map_iff in H as (r & <- & H). apply in_seq in H. apply in_seq. specialize (H1 r). lia.
Qed.

Lemma existsb_eq i l : existsb (Nat.eqb i) l = true <-> In i l.
Proof. rewrite existsb_exists. split; [intros (x & Hx & E); apply Nat.eqb_eq in E; subst; auto|]. intro H. exists i. split; [auto|apply Nat.eqb_refl]. Qed.

Definition by_first (m : list (nat * nat)) (i : nat) : option (nat * nat) := find (fun p => fst p =? i) m.
Definition by_second (m : list (nat * nat)) (j : nat) : option (nat * nat) := find (fun p => snd p =? j) m.

Lemma by_first_some m i p : by_first m i = Some p -> In p m /\ fst p = i.
Proof. intro H. apply find_some in H as [H1 H2]. apply Nat.eqb_eq in H2. auto. Qed.
Lemma by_second_some m i p : by_second m i = Some p -> In p m /\ snd p = i.
Proof. intro H. apply find_some in H as [H1 H2]. apply Nat.eqb_eq in H2. auto. Qed.
Lemma by_first_none m i : by_first m i = None -> ~ In i (map fst m).
Proof. intros H Hi. apply in_map_iff in Hi as (p & <- & Hp). apply find_none with (x := p) in H; auto. rewrite Nat.eqb_refl in H. discriminate. Qed.
Lemma by_second_none m i : by_second m i = None -> ~ In i (map snd m).
Proof. intros H Hi. apply in_map_iff in Hi as (p & <- & Hp). apply find_none with (x := p) in H; auto. rewrite Nat.eqb_refl in H. discriminate. Qed.

Lemma NoDup_map_eq {A B} (f : A -> B) l x y : NoDup (map f l) -> In x l -> In y l -> f x = f y -> x = y.
Proof.
  induction l as [|z l IH]; intros N Hx Hy E; [easy|]. cbn in N. inversion N as [|? ? Nz N']; subst. destruct Hx as [->|Hx], Hy as [->|Hy]; auto.
  - exfalso. apply Nz. rewrite E. apply in_map, Hy.
  - exfalso. apply Nz. rewrite <- E. apply in_map, Hx.
Qed.

Lemma perm_filter (used : list nat) n : NoDup used -> (forall i, In i used -> i < n) -> Permutation (filter (fun i => existsb (Nat.eqb i) used) (seq 0 n)) used.
Proof.
  intros N H. apply NoDup_Permutation; [apply NoDup_filter, seq_NoDup|exact N|]. intro i. rewrite filter_In, existsb_eq, in_seq. split; [tauto|]. intro Hi. specialize (H i Hi). split; [lia|auto].
Qed.

Section Correspondence.
  Variables (top : Z) (dist : point -> point -> Z) (orth : point -> Z) (D1 D2 : list point).
  Notation n1 := (length D1).
  Notation n2 := (length D2).
  Notation e := (entry top dist orth D1 D2).

  Lemma entry_matched i j : i < n1 -> j < n2 -> e i j = dist (pt D1 i) (pt D2 j).
  Proof. intros. unfold entry. destruct (Nat.ltb_spec i n1), (Nat.ltb_spec j n2); try lia; reflexivity. Qed.
  Lemma point_eqb_refl p : point_eqb p p = true.
  Proof. unfold point_eqb. rewrite !Z.eqb_refl. reflexivity. Qed.
  Lemma point_eqb_eq p q : point_eqb p q = true -> p = q.
  Proof. unfold point_eqb. intro H. apply andb_true_iff in H as [H1 H2]. apply Z.eqb_eq in H1, H2. destruct p, q; cbn in *; subst; reflexivity. Qed.
  Lemma entry_first i : i < n1 -> e i (n2 + i) = orth (pt D1 i).
  Proof. intros. unfold entry. destruct (Nat.ltb_spec i n1), (Nat.ltb_spec (n2 + i) n2); try lia. replace (n2 + i - n2) with i by lia. rewrite point_eqb_refl. reflexivity. Qed.
  Lemma entry_second j : j < n2 -> e (n1 + j) j = orth (pt D2 j).
  Proof. intros. unfold entry. destruct (Nat.ltb_spec (n1 + j) n1), (Nat.ltb_spec j n2); try lia. replace (n1 + j - n1) with j by lia. rewrite point_eqb_refl. reflexivity. Qed.
  Lemma entry_corner i j : e (n1 + j) (n2 + i) = 0%Z.
  Proof. unfold entry. destruct (Nat.ltb_spec (n1 + j) n1), (Nat.ltb_spec (n2 + i) n2); (lia || reflexivity). Qed.

  Lemma sum_shift (f : nat -> Z) s k : zsum f (seq s k) = zsum (fun j => f (s + j)) (seq 0 k).
  Proof.
    assert (E : seq s k = map (fun j => s + j) (seq 0 k)).
    { revert s. induction k as [|k IH]; intro s; [reflexivity|]. cbn [seq map]. f_equal; [lia|]. rewrite (IH (S s)), <- seq_shift, map_map. apply map_ext. intros. lia. }
    rewrite E, zsum_map. reflexivity.
  Qed.

  Lemma matching_assignment m : partial_matching D1 D2 m -> exists a, assignment (n1 + n2) a /\ assignment_cost e a = matching_cost dist orth D1 D2 m.
  Proof.
    intros (N1 & N2 & Hm). set (h := fun r => if r <? n1 then match by_first m r with Some p => snd p | None => n2 + r end
                     else match by_second m (r - n1) with Some p => n2 + fst p | None => r - n1 end).
    assert (B1 : forall r, r < n1 -> match by_first m r with Some p => In (r, snd p) m /\ snd p < n2 | None => ~ In r (map fst m) end).
    { intros r Hr. destruct (by_first m r) as [p|] eqn:E; [|apply by_first_none, E]. apply by_first_some in E as [E1 E2]. destruct p as [i j]. cbn in *. subst. split; [auto|apply (Hm r j E1)]. }
    assert (B2 : forall j, j < n2 -> match by_second m j with Some p => In (fst p, j) m /\ fst p < n1 | None => ~ In j (map snd m) end).
    { intros j Hj. destruct (by_second m j) as [p|] eqn:E; [|apply by_second_none, E]. apply by_second_some in E as [E1 E2]. destruct p as [i j']. cbn in *. subst. split; [auto|apply (Hm i j E1)]. }
    assert (In1 : forall i j, In (i, j) m -> In i (map fst m)) by (intros i j H; apply in_map_iff; exists (i, j); auto).
    assert (In2 : forall i j, In (i, j) m -> In j (map snd m)) by (intros i j H; apply in_map_iff; exists (i, j); auto).
    assert (Ha : assignment (n1 + n2) (map h (seq 0 (n1 + n2)))).
    { apply perm_of_function.
      - intros r Hr. unfold h. destruct (Nat.ltb_spec r n1) as [L|L].
        + assert (B := B1 r L). destruct (by_first m r); lia.
        + assert (B := B2 (r - n1) ltac:(lia)). destruct (by_second m (r - n1)); lia.
      - intros r r' Hr Hr'. unfold h. destruct (Nat.ltb_spec r n1) as [L|L], (Nat.ltb_spec r' n1) as [L'|L'].
        + assert (B := B1 r L). assert (B' := B1 r' L'). destruct (by_first m r) as [p|], (by_first m r') as [p'|]; intro E; try lia.
          destruct B as [B _], B' as [B' _]. rewrite E in B. assert (Q := NoDup_map_eq snd m _ _ N2 B B' eq_refl). congruence.
        + assert (B := B1 r L). assert (B' := B2 (r' - n1) ltac:(lia)). destruct (by_first m r) as [p|], (by_second m (r' - n1)) as [p'|]; intro E; try lia.
          * exfalso. apply B'. rewrite <- E. destruct B as [B _]. eauto.
          * exfalso. apply B. replace r with (fst p') by lia. destruct B' as [B' _]. eauto.
        + assert (B := B2 (r - n1) ltac:(lia)). assert (B' := B1 r' L'). destruct (by_first m r') as [p|], (by_second m (r - n1)) as [p'|]; intro E; try lia.
          * exfalso. apply B. rewrite E. destruct B' as [B' _]. eauto.
          * exfalso. apply B'. replace r' with (fst p') by lia. destruct B as [B _]. eauto.
        + assert (B := B2 (r - n1) ltac:(lia)). assert (B' := B2 (r' - n1) ltac:(lia)). destruct (by_second m (r - n1)) as [p|], (by_second m (r' - n1)) as [p'|]; intro E; try lia.
          destruct B as [B _], B' as [B' _]. assert (E' : fst p = fst p') by lia. rewrite E' in B. assert (Q := NoDup_map_eq fst m _ _ N1 B B' eq_refl). injection Q as Q. lia. }
    exists (map h (seq 0 (n1 + n2))). split; [exact Ha|]. rewrite cost_nth, map_length, seq_length.
    rewrite (zsum_ext _ (fun r => e r (h r))) by (intros r Hr; apply in_seq in Hr; rewrite map_nth_seq by lia; reflexivity).
    rewrite seq_app, zsum_app. cbn [Nat.add]. unfold matching_cost. f_equal.
    - rewrite (zsum_split (fun i => existsb (Nat.eqb i) (map fst m))). f_equal.
      + rewrite (zsum_perm _ _ _ (perm_filter (map fst m) n1 N1 ltac:(intros i Hi; apply in_map_iff in Hi as ([i' j'] & <- & Hi); apply (Hm i' j' Hi)))).
        rewrite zsum_map. apply zsum_ext. intros [i j] Hp. cbn [fst snd]. destruct (Hm i j Hp) as [Hi Hj]. unfold h. destruct (Nat.ltb_spec i n1); [|lia].
        assert (B := B1 i Hi). destruct (by_first m i) as [p|]; [|exfalso; apply B; eauto]. destruct B as [B B']. assert (Q := NoDup_map_eq fst m _ _ N1 B Hp eq_refl). injection Q as Q. rewrite Q. apply entry_matched; auto.
      + apply zsum_ext. intros i Hi. apply filter_In in Hi as [Hi Hn]. apply in_seq in Hi. apply negb_true_iff in Hn. unfold h. destruct (Nat.ltb_spec i n1); [|lia].
        assert (B := B1 i ltac:(lia)). destruct (by_first m i) as [p|]; [|apply entry_first; lia]. exfalso. destruct B as [B _]. assert (existsb (Nat.eqb i) (map fst m) = true) by (apply existsb_eq; eauto). congruence.
    - rewrite sum_shift. rewrite (zsum_split (fun j => existsb (Nat.eqb j) (map snd m))).
      rewrite (zsum_zero _ (filter (fun j => existsb (Nat.eqb j) (map snd m)) (seq 0 n2))).
      + cbn. apply zsum_ext. intros j Hj. apply filter_In in Hj as [Hj Hn]. apply in_seq in Hj. apply negb_true_iff in Hn. unfold h. destruct (Nat.ltb_spec (n1 + j) n1); [lia|]. replace (n1 + j - n1) with j by lia.
        assert (B := B2 j ltac:(lia)). destruct (by_second m j) as [p|]; [|apply entry_second; lia]. exfalso. destruct B as [B _]. assert (existsb (Nat.eqb j) (map snd m) = true) by (apply existsb_eq; eauto). congruence.
      + intros j Hj. apply filter_In in Hj as [Hj Hn]. apply in_seq in Hj. apply existsb_eq in Hn. unfold h. destruct (Nat.ltb_spec (n1 + j) n1); [lia|]. replace (n1 + j - n1) with j by lia.
        assert (B := B2 j ltac:(lia)). destruct (by_second m j) as [p|]; [|exfalso; exact (B Hn)]. apply entry_corner.
  Qed.

  Hypothesis dist_nonneg : forall p q, In p D1 -> In q D2 -> (0 <= dist p q)%Z.
  Hypothesis orth_nonneg : forall p, In p (D1 ++ D2) -> (0 <= orth p)%Z.
  Hypothesis top_nonneg : (0 <= top)%Z.

  Lemma pt_In D i : i < length D -> In (pt D i) D.
  Proof. intro H. apply nth_In, H. Qed.

  (** the pairs of proper points of an assignment *)
  Definition proper_pairs (a : list nat) : list (nat * nat) := map (fun i => (i, nth i a 0)) (filter (fun i => nth i a 0 <? n2) (seq 0 n1)).

  Lemma assignment_proper a : assignment (n1 + n2) a -> (assignment_cost e a < top)%Z ->
    partial_matching D1 D2 (proper_pairs a) /\ matching_cost dist orth D1 D2 (proper_pairs a) = assignment_cost e a.
  Proof.
    intros Ha Ht. assert (La : length a = n1 + n2) by (rewrite (Permutation_length Ha), seq_length; reflexivity). assert (Na : NoDup a) by (apply (Permutation_NoDup (Permutation_sym Ha)), seq_NoDup).
    set (g := fun r => nth r a 0). assert (Hg : forall r, r < n1 + n2 -> g r < n1 + n2).
    { intros r Hr. assert (H : In (g r) a) by (apply nth_In; lia). apply (Permutation_in _ Ha) in H. apply in_seq in H. lia. }
    assert (Gi : forall r r', r < n1 + n2 -> r' < n1 + n2 -> g r = g r' -> r = r') by (intros r r' Hr Hr' E; apply (proj1 (NoDup_nth a 0) Na); auto; lia).
    assert (Gs : forall c, c < n1 + n2 -> exists r, r < n1 + n2 /\ g r = c).
    { intros c Hc. assert (H : In c a) by (apply (Permutation_in _ (Permutation_sym Ha)), in_seq; lia). destruct (In_nth a c 0 H) as (r & Hr & E). exists r. split; [lia|exact E]. }
    assert (Ec : assignment_cost e a = zsum (fun r => e r (g r)) (seq 0 (n1 + n2))) by (rewrite cost_nth, La; reflexivity).
    assert (Hnn : forall r, In r (seq 0 (n1 + n2)) -> (0 <= e r (g r))%Z).
    { intros r Hr. apply in_seq in Hr. assert (G := Hg r ltac:(lia)). unfold entry. destruct (Nat.ltb_spec r n1), (Nat.ltb_spec (g r) n2); try lia.
      - apply dist_nonneg; apply pt_In; lia.
      - destruct (point_eqb _ _); [|lia]. apply orth_nonneg, in_app_iff. left. apply pt_In. lia.
      - destruct (point_eqb _ _); [|lia]. apply orth_nonneg, in_app_iff. right. apply pt_In. lia. }
    assert (Hlt : forall r, r < n1 + n2 -> (e r (g r) < top)%Z).
    { intros r Hr. assert (Q := zsum_elem (fun r => e r (g r)) (seq 0 (n1 + n2)) r Hnn ltac:(apply in_seq; lia)). cbv beta in Q. lia. }
    set (b := fun r => g r <? n2).
    assert (E1 : forall r, r < n1 -> b r = true -> e r (g r) = dist (pt D1 r) (pt D2 (g r))).
    { intros r Hr Hb. unfold b in Hb. apply Nat.ltb_lt in Hb. apply entry_matched; auto. }
    assert (E2 : forall r, r < n1 -> b r = false -> e r (g r) = orth (pt D1 r)).
    { intros r Hr Hb. unfold b in Hb. apply Nat.ltb_ge in Hb. assert (Q := Hlt r ltac:(lia)). unfold entry in *. destruct (Nat.ltb_spec r n1), (Nat.ltb_spec (g r) n2); try lia.
      destruct (point_eqb _ _) eqn:E; [|lia]. apply point_eqb_eq in E. rewrite E. reflexivity. }
    assert (E3 : forall r, n1 <= r < n1 + n2 -> b r = true -> e r (g r) = orth (pt D2 (g r))).
    { intros r Hr Hb. unfold b in Hb. apply Nat.ltb_lt in Hb. assert (Q := Hlt r ltac:(lia)). unfold entry in *. destruct (Nat.ltb_spec r n1), (Nat.ltb_spec (g r) n2); try lia.
      destruct (point_eqb _ _) eqn:E; [|lia]. apply point_eqb_eq in E. rewrite E. reflexivity. }
    assert (E4 : forall r, n1 <= r -> b r = false -> e r (g r) = 0%Z).
    { intros r Hr Hb. unfold b in Hb. apply Nat.ltb_ge in Hb. unfold entry. destruct (Nat.ltb_spec r n1), (Nat.ltb_spec (g r) n2); (lia || reflexivity). }
    set (m := map (fun i => (i, g i)) (filter b (seq 0 n1))).
    assert (M1 : map fst m = filter b (seq 0 n1)) by (unfold m; rewrite map_map; cbn [fst]; apply map_id).
    assert (M2 : map snd m = map g (filter b (seq 0 n1))) by (unfold m; rewrite map_map; reflexivity).
    change (proper_pairs a) with m. split.
    - refine (conj _ (conj _ _)).
      + rewrite M1. apply NoDup_filter, seq_NoDup.
      + rewrite M2. apply NoDup_map_inj; [|apply NoDup_filter, seq_NoDup]. intros x y Hx Hy. apply filter_In in Hx as [Hx _]. apply filter_In in Hy as [Hy _]. apply in_seq in Hx. apply in_seq in Hy. apply Gi; lia.
      + intros i j Hij. unfold m in Hij. apply in_map_iff in Hij as (i' & [= <- <-] & Hi). apply filter_In in Hi as [Hi Hb]. apply in_seq in Hi. unfold b in Hb. apply Nat.ltb_lt in Hb. split; [lia|exact Hb].
    - rewrite Ec, seq_app, zsum_app. cbn [Nat.add]. unfold matching_cost. f_equal.
      + rewrite (zsum_split b (fun r => e r (g r)) (seq 0 n1)). f_equal.
        * unfold m. change (@sum) with (@zsum). rewrite zsum_map. apply zsum_ext. intros r Hr. apply filter_In in Hr as [Hr Hb]. apply in_seq in Hr. cbn [fst snd]. symmetry. apply E1; [lia|exact Hb].
        * rewrite M1. unfold unmatched. rewrite (filter_ext_in _ (fun i => negb (b i))).
          -- apply zsum_ext. intros r Hr. apply filter_In in Hr as [Hr Hb]. apply in_seq in Hr. symmetry. apply E2; [lia|]. apply negb_true_iff, Hb.
          -- intros i Hi. f_equal. apply eq_true_iff_eq. rewrite existsb_eq, filter_In. tauto.
      + rewrite (zsum_split b (fun r => e r (g r)) (seq n1 n2)). rewrite (zsum_zero _ (filter (fun x => negb (b x)) (seq n1 n2))) by (intros r Hr; apply filter_In in Hr as [Hr Hb]; apply in_seq in Hr; apply E4; [lia|apply negb_true_iff, Hb]).
        rewrite Z.add_0_r. transitivity (zsum (fun j => orth (pt D2 j)) (map g (filter b (seq n1 n2)))).
        * apply zsum_perm. apply NoDup_Permutation.
          -- apply NoDup_filter, seq_NoDup.
          -- apply NoDup_map_inj; [|apply NoDup_filter, seq_NoDup]. intros x y Hx Hy. apply filter_In in Hx as [Hx _]. apply filter_In in Hy as [Hy _]. apply in_seq in Hx. apply in_seq in Hy. apply Gi; lia.
          -- intro j. unfold unmatched. rewrite filter_In, in_seq, negb_true_iff, in_map_iff. split.
             ++ intros [Hj Hn]. destruct (Gs j ltac:(lia)) as (r & Hr & Er). exists r. split; [exact Er|]. apply filter_In.
                assert (Hb : b r = true) by (unfold b; apply Nat.ltb_lt; lia). split; [|exact Hb]. apply in_seq. destruct (Nat.lt_ge_cases r n1) as [L|L]; [|lia]. exfalso.
                assert (existsb (Nat.eqb j) (map snd m) = true); [|congruence]. apply existsb_eq. rewrite M2. apply in_map_iff. exists r. split; [exact Er|]. apply filter_In. split; [apply in_seq; lia|exact Hb].
             ++ intros (r & Er & Hr). apply filter_In in Hr as [Hr Hb]. apply in_seq in Hr. unfold b in Hb. apply Nat.ltb_lt in Hb. split; [lia|]. destruct (existsb (Nat.eqb j) (map snd m)) eqn:E; [|reflexivity]. exfalso.
                apply existsb_eq in E. rewrite M2 in E. apply in_map_iff in E as (r' & Er' & Hr'). apply filter_In in Hr' as [Hr' _]. apply in_seq in Hr'. assert (r = r') by (apply Gi; [lia|lia|congruence]). lia.
        * rewrite zsum_map. apply zsum_ext. intros r Hr. apply filter_In in Hr as [Hr Hb]. apply in_seq in Hr. symmetry. apply E3; [lia|exact Hb].
  Qed.

  Lemma assignment_matching a : assignment (n1 + n2) a -> (assignment_cost e a < top)%Z ->
    exists m, partial_matching D1 D2 m /\ matching_cost dist orth D1 D2 m = assignment_cost e a.
  Proof. intros Ha Ht. exists (proper_pairs a). apply assignment_proper; assumption. Qed.
End Correspondence.

Lemma total_cost_eq top n M C : total_costs n M C = munkres_cost top n M C n.
Proof.
  unfold total_costs, munkres_cost. rewrite Nat.eqb_refl. rewrite <- fold_flat. apply fold_ext. intros t row. rewrite <- fold_flat. apply fold_ext. intros t' col.
  destruct (M row col =? 0)%Z; reflexivity.
Qed.

Lemma optimal_ext n C C' a : (forall r c, r < n -> c < n -> C r c = C' r c) -> optimal n C a -> optimal n C' a /\ assignment_cost C a = assignment_cost C' a.
Proof.
  intros H [Ha Ho]. assert (G : forall b, assignment n b -> assignment_cost C b = assignment_cost C' b).
  { intros b Hb. rewrite !cost_nth. apply zsum_ext. intros r Hr. assert (L := assignment_length n b Hb). apply in_seq in Hr. apply H; [lia|].
    assert (I : In (nth r b 0) b) by (apply nth_In; lia). apply (Permutation_in _ Hb) in I. apply in_seq in I. lia. }
  split; [split; [exact Ha|]|apply G, Ha]. intros b Hb. rewrite <- !G by auto. apply Ho, Hb.
Qed.

Lemma empty_matching D1 D2 : partial_matching D1 D2 [].
Proof. refine (conj (NoDup_nil _) (conj (NoDup_nil _) _)). intros i j []. Qed.

Lemma sum_points (f : point -> Z) D : zsum (fun i => f (pt D i)) (seq 0 (length D)) = sum f D.
Proof.
  unfold pt. induction D as [|p D IH]; [reflexivity|]. cbn [length seq]. rewrite <- seq_shift. cbn [zsum fold_right sum nth]. f_equal.
  change (zsum (fun i => f (nth i (p :: D) (0%Z, 0%Z))) (map S (seq 0 (length D))) = sum f D). rewrite zsum_map. exact IH.
Qed.

Lemma filter_true {A} (l : list A) : filter (fun _ => true) l = l.
Proof. induction l; cbn; congruence. Qed.
Lemma empty_cost d o D1 D2 : matching_cost d o D1 D2 [] = (sum o D1 + sum o D2)%Z.
Proof. unfold matching_cost, unmatched. cbn [map existsb negb]. rewrite !filter_true. change (@sum nat) with (@zsum nat). rewrite !sum_points. reflexivity. Qed.

(** ** the theorems *)
(** The distance is the (root of the) smallest cost of a partial matching, for all
    non-negative distances that stay below [max()]. *)
Theorem C35_optimal : forall top dist orth root D1 D2,
  dgm_dim D1 = dgm_dim D2 ->
  (forall p q, In p (points D1) -> In q (points D2) -> (0 <= dist p q)%Z) ->
  (forall p, In p (points D1 ++ points D2) -> (0 <= orth p)%Z) ->
  (sum orth (points D1) + sum orth (points D2) < top)%Z ->
  exists v fuel0, smallest_cost dist orth (points D1) (points D2) v /\
    forall fuel, fuel0 <= fuel -> wassersteinDistance top dist orth root fuel D1 D2 = Ok (root v).
Proof.
  intros top dist orth root [k1 P1] [k2 P2] Hd Hdist Horth Htop. cbn [dgm_dim points] in *. subst k2.
  assert (H0 : forall D, (forall p, In p D -> (0 <= orth p)%Z) -> (0 <= sum orth D)%Z) by (intros D; apply (zsum_nonneg orth D)).
  assert (A1 : (0 <= sum orth P1)%Z) by (apply H0; intros; apply Horth, in_app_iff; auto). assert (A2 : (0 <= sum orth P2)%Z) by (apply H0; intros; apply Horth, in_app_iff; auto).
  destruct (C34_optimal top (length P1 + length P2) (wasserstein_costs top dist orth P1 P2) ltac:(lia)) as (a & fuel0 & Ho & Hf).
  destruct (optimal_ext _ _ (entry top dist orth P1 P2) a (costs_entry top dist orth P1 P2) Ho) as [[Ha Ho'] Ec].
  exists (assignment_cost (entry top dist orth P1 P2) a), fuel0. split.
  - split.
    + apply assignment_matching; auto; [lia|]. destruct (matching_assignment top dist orth P1 P2 [] (empty_matching P1 P2)) as (b & Hb & Eb). specialize (Ho' b Hb). rewrite Eb, empty_cost in Ho'. lia.
    + intros m Hm. destruct (matching_assignment top dist orth P1 P2 m Hm) as (b & Hb & Eb). rewrite <- Eb. apply Ho', Hb.
  - intros fuel Hfuel. destruct (Hf fuel Hfuel) as (M & HM & _ & Hc). unfold wassersteinDistance. cbn [dgm_dim points]. rewrite Nat.eqb_refl. cbn [negb]. rewrite HM. cbn [bind]. rewrite (total_cost_eq top), Hc, Ec. reflexivity.
Qed.

(** Diagrams of different dimension are rejected. *)
Theorem C35_dimension : forall top dist orth root D1 D2 fuel, dgm_dim D1 <> dgm_dim D2 ->
  wassersteinDistance top dist orth root fuel D1 D2 = Throw RuntimeError.
Proof. intros. unfold wassersteinDistance. destruct (Nat.eqb_spec (dgm_dim D1) (dgm_dim D2)); [contradiction|reflexivity]. Qed.

Lemma smallest_unique d o D1 D2 v v' : smallest_cost d o D1 D2 v -> smallest_cost d o D1 D2 v' -> v = v'.
Proof. intros [(m & Hm & <-) H] [(m' & Hm' & <-) H']. specialize (H m' Hm'). specialize (H' m Hm). lia. Qed.

Definition swap (m : list (nat * nat)) : list (nat * nat) := map (fun p => (snd p, fst p)) m.
Lemma swap_fst m : map fst (swap m) = map snd m. Proof. unfold swap. rewrite map_map. reflexivity. Qed.
Lemma swap_snd m : map snd (swap m) = map fst m. Proof. unfold swap. rewrite map_map. reflexivity. Qed.
Lemma swap_swap m : swap (swap m) = m. Proof. unfold swap. rewrite map_map. rewrite <- (map_id m) at 2. apply map_ext. intros []. reflexivity. Qed.
Lemma swap_matching D1 D2 m : partial_matching D1 D2 m -> partial_matching D2 D1 (swap m).
Proof.
  intros (H1 & H2 & H3). refine (conj _ (conj _ _)); [rewrite swap_fst; auto|rewrite swap_snd; auto|]. intros i j H. unfold swap in H. apply in_map_iff in H as ([a b] & [= <- <-] & H). destruct (H3 a b H). auto.
Qed.
Lemma swap_cost d o D1 D2 m : (forall p q, d p q = d q p) -> matching_cost d o D2 D1 (swap m) = matching_cost d o D1 D2 m.
Proof.
  intro Hs. unfold matching_cost. rewrite swap_fst, swap_snd. assert (E : sum (fun p => d (pt D2 (fst p)) (pt D1 (snd p))) (swap m) = sum (fun p => d (pt D1 (fst p)) (pt D2 (snd p))) m); [|lia].
  change (@sum (nat * nat)) with (@zsum (nat * nat)). unfold swap. rewrite zsum_map. apply zsum_ext. intros [i j] _. apply Hs.
Qed.
Lemma swap_smallest d o D1 D2 v : (forall p q, d p q = d q p) -> smallest_cost d o D1 D2 v -> smallest_cost d o D2 D1 v.
Proof.
  intros Hs [(m & Hm & Em) H]. split.
  - exists (swap m). split; [apply swap_matching, Hm|]. rewrite swap_cost; auto.
  - intros m' Hm'. rewrite <- (swap_cost d o D2 D1 m' Hs). apply H, swap_matching, Hm'.
Qed.

(** It is symmetric if the distance of points is. *)
Theorem C35_symmetric : forall top dist orth root D1 D2,
  (forall p q, dist p q = dist q p) ->
  dgm_dim D1 = dgm_dim D2 ->
  (forall p q, In p (points D1) -> In q (points D2) -> (0 <= dist p q)%Z) ->
  (forall p, In p (points D1 ++ points D2) -> (0 <= orth p)%Z) ->
  (sum orth (points D1) + sum orth (points D2) < top)%Z ->
  exists w fuel0, forall fuel, fuel0 <= fuel ->
    wassersteinDistance top dist orth root fuel D1 D2 = Ok w /\ wassersteinDistance top dist orth root fuel D2 D1 = Ok w.
Proof.
  intros top dist orth root D1 D2 Hs Hd H1 H2 Ht.
  destruct (C35_optimal top dist orth root D1 D2 Hd H1 H2 Ht) as (v & f & Hv & Hf).
  destruct (C35_optimal top dist orth root D2 D1 (eq_sym Hd)) as (v' & f' & Hv' & Hf').
  - intros p q Hp Hq. rewrite Hs. auto.
  - intros p Hp. apply H2. apply in_app_iff in Hp. apply in_app_iff. tauto.
  - lia.
  - apply (swap_smallest dist orth) in Hv'; [|exact Hs]. assert (v = v') by (eapply smallest_unique; eauto). subst v'.
    exists (root v), (Nat.max f f'). intros fuel Hfuel. split; [apply Hf; lia|apply Hf'; lia].
Qed.

(** The distance of a diagram to itself is zero. *)
Theorem C35_zero : forall top dist orth root D,
  (forall p, In p (points D) -> dist p p = 0%Z) -> root 0%Z = 0%Z ->
  (forall p q, In p (points D) -> In q (points D) -> (0 <= dist p q)%Z) ->
  (forall p, In p (points D) -> (0 <= orth p)%Z) ->
  (2 * sum orth (points D) < top)%Z ->
  exists fuel0, forall fuel, fuel0 <= fuel -> wassersteinDistance top dist orth root fuel D D = Ok 0%Z.
Proof.
  intros top dist orth root D Hz Hr H1 H2 Ht.
  destruct (C35_optimal top dist orth root D D eq_refl H1) as (v & f & Hv & Hf).
  - intros p Hp. apply H2. apply in_app_iff in Hp. tauto.
  - lia.
  - assert (v = 0%Z); [|subst v; exists f; intros fuel Hfuel; rewrite (Hf fuel Hfuel), Hr; reflexivity].
    destruct Hv as [(m & Hm & <-) Hmin]. set (P := points D) in *.
    assert (Hid : partial_matching P P (map (fun i => (i, i)) (seq 0 (length P)))).
    { refine (conj _ (conj _ _)); [rewrite map_map, map_id; apply seq_NoDup|rewrite map_map, map_id; apply seq_NoDup|]. intros i j Hij. apply in_map_iff in Hij as (x & [= <- <-] & Hx). apply in_seq in Hx. lia. }
    assert (Eid : matching_cost dist orth P P (map (fun i => (i, i)) (seq 0 (length P))) = 0%Z).
    { unfold matching_cost. change (@sum) with (@zsum). rewrite zsum_zero; [|intros p Hp; apply in_map_iff in Hp as (x & <- & Hx); apply in_seq in Hx; apply Hz; cbn [fst snd]; apply pt_In; lia].
      assert (U : unmatched P (seq 0 (length P)) = []).
      { unfold unmatched. destruct (filter _ _) as [|i l] eqn:E; [reflexivity|]. assert (Hi : In i (i :: l)) by (left; reflexivity). rewrite <- E in Hi. apply filter_In in Hi as [Hi Hn].
        apply negb_true_iff in Hn. apply existsb_eq in Hi. congruence. }
      rewrite !map_map. cbn [fst snd]. rewrite map_id, U. reflexivity. }
    specialize (Hmin _ Hid). rewrite Eid in Hmin. assert (0 <= matching_cost dist orth P P m)%Z; [|lia].
    unfold matching_cost. change (@sum) with (@zsum). destruct Hm as (_ & _ & Hm).
    assert (0 <= zsum (fun p => dist (pt P (fst p)) (pt P (snd p))) m)%Z by (apply zsum_nonneg; intros [i j] Hij; destruct (Hm i j Hij); apply H1; apply pt_In; auto).
    assert (U : forall used, (0 <= zsum (fun i => orth (pt P i)) (unmatched P used))%Z).
    { intro used. apply zsum_nonneg. intros i Hi. unfold unmatched in Hi. apply filter_In in Hi as [Hi _]. apply in_seq in Hi. apply H2, pt_In. lia. }
    assert (U1 := U (map fst m)). assert (U2 := U (map snd m)). lia.
Qed.

(** ** beyond the hypotheses *)
(** For integral data types and [power >= 2] the exponent [1 / power] is an integral
    division with result 0 and [std::pow( x, 0 )] is 1 (Wasserstein.hh 133), also for
    equal diagrams. *)
Definition integral_root (power : Z) (x : Z) : Z := (x ^ (1 / power))%Z.
Theorem C35_integer_power_refuted : exists D power, (2 <= power)%Z /\
  wassersteinDistance 1000 (fun p q => (infinityDistance p q ^ power)%Z)
    (fun p => (orthogonalDistance (fun x => Z.quot x 2) infinityDistance p ^ power)%Z) (integral_root power) 20 D D = Ok 1%Z.
Proof. exists (Diagram 0 [(0, 2)%Z]), 2%Z. split; [lia|vm_compute; reflexivity]. Qed.

(** ** a concrete case *)
Definition w_D1 := Diagram 1 [(0, 10)%Z; (2, 4)%Z].
Definition w_D2 := Diagram 1 [(1, 12)%Z].
Example C35_example :
  wassersteinDistance 1000 infinityDistance (orthogonalDistance (fun x => Z.quot x 2) infinityDistance) (fun x => x) 20 w_D1 w_D2 = Ok 3%Z
  /\ matching_cost infinityDistance (orthogonalDistance (fun x => Z.quot x 2) infinityDistance) (points w_D1) (points w_D2) [(0, 0)] = 3%Z
  /\ partial_matching (points w_D1) (points w_D2) [(0, 0)]
  /\ (sum (orthogonalDistance (fun x => Z.quot x 2) infinityDistance) (points w_D1 ++ points w_D2) < 1000)%Z.
Proof.
  refine (conj _ (conj _ (conj _ _))); [vm_compute; reflexivity|vm_compute; reflexivity| |vm_compute; reflexivity].
  refine (conj _ (conj _ _)); [repeat constructor; auto|repeat constructor; auto|]. intros i j [[= <- <-]|[]]. cbn. lia.
Qed.

Print Assumptions C35_optimal.
Print Assumptions C35_dimension.
Print Assumptions C35_symmetric.
Print Assumptions C35_zero.
Print Assumptions C35_integer_power_refuted.
