(** * C77: optimal pairings and the mean of persistence diagrams *)

From Coq Require Import List Arith Bool ZArith Lia Permutation.
From Verif Require Import Base BaseFacts Diagram Hausdorff PropertiesHausdorff Munkres MunkresFacts PropertiesMunkres Wasserstein PropertiesWasserstein Mean.
Import ListNotations.

Lemma fold_cells (P : nat -> nat -> bool) (C : nat -> nat -> Z) n rows : forall acc s,
  let r := fold_left (fun acc row => fold_left (fun (acc : list (nat * nat) * (Z * Z)) col =>
      if P row col then (fst acc ++ [(row, col)], kahan_add (snd acc) (C row col)) else acc) (indices n) acc) rows (acc, (s, 0%Z)) in
  fst r = acc ++ flat_map (fun row => flat_map (fun col => if P row col then [(row, col)] else []) (indices n)) rows /\
  snd r = (fold_left (fun t row => fold_left (fun t col => if P row col then (t + C row col)%Z else t) (indices n) t) rows s, 0%Z).
Proof.
  assert (I : forall row cols acc s,
    let r := fold_left (fun (acc : list (nat * nat) * (Z * Z)) col =>
      if P row col then (fst acc ++ [(row, col)], kahan_add (snd acc) (C row col)) else acc) cols (acc, (s, 0%Z)) in
    fst r = acc ++ flat_map (fun col => if P row col then [(row, col)] else []) cols /\
    snd r = (fold_left (fun t col => if P row col then (t + C row col)%Z else t) cols s, 0%Z)).
  { intros row cols. induction cols as [|c cols IH]; intros acc s; cbn [fold_left flat_map]; [rewrite app_nil_r; split; reflexivity|].
    destruct (P row c).
    - cbn [fst snd]. unfold kahan_add at 2 4. cbn [fst snd]. replace (s + (C row c - 0) - s - (C row c - 0))%Z with 0%Z by lia.
      replace (s + (C row c - 0))%Z with (s + C row c)%Z by lia. destruct (IH (acc ++ [(row, c)]) (s + C row c)%Z) as [A B]. cbv zeta in *.
      rewrite A, B, <- app_assoc. split; reflexivity.
    - apply IH. }
  induction rows as [|row rows IH]; intros acc s; cbn [fold_left flat_map]; [cbv zeta; rewrite app_nil_r; split; reflexivity|].
  destruct (I row (indices n) acc s) as [A B]. cbv zeta in A, B.
  set (r := fold_left _ (indices n) (acc, (s, 0%Z))) in *. destruct r as [acc' st]. cbn [fst snd] in A, B. subst acc' st.
  destruct (IH (acc ++ flat_map (fun col => if P row col then [(row, col)] else []) (indices n)) (fold_left (fun t col => if P row col then (t + C row col)%Z else t) (indices n) s)) as [A B].
  cbv zeta in *. rewrite A, B, <- app_assoc. split; reflexivity.
Qed.

Lemma pairing_of_spec n M C : pairing_of n M C = Pairing (total_costs n M C) (matching n M).
Proof.
  unfold pairing_of. destruct (fold_cells (fun row col => (M row col =? 0)%Z) C n (indices n) [] 0%Z) as [A B]. cbv zeta in *.
  rewrite A, B. reflexivity.
Qed.

Section Pairing.
  Variables (top : Z) (dist : point -> point -> Z) (orth : point -> Z).
  Notation e := (entry top dist orth).

  (** whatever the entries, the solver finds an optimal assignment *)
  Lemma pairing_total D1 D2 : (0 < top)%Z -> dgm_dim D1 = dgm_dim D2 -> exists a fuel0,
    optimal (length (points D1) + length (points D2)) (e (points D1) (points D2)) a /\
    forall fuel, fuel0 <= fuel -> optimalPairing top dist orth fuel D1 D2 =
      Ok (Pairing (assignment_cost (e (points D1) (points D2)) a) (combine (seq 0 (length (points D1) + length (points D2))) a)).
  Proof.
    intros Ht Hd. destruct D1 as [k1 P1], D2 as [k2 P2]. cbn [dgm_dim points] in *. subst k2.
    destruct (C34_optimal top (length P1 + length P2) (wasserstein_costs top dist orth P1 P2) Ht) as (a & fuel0 & Ho & Hf).
    destruct (optimal_ext _ _ (e P1 P2) a (costs_entry top dist orth P1 P2) Ho) as [Ho' Ec].
    exists a, fuel0. split; [exact Ho'|]. intros fuel Hfuel. destruct (Hf fuel Hfuel) as (M & HM & Hm & Hc).
    unfold optimalPairing. cbn [dgm_dim points]. rewrite Nat.eqb_refl. cbn [negb]. rewrite HM. cbn [bind].
    rewrite pairing_of_spec, (total_cost_eq top), Hc, Ec, Hm. reflexivity.
  Qed.
End Pairing.

Lemma combine_seq_filter n1 n2 k a : length a = k -> n1 <= k ->
  filter (fun ij => (fst ij <? n1) && (snd ij <? n2)) (combine (seq 0 k) a)
  = map (fun i => (i, nth i a 0)) (filter (fun i => nth i a 0 <? n2) (seq 0 n1)).
Proof.
  intros L Hk. assert (E : combine (seq 0 k) a = map (fun i => (i, nth i a 0)) (seq 0 k)).
  { subst k. clear. assert (G : forall s, combine (seq s (length a)) a = map (fun i => (i, nth (i - s) a 0)) (seq s (length a))).
    { induction a as [|x a IH]; intro s; [reflexivity|]. cbn [length seq combine map]. rewrite IH. rewrite Nat.sub_diag. cbn [nth]. f_equal.
      apply map_ext_in. intros i Hi. apply in_seq in Hi. replace (i - s) with (S (i - S s)) by lia. reflexivity. }
    rewrite G. apply map_ext. intro i. rewrite Nat.sub_0_r. reflexivity. }
  rewrite E. replace k with (n1 + (k - n1)) by lia. rewrite seq_app, map_app, filter_app.
  assert (N : filter (fun ij => (fst ij <? n1) && (snd ij <? n2)) (map (fun i => (i, nth i a 0)) (seq (0 + n1) (k - n1))) = []).
  { generalize (k - n1). intro m. assert (G : forall l, (forall i, In i l -> n1 <= i) -> filter (fun ij => (fst ij <? n1) && (snd ij <? n2)) (map (fun i => (i, nth i a 0)) l) = []).
    { induction l as [|i l IH]; intro H; [reflexivity|]. cbn [map filter fst]. destruct (Nat.ltb_spec i n1); [specialize (H i (or_introl eq_refl)); lia|].
      cbn [andb]. apply IH. intros; apply H; right; auto. }
    apply G. intros i Hi. apply in_seq in Hi. lia. }
  rewrite N, app_nil_r. assert (G : forall l, (forall i, In i l -> i < n1) -> filter (fun ij => (fst ij <? n1) && (snd ij <? n2)) (map (fun i => (i, nth i a 0)) l)
     = map (fun i => (i, nth i a 0)) (filter (fun i => nth i a 0 <? n2) l)).
  { induction l as [|i l IH]; intro H; [reflexivity|]. cbn [map filter fst snd]. destruct (Nat.ltb_spec i n1); [|specialize (H i (or_introl eq_refl)); lia].
    cbn [andb]. rewrite IH by (intros; apply H; right; auto). destruct (nth i a 0 <? n2); reflexivity. }
  apply G. intros i Hi. apply in_seq in Hi. lia.
Qed.

(** [optimalPairing] lists one pair for every point of the first diagram, in
    order (followed by the diagonal).  The pairs of proper points are a matching
    of smallest cost, and the cost is reported. *)
Theorem C77_pairing : forall top dist orth D1 D2,
  dgm_dim D1 = dgm_dim D2 ->
  (forall p q, In p (points D1) -> In q (points D2) -> (0 <= dist p q)%Z) ->
  (forall p, In p (points D1 ++ points D2) -> (0 <= orth p)%Z) ->
  (sum orth (points D1) + sum orth (points D2) < top)%Z ->
  exists p fuel0,
    smallest_cost dist orth (points D1) (points D2) (p_cost p) /\
    map fst (p_pairs p) = seq 0 (length (points D1) + length (points D2)) /\
    Permutation (map snd (p_pairs p)) (seq 0 (length (points D1) + length (points D2))) /\
    (let m := filter (fun ij => (fst ij <? length (points D1)) && (snd ij <? length (points D2))) (p_pairs p) in
     partial_matching (points D1) (points D2) m /\ matching_cost dist orth (points D1) (points D2) m = p_cost p) /\
    forall fuel, fuel0 <= fuel -> optimalPairing top dist orth fuel D1 D2 = Ok p.
Proof.
  intros top dist orth D1 D2 Hd Hdist Horth Htop.
  assert (H0 : forall D, (forall p, In p D -> (0 <= orth p)%Z) -> (0 <= sum orth D)%Z) by (intros D; apply (zsum_nonneg orth D)).
  assert (A1 : (0 <= sum orth (points D1))%Z) by (apply H0; intros; apply Horth, in_app_iff; auto).
  assert (A2 : (0 <= sum orth (points D2))%Z) by (apply H0; intros; apply Horth, in_app_iff; auto).
  destruct (pairing_total top dist orth D1 D2 ltac:(lia) Hd) as (a & fuel0 & [Ha Ho] & Hf). set (P1 := points D1) in *. set (P2 := points D2) in *.
  eexists (Pairing _ _), fuel0. cbn [p_cost p_pairs]. assert (La := assignment_length _ a Ha).
  assert (Lt : (assignment_cost (entry top dist orth P1 P2) a < top)%Z).
  { destruct (matching_assignment top dist orth P1 P2 [] (empty_matching P1 P2)) as (b & Hb & Eb). specialize (Ho b Hb). rewrite Eb, empty_cost in Ho. lia. }
  assert (HP := assignment_proper top dist orth P1 P2 Hdist Horth ltac:(lia) a Ha Lt).
  refine (conj _ (conj _ (conj _ (conj _ Hf)))).
  - split; [eexists; exact HP|]. intros m Hm. destruct (matching_assignment top dist orth P1 P2 m Hm) as (b & Hb & Eb). rewrite <- Eb. apply Ho, Hb.
  - apply combine_fst. rewrite seq_length. auto.
  - rewrite combine_snd by (rewrite seq_length; auto). exact Ha.
  - cbv zeta. rewrite (combine_seq_filter (length P1) (length P2) _ a La) by lia. exact HP.
Qed.

Theorem C77_pairing_dimension : forall top dist orth fuel D1 D2, dgm_dim D1 <> dgm_dim D2 -> optimalPairing top dist orth fuel D1 D2 = Throw RuntimeError.
Proof. intros. unfold optimalPairing. destruct (Nat.eqb_spec (dgm_dim D1) (dgm_dim D2)); [contradiction|reflexivity]. Qed.

Theorem C77_empty : forall top dist orth half div fuel rounds choice, mean top dist orth half div fuel rounds choice [] = Throw OutOfRange.
Proof. intros. unfold mean. destruct choice; reflexivity. Qed.

(** ** one round *)
(** what a diagram contributes to the coordinates of point [p] of the estimate:
    its partner, or the projection of [p] to the diagonal *)
Definition contribution (half : Z -> Z) (p : point) (i : nat) (D : diagram) (pr : pairing) : point :=
  let j := nth i (map snd (p_pairs pr)) 0 in
  if j <? length (points D) then pt (points D) j else (half (fst p + snd p)%Z, half (fst p + snd p)%Z).

Lemma kahan_one x v : kahan_add (x, 0%Z) v = ((x + v)%Z, 0%Z).
Proof. unfold kahan_add. cbn [fst snd]. f_equal; lia. Qed.
Lemma F2_length {A B} (R : A -> B -> Prop) l m : Forall2 R l m -> length l = length m.
Proof. induction 1; cbn; congruence. Qed.
Lemma F2_impl {A B} (R S : A -> B -> Prop) l m : (forall a b, R a b -> S a b) -> Forall2 R l m -> Forall2 S l m.
Proof. intros H. induction 1; constructor; auto. Qed.

Lemma partners_spec half p i ps : forall ds, Forall2 (fun _ pr => i < length (p_pairs pr)) ds ps ->
  forall pre x y num, exists x' y' num', 
    foldM (fun (st : (Z * Z) * (Z * Z) * nat * nat) pr =>
      let '(x0, y0, num, index) := st in
      let* D := get_ (pre ++ ds) index in
      let* ij := at_ (p_pairs pr) i in
      if snd ij <? length (points D) then
        let* q := get_ (points D) (snd ij) in
        Ok (kahan_add x0 (fst q), kahan_add y0 (snd q), num + 1, index + 1)
      else Ok (x0, y0, num, index + 1)) ps ((x, 0%Z), (y, 0%Z), num, length pre)
    = Ok ((x', 0%Z), (y', 0%Z), num', length pre + length ps) /\ num <= num' <= num + length ds /\
    (x' + Z.of_nat (num + length ds - num') * half (fst p + snd p) = x + sum (fun Dp => fst (contribution half p i (fst Dp) (snd Dp))) (combine ds ps))%Z /\
    (y' + Z.of_nat (num + length ds - num') * half (fst p + snd p) = y + sum (fun Dp => snd (contribution half p i (fst Dp) (snd Dp))) (combine ds ps))%Z.
Proof.
  induction ps as [|pr ps IH]; intros ds HF pre x y num; inversion HF as [|D pr' ds' ps' Hi HF']; subst; cbn [foldM].
  - exists x, y, num. rewrite Nat.add_0_r. cbn [combine length sum fold_right]. rewrite Nat.add_0_r, Nat.sub_diag. repeat split; lia.
  - assert (G : get_ (pre ++ D :: ds') (length pre) = Ok D) by (unfold get_; rewrite nth_error_app2, Nat.sub_diag by lia; reflexivity).
    rewrite G. cbn [bind]. set (j := nth i (map snd (p_pairs pr)) 0).
    assert (E : exists ij, at_ (p_pairs pr) i = Ok ij /\ snd ij = j).
    { unfold at_. destruct (nth_error (p_pairs pr) i) as [ij|] eqn:E; [|apply nth_error_None in E; lia]. exists ij. split; [reflexivity|].
      unfold j. symmetry. apply nth_error_nth. rewrite nth_error_map, E. reflexivity. }
    destruct E as (ij & E1 & E2). rewrite E1. cbn [bind]. rewrite E2.
    specialize (IH ds' HF' (pre ++ [D])). rewrite app_length in IH. cbn [length] in IH.
    replace ((pre ++ [D]) ++ ds') with (pre ++ D :: ds') in IH by (rewrite <- app_assoc; reflexivity).
    cbn [combine length sum fold_right fst snd]. unfold contribution at 1 3. cbv zeta. fold j.
    destruct (Nat.ltb_spec j (length (points D))) as [L|L].
    + assert (Gj : get_ (points D) j = Ok (pt (points D) j)).
      { unfold get_, pt. destruct (nth_error (points D) j) as [q|] eqn:Eq; [|apply nth_error_None in Eq; lia]. f_equal. symmetry. apply nth_error_nth. exact Eq. }
      rewrite Gj. cbn [bind]. set (q := pt (points D) j) in *. rewrite !kahan_one.
      destruct (IH (x + fst q)%Z (y + snd q)%Z (num + 1)) as (x' & y' & num' & EF & En & Ex & Ey).
      exists x', y', num'. split; [rewrite EF; do 2 f_equal; lia|]. split; [lia|].
      replace (num + S (length ds') - num') with (num + 1 + length ds' - num') by lia. unfold sum in *. split; [rewrite Ex|rewrite Ey]; lia.
    + cbn [bind]. destruct (IH x y num) as (x' & y' & num' & EF & En & Ex & Ey).
      exists x', y', num'. split; [rewrite EF; do 2 f_equal; lia|]. split; [lia|].
      replace (Z.of_nat (num + S (length ds') - num')) with (Z.of_nat (num + length ds' - num') + 1)%Z by lia. unfold sum in *. cbn [fst snd]. split; lia.
Qed.

(** a point of the new estimate: the mean of its partners in all diagrams *)
Theorem C77_point : forall half div Y ds ps i, i < length (points Y) -> Forall2 (fun _ pr => i < length (p_pairs pr)) ds ps ->
  let c := map (fun Dp => contribution half (pt (points Y) i) i (fst Dp) (snd Dp)) (combine ds ps) in
  mean_point half div Y ds ps i = Ok (div (sum fst c) (Z.of_nat (length ds)), div (sum snd c) (Z.of_nat (length ds))).
Proof.
  intros half div Y ds ps i Hi HF. cbv zeta. unfold mean_point.
  assert (Gi : get_ (points Y) i = Ok (pt (points Y) i)).
  { unfold get_, pt. destruct (nth_error (points Y) i) as [q|] eqn:Eq; [|apply nth_error_None in Eq; lia]. f_equal. symmetry. apply nth_error_nth. exact Eq. }
  rewrite Gi. cbn [bind]. set (p := pt (points Y) i).
  destruct (partners_spec half p i ps ds HF [] 0%Z 0%Z 0) as (x & y & num & EF & En & Ex & Ey). cbn [app length] in EF.
  unfold partners. rewrite EF. cbn [bind fst snd].
  assert (L : length ds = length ps) by (eapply F2_length; exact HF).
  rewrite <- L. cbn [Nat.add] in Ex, Ey. rewrite Ex, Ey. 
  assert (S1 : forall (f : point -> Z) l, sum f (map (fun Dp : diagram * pairing => contribution half p i (fst Dp) (snd Dp)) l) = sum (fun Dp => f (contribution half p i (fst Dp) (snd Dp))) l).
  { intros f l. change (@sum) with (@zsum). apply zsum_map. }
  rewrite !S1. reflexivity.
Qed.

Lemma add_points {A} (f : A -> outcome point) (g : A -> point) l : (forall x, In x l -> f x = Ok (g x)) -> forall acc,
  foldM (fun Z i => let* p := f i in Ok (d_add Z p)) l acc = Ok (Diagram (dgm_dim acc) (points acc ++ map g l)).
Proof.
  induction l as [|x l IH]; intros H acc; cbn [foldM map]; [rewrite app_nil_r; destruct acc; reflexivity|].
  rewrite (H x (or_introl eq_refl)). cbn [bind]. rewrite IH by (intros; apply H; right; auto). cbn [d_add dgm_dim points]. rewrite <- app_assoc. reflexivity.
Qed.

Definition new_point (half : Z -> Z) (div : Z -> Z -> Z) (Y : diagram) (ds : list diagram) (ps : list pairing) (i : nat) : point :=
  let c := map (fun Dp => contribution half (pt (points Y) i) i (fst Dp) (snd Dp)) (combine ds ps) in
  (div (sum fst c) (Z.of_nat (length ds)), div (sum snd c) (Z.of_nat (length ds))).

Lemma step_spec half div Y ds ps : Forall2 (fun _ pr => length (points Y) <= length (p_pairs pr)) ds ps ->
  mean_step half div Y ds ps = Ok (removeDiagonal (Diagram 0 (map (new_point half div Y ds ps) (seq 0 (length (points Y)))))).
Proof.
  intro HF. unfold mean_step. rewrite (add_points _ (new_point half div Y ds ps)); [reflexivity|].
  intros i Hi. apply in_seq in Hi. apply C77_point; [lia|]. eapply F2_impl; [|exact HF]. cbv beta. intros. lia.
Qed.

(** ** all pairings *)
Section Mean.
  Variables (top : Z) (dist : point -> point -> Z) (orth : point -> Z) (half : Z -> Z) (div : Z -> Z -> Z).
  Hypothesis Htop : (0 < top)%Z.
  Notation pairing_for Y D p := (exists f0, forall fuel, f0 <= fuel -> optimalPairing top dist orth fuel Y D = Ok p).

  Lemma pairing_length Y D p : (exists f0, forall fuel, f0 <= fuel -> optimalPairing top dist orth fuel Y D = Ok p) ->
    length (p_pairs p) = length (points Y) + length (points D).
  Proof.
    intros (f0 & H). assert (Hd : dgm_dim Y = dgm_dim D).
    { destruct (Nat.eq_dec (dgm_dim Y) (dgm_dim D)) as [E|E]; [exact E|]. specialize (H f0 (le_n _)). rewrite C77_pairing_dimension in H by exact E. easy. }
    destruct (pairing_total top dist orth Y D Htop Hd) as (a & f1 & [Ha _] & Hf).
    specialize (H (max f0 f1) ltac:(lia)). rewrite Hf in H by lia. injection H as <-. cbn [p_pairs].
    assert (L := assignment_length _ a Ha). rewrite combine_length, seq_length. lia.
  Qed.

  Lemma pairings_ok Y ds : (forall D, In D ds -> dgm_dim Y = dgm_dim D) -> exists ps f0,
    Forall2 (fun D p => pairing_for Y D p) ds ps /\
    forall fuel, f0 <= fuel -> forall acc, foldM (fun ps D => let* p := optimalPairing top dist orth fuel Y D in Ok (ps ++ [p])) ds acc = Ok (acc ++ ps).
  Proof.
    induction ds as [|D ds IH]; intro H.
    - exists [], 0. split; [constructor|]. intros. cbn. rewrite app_nil_r. reflexivity.
    - destruct IH as (ps & f0 & HF & Hf); [intros; apply H; right; auto|].
      destruct (pairing_total top dist orth Y D Htop (H D (or_introl eq_refl))) as (a & f1 & _ & Hp).
      eexists (_ :: ps), (max f0 f1). split; [constructor; [exists f1; exact Hp|exact HF]|].
      intros fuel Hfuel acc. cbn [foldM]. rewrite Hp by lia. cbn [bind]. rewrite Hf by lia. rewrite <- app_assoc. reflexivity.
  Qed.

  Lemma pairings_throw Y ds : (exists D, In D ds /\ dgm_dim Y <> dgm_dim D) -> exists f0,
    forall fuel, f0 <= fuel -> forall acc, foldM (fun ps D => let* p := optimalPairing top dist orth fuel Y D in Ok (ps ++ [p])) ds acc = Throw RuntimeError.
  Proof.
    induction ds as [|D ds IH]; intros (D0 & Hin & Hne); [destruct Hin|].
    destruct (Nat.eq_dec (dgm_dim Y) (dgm_dim D)) as [E|E].
    - destruct IH as (f0 & Hf). { destruct Hin as [->|Hin]; [contradiction|]. exists D0. split; assumption. }
      destruct (pairing_total top dist orth Y D Htop E) as (a & f1 & _ & Hp).
      exists (max f0 f1). intros fuel Hfuel acc. cbn [foldM]. rewrite Hp by lia. cbn [bind]. apply Hf. lia.
    - exists 0. intros fuel _ acc. cbn [foldM]. rewrite C77_pairing_dimension by exact E. reflexivity.
  Qed.

  Lemma pairs_enough Y ds ps : Forall2 (fun D p => pairing_for Y D p) ds ps -> Forall2 (fun _ pr => length (points Y) <= length (p_pairs pr)) ds ps.
  Proof. apply F2_impl. intros D p H. rewrite (pairing_length Y D p H). lia. Qed.
End Mean.

(** FINDING: the new estimate is a default-constructed diagram of dimension 0, so the
    second round of pairings throws as soon as one of the diagrams has another
    dimension: the mean of such diagrams is never computed *)
Theorem C77_dimension_refuted : forall top dist orth half div ds choice, (0 < top)%Z -> choice < length ds ->
  (exists D, In D ds /\ dgm_dim D <> 0) -> exists f0, forall fuel rounds, f0 <= fuel -> 0 < rounds ->
  mean top dist orth half div fuel rounds choice ds = Throw RuntimeError.
Proof.
  intros top dist orth half div ds choice Ht Hc (D0 & Hin & Hne). unfold mean, at_.
  destruct (nth_error ds choice) as [Y0|] eqn:E; [|apply nth_error_None in E; lia]. cbn [bind]. set (Y := removeDiagonal Y0).
  assert (C : (forall D, In D ds -> dgm_dim Y = dgm_dim D) \/ exists D, In D ds /\ dgm_dim Y <> dgm_dim D).
  { clear. induction ds as [|D ds IH]; [left; intros D []|]. destruct (Nat.eq_dec (dgm_dim Y) (dgm_dim D)) as [E|E]; [|right; exists D; simpl; auto].
    destruct IH as [IH|(D' & H & N)]; [left; intros D' [<-|H]; auto|right; exists D'; simpl; auto]. }
  destruct C as [C|C].
  - destruct (pairings_ok top dist orth Ht Y ds C) as (ps & f0 & HF & Hf).
    assert (ST := step_spec half div Y ds ps (pairs_enough top dist orth Ht Y ds ps HF)).
    set (Y' := removeDiagonal _) in ST.
    destruct (pairings_throw top dist orth Ht Y' ds) as (f1 & Hf1). { exists D0. split; [exact Hin|]. cbn [Y' removeDiagonal dgm_dim]. auto. }
    exists (max f0 f1). intros fuel rounds Hfuel Hr. unfold all_pairings. rewrite (Hf fuel ltac:(lia) []). cbn [bind app].
    destruct rounds as [|rounds]; [lia|]. cbn [mean_loop]. rewrite ST. cbn [bind]. unfold all_pairings. rewrite (Hf1 fuel ltac:(lia) []). reflexivity.
  - destruct (pairings_throw top dist orth Ht Y ds C) as (f0 & Hf). exists f0. intros fuel rounds Hfuel _. unfold all_pairings. rewrite Hf by exact Hfuel. reflexivity.
Qed.

Lemma loop_result top dist orth half div ds : (0 < top)%Z -> (forall D, In D ds -> dgm_dim D = 0) -> forall rounds Y ps,
  dgm_dim Y = 0 -> Forall2 (fun D p => exists f0, forall fuel, f0 <= fuel -> optimalPairing top dist orth fuel Y D = Ok p) ds ps ->
  exists f0, (forall fuel, f0 <= fuel -> mean_loop top dist orth half div fuel rounds Y ds ps = OutOfFuel) \/
    exists R, (forall fuel, f0 <= fuel -> mean_loop top dist orth half div fuel rounds Y ds ps = Ok R) /\
      dgm_dim R = 0 /\ (forall p, In p (points R) -> fst p <> snd p) /\ length (points R) <= length (points Y).
Proof.
  intros Ht Hd. induction rounds as [|rounds IH]; intros Y ps HY HF; [exists 0; left; reflexivity|]. cbn [mean_loop].
  assert (ST := step_spec half div Y ds ps (pairs_enough top dist orth Ht Y ds ps HF)). set (Y' := removeDiagonal _) in ST.
  assert (L' : length (points Y') <= length (points Y)).
  { unfold Y'. cbn [removeDiagonal points]. etransitivity; [apply filter_le|]. rewrite map_length, seq_length. lia. }
  assert (N' : forall p, In p (points Y') -> fst p <> snd p).
  { intros p Hp. unfold Y' in Hp. cbn [removeDiagonal points] in Hp. apply filter_In in Hp as [_ Hp]. apply negb_true_iff, Z.eqb_neq in Hp. exact Hp. }
  destruct (pairings_ok top dist orth Ht Y' ds) as (qs & f0 & HF' & Hf). { intros D HD. rewrite (Hd D HD). reflexivity. }
  assert (A : forall fuel, f0 <= fuel -> all_pairings top dist orth fuel Y' ds = Ok qs) by (intros; unfold all_pairings; rewrite Hf by assumption; reflexivity).
  destruct (pairings_eqb qs ps) eqn:E.
  - exists f0. right. exists Y'. split; [|split; [reflexivity|split; assumption]]. intros fuel Hfuel. rewrite ST. cbn [bind]. rewrite A by exact Hfuel. cbn [bind]. rewrite E. reflexivity.
  - destruct (IH Y' qs eq_refl HF') as (f1 & [H|(R & H & R1 & R2 & R3)]).
    + exists (max f0 f1). left. intros fuel Hfuel. rewrite ST. cbn [bind]. rewrite A by lia. cbn [bind]. rewrite E. apply H. lia.
    + exists (max f0 f1). right. exists R. split; [|split; [exact R1|split; [exact R2|lia]]]. intros fuel Hfuel. rewrite ST. cbn [bind]. rewrite A by lia. cbn [bind]. rewrite E. apply H. lia.
Qed.

(** for diagrams of dimension 0 nothing goes wrong: either the iteration has not
    finished, or the result is a diagram without diagonal points and with no more
    points than the diagram chosen at first *)
Theorem C77_result : forall top dist orth half div ds choice Y0 rounds, (0 < top)%Z -> (forall D, In D ds -> dgm_dim D = 0) ->
  nth_error ds choice = Some Y0 -> exists f0,
  (forall fuel, f0 <= fuel -> mean top dist orth half div fuel rounds choice ds = OutOfFuel) \/
  exists R, (forall fuel, f0 <= fuel -> mean top dist orth half div fuel rounds choice ds = Ok R) /\
    dgm_dim R = 0 /\ (forall p, In p (points R) -> fst p <> snd p) /\ length (points R) <= length (points (removeDiagonal Y0)).
Proof.
  intros top dist orth half div ds choice Y0 rounds Ht Hd E. unfold mean, at_. rewrite E. cbn [bind]. set (Y := removeDiagonal Y0).
  assert (HY : dgm_dim Y = 0) by (apply (Hd Y0), (nth_error_In _ _ E)).
  destruct (pairings_ok top dist orth Ht Y ds) as (ps & f0 & HF & Hf). { intros D HD. rewrite (Hd D HD). exact HY. }
  destruct (loop_result top dist orth half div ds Ht Hd rounds Y ps HY HF) as (f1 & [H|(R & H & R1 & R2 & R3)]); exists (max f0 f1).
  - left. intros fuel Hfuel. unfold all_pairings. rewrite Hf by lia. apply H. lia.
  - right. exists R. split; [|auto]. intros fuel Hfuel. unfold all_pairings. rewrite Hf by lia. apply H. lia.
Qed.

(** ** diagrams with the same points *)
Definition off (p : point) : bool := negb (fst p =? snd p)%Z.

Lemma zsum_each {A} (f : A -> Z) l : (forall x, In x l -> (0 <= f x)%Z) -> zsum f l = 0%Z -> forall x, In x l -> f x = 0%Z.
Proof. intros H E x Hx. assert (A0 := zsum_elem f l x H Hx). specialize (H x Hx). lia. Qed.

Section Same.
  Variables (top : Z) (dist : point -> point -> Z) (orth : point -> Z) (half : Z -> Z) (div : Z -> Z -> Z).
  Hypothesis dist_zero : forall p, dist p p = 0%Z.
  Hypothesis dist_pos : forall p q, p <> q -> (0 < dist p q)%Z.
  Hypothesis orth_zero : forall p, fst p = snd p -> orth p = 0%Z.
  Hypothesis orth_pos : forall p, fst p <> snd p -> (0 < orth p)%Z.

  Lemma dist_nonneg p q : (0 <= dist p q)%Z.
  Proof.
    destruct (point_eqb p q) eqn:E; [apply point_eqb_eq in E; subst; rewrite dist_zero; lia|].
    apply Z.lt_le_incl, dist_pos. intros ->. rewrite point_eqb_refl in E. discriminate.
  Qed.
  Lemma orth_nonneg p : (0 <= orth p)%Z.
  Proof. destruct (Z.eq_dec (fst p) (snd p)) as [E|E]; [rewrite orth_zero by exact E; lia|apply Z.lt_le_incl, orth_pos, E]. Qed.

  (** if the second list has the same points up to the diagonal there is a matching without costs *)
  Lemma zero_matching (P Q : list point) : (forall p, In p P -> fst p <> snd p) -> Permutation P (filter off Q) ->
    exists m, partial_matching P Q m /\ matching_cost dist orth P Q m = 0%Z.
  Proof.
    intros Hoff HP. set (pos := filter (fun j => off (pt Q j)) (seq 0 (length Q))).
    assert (E : filter off Q = map (pt Q) pos).
    { unfold pos. clear. assert (G : forall R pre, filter off R = map (pt (pre ++ R)) (filter (fun j => off (pt (pre ++ R) j)) (seq (length pre) (length R)))).
      { induction R as [|q R IH]; intro pre; [reflexivity|]. cbn [length seq filter].
        assert (Eq : pt (pre ++ q :: R) (length pre) = q) by (unfold pt; rewrite app_nth2, Nat.sub_diag by lia; reflexivity). rewrite Eq.
        specialize (IH (pre ++ [q])). rewrite app_length in IH. cbn [length] in IH. rewrite Nat.add_1_r in IH.
        replace ((pre ++ [q]) ++ R) with (pre ++ q :: R) in IH by (rewrite <- app_assoc; reflexivity).
        rewrite IH. destruct (off q); [|reflexivity]. cbn [map]. rewrite Eq. reflexivity. }
      apply (G Q []). }
    rewrite E in HP. apply Permutation_map_inv in HP as (pos' & EP & Hpos).
    assert (L : length P = length pos') by (rewrite EP; apply map_length).
    assert (Hin : forall j, In j pos' <-> j < length Q /\ off (pt Q j) = true).
    { intro j. split; intro H.
      - apply (Permutation_in _ (Permutation_sym Hpos)) in H. apply filter_In in H as [H1 H2]. apply in_seq in H1. split; [lia|exact H2].
      - apply (Permutation_in _ Hpos). apply filter_In. split; [apply in_seq; lia|tauto]. }
    exists (combine (seq 0 (length P)) pos'). set (m := combine _ _).
    assert (F1 : map fst m = seq 0 (length P)) by (apply combine_fst; rewrite seq_length; exact L).
    assert (F2 : map snd m = pos') by (apply combine_snd; rewrite seq_length; exact L).
    split.
    - refine (conj _ (conj _ _)).
      + rewrite F1. apply seq_NoDup.
      + rewrite F2. apply (Permutation_NoDup Hpos), NoDup_filter, seq_NoDup.
      + intros i j H. split; [apply in_combine_l, in_seq in H; lia|]. apply in_combine_r in H. apply Hin, H.
    - unfold matching_cost. rewrite F1, F2. change (@sum) with (@zsum).
      rewrite zsum_zero.
      2:{ intros [i j] H. cbn [fst snd]. assert (EqP : pt P i = pt Q j); [|rewrite EqP; apply dist_zero].
          unfold m in H. rewrite EP at 1. clear -H L. unfold pt at 1. change (0%Z, 0%Z) with (pt (@nil point) 0).
          assert (G : forall (l : list nat) s, In (i, j) (combine (seq s (length l)) l) -> s <= i /\ nth_error l (i - s) = Some j).
          { induction l as [|x l IH]; intros s Hx; [destruct Hx|]. cbn [length seq combine] in Hx. destruct Hx as [[= <- <-]|Hx]; [rewrite Nat.sub_diag; split; [lia|reflexivity]|].
            apply IH in Hx as [A B]. split; [lia|]. replace (i - s) with (S (i - S s)) by lia. exact B. }
          rewrite L in H. apply G in H as [_ H]. rewrite Nat.sub_0_r in H. apply nth_error_nth. rewrite nth_error_map, H. reflexivity. }
      rewrite !zsum_zero; [reflexivity| |].
      + intros j H. unfold unmatched in H. apply filter_In in H as [H N]. apply in_seq in H. apply negb_true_iff in N.
        apply orth_zero. destruct (off (pt Q j)) eqn:O; [|unfold off in O; apply negb_false_iff, Z.eqb_eq in O; exact O].
        exfalso. assert (X : existsb (Nat.eqb j) pos' = true) by (apply existsb_eq, Hin; split; [lia|exact O]). congruence.
      + intros i H. unfold unmatched in H. apply filter_In in H as [H N]. apply negb_true_iff in N. exfalso.
        assert (X : existsb (Nat.eqb i) (seq 0 (length P)) = true) by (apply existsb_eq; exact H). congruence.
  Qed.

  (** then every point is paired with an equal point *)
  Lemma same_partner D1 D2 p fuel0 : (0 < top)%Z -> dgm_dim D1 = dgm_dim D2 -> (forall p, In p (points D1) -> fst p <> snd p) ->
    Permutation (points D1) (filter off (points D2)) ->
    (forall fuel, fuel0 <= fuel -> optimalPairing top dist orth fuel D1 D2 = Ok p) ->
    forall i, i < length (points D1) -> contribution half (pt (points D1) i) i D2 p = pt (points D1) i.
  Proof.
    intros Ht Hd Hoff HP Hopt i Hi. destruct (pairing_total top dist orth D1 D2 Ht Hd) as (a & f1 & [Ha Ho] & Hf).
    specialize (Hopt (max fuel0 f1) ltac:(lia)). rewrite Hf in Hopt by lia. injection Hopt as <-.
    destruct (zero_matching _ _ Hoff HP) as (m & Hm & Em). destruct (matching_assignment top dist orth _ _ m Hm) as (b & Hb & Eb).
    specialize (Ho b Hb). rewrite Eb, Em in Ho. set (P := points D1) in *. set (Q := points D2) in *.
    assert (La := assignment_length _ a Ha).
    assert (Hr : forall r, r < length P + length Q -> nth r a 0 < length P + length Q).
    { intros r Hr. assert (I : In (nth r a 0) a) by (apply nth_In; lia). apply (Permutation_in _ Ha) in I. apply in_seq in I. lia. }
    assert (NN : forall r, In r (seq 0 (length a)) -> (0 <= entry top dist orth P Q r (nth r a 0%nat))%Z).
    { intros r _. unfold entry. destruct (r <? length P), (nth r a 0 <? length Q); try apply dist_nonneg; try lia; destruct (point_eqb _ _); try lia; apply orth_nonneg. }
    rewrite cost_nth in Ho. assert (Z0 : zsum (fun r => entry top dist orth P Q r (nth r a 0)) (seq 0 (length a)) = 0%Z).
    { assert (G := zsum_nonneg _ _ NN). lia. }
    assert (Z1 := zsum_each _ _ NN Z0 i ltac:(apply in_seq; lia)). cbv beta in Z1.
    unfold contribution. cbn [p_pairs]. rewrite combine_snd by (rewrite seq_length; auto). cbv zeta. fold Q.
    unfold entry in Z1. destruct (Nat.ltb_spec i (length P)); [|lia]. destruct (Nat.ltb_spec (nth i a 0) (length Q)).
    - destruct (point_eqb (pt P i) (pt Q (nth i a 0))) eqn:E; [apply point_eqb_eq in E; auto|]. exfalso.
      assert (X : pt P i <> pt Q (nth i a 0)) by (intro X; rewrite X, point_eqb_refl in E; discriminate). apply dist_pos in X. lia.
    - exfalso. destruct (point_eqb _ _) eqn:E; [|lia]. apply point_eqb_eq in E. rewrite E in Z1.
      assert (X := orth_pos (pt P i) (Hoff _ (pt_In P i Hi))). lia.
  Qed.

  Hypothesis div_exact : forall n x, (0 < n)%Z -> div (n * x)%Z n = x.

  Lemma pairings_eqb_refl ps : pairings_eqb ps ps = true.
  Proof. induction ps as [|p ps IH]; [reflexivity|]. cbn. unfold pairing_eqb. rewrite Z.eqb_refl. exact IH. Qed.

  (** the mean of diagrams with the same points off the diagonal, in any order, is
      that diagram without its diagonal points *)
  Theorem mean_same ds choice Y0 : (0 < top)%Z -> nth_error ds choice = Some Y0 -> (forall D, In D ds -> dgm_dim D = 0) ->
    (forall D, In D ds -> Permutation (filter off (points Y0)) (filter off (points D))) ->
    exists f0, forall fuel rounds, f0 <= fuel -> 0 < rounds -> mean top dist orth half div fuel rounds choice ds = Ok (removeDiagonal Y0).
  Proof.
    intros Ht E Hd HP. unfold mean, at_. rewrite E. cbn [bind]. set (Y := removeDiagonal Y0).
    assert (HY : dgm_dim Y = 0) by (apply (Hd Y0), (nth_error_In _ _ E)).
    assert (Hoff : forall p, In p (points Y) -> fst p <> snd p).
    { intros p Hp. unfold Y in Hp. cbn [removeDiagonal points] in Hp. apply filter_In in Hp as [_ Hp]. apply negb_true_iff, Z.eqb_neq in Hp. exact Hp. }
    destruct (pairings_ok top dist orth Ht Y ds) as (ps & f0 & HF & Hf). { intros D HD. rewrite (Hd D HD). exact HY. }
    assert (ST := step_spec half div Y ds ps (pairs_enough top dist orth Ht Y ds ps HF)).
    assert (EP : map (new_point half div Y ds ps) (seq 0 (length (points Y))) = points Y).
    { assert (X : forall i, In i (seq 0 (length (points Y))) -> new_point half div Y ds ps i = pt (points Y) i).
      { intros i Hi. apply in_seq in Hi. unfold new_point.
        assert (C : map (fun Dp => contribution half (pt (points Y) i) i (fst Dp) (snd Dp)) (combine ds ps) = repeat (pt (points Y) i) (length ds)).
        { assert (HF' : Forall2 (fun D p => contribution half (pt (points Y) i) i D p = pt (points Y) i) ds ps).
          { assert (HIn : forall D, In D ds -> In D ds) by auto. revert HIn HF. generalize ds at 1 3 4. intros ds' HIn HF.
            clear Hf ST. induction HF as [|D p ds' ps' (f & Hp) HF IH]; [constructor|]. constructor; [|apply IH; intros; apply HIn; right; auto].
            apply (same_partner Y D p f Ht); [rewrite (Hd D); [exact HY|apply HIn; left; reflexivity]|exact Hoff| |exact Hp|lia].
            apply HP, HIn. left. reflexivity. }
          clear -HF'. induction HF' as [|D p ds' ps' H HF IH]; [reflexivity|]. cbn [combine map length repeat fst snd]. rewrite H, IH. reflexivity. }
        rewrite C. assert (SR : forall (f : point -> Z) q n, sum f (repeat q n) = (Z.of_nat n * f q)%Z).
        { clear. intros f q n. induction n as [|n IH]; [reflexivity|]. cbn [repeat sum fold_right]. unfold sum in IH. rewrite IH. lia. }
        rewrite !SR, !div_exact; [destruct (pt (points Y) i); reflexivity| |]; (assert (0 < length ds) by (destruct ds; [destruct choice; discriminate|cbn; lia]); lia). }
      rewrite (map_ext_in _ _ _ X). clear. unfold pt. generalize (points Y). intro l.
      assert (G : forall pre, map (fun i => nth i (pre ++ l) (0%Z, 0%Z)) (seq (length pre) (length l)) = l).
      { induction l as [|q l IH]; intro pre; [reflexivity|]. cbn [length seq map]. f_equal; [rewrite app_nth2, Nat.sub_diag by lia; reflexivity|].
        specialize (IH (pre ++ [q])). rewrite app_length in IH. cbn [length] in IH. rewrite Nat.add_1_r in IH.
        replace ((pre ++ [q]) ++ l) with (pre ++ q :: l) in IH by (rewrite <- app_assoc; reflexivity). exact IH. }
      apply (G []). }
    rewrite EP in ST. assert (EY : removeDiagonal (Diagram 0 (points Y)) = Y).
    { change (removeDiagonal (Diagram 0 (points Y))) with (Diagram 0 (filter (fun p : point => negb (fst p =? snd p)%Z) (points Y))).
      assert (EF : filter (fun p : point => negb (fst p =? snd p)%Z) (points Y) = points Y).
      { clear -Hoff. induction (points Y) as [|p l IH]; [reflexivity|]. cbn [filter]. assert (N := Hoff p (or_introl eq_refl)). apply Z.eqb_neq in N. rewrite N.
        cbn [negb]. rewrite IH by (intros q Hq; apply Hoff; right; exact Hq). reflexivity. }
      rewrite EF. clear -HY. destruct Y as [k P]. cbn [dgm_dim] in HY. subst k. reflexivity. }
    rewrite EY in ST.
    exists f0. intros fuel rounds Hfuel Hr. unfold all_pairings at 1. rewrite (Hf fuel Hfuel []). cbn [bind app].
    destruct rounds as [|rounds]; [lia|]. cbn [mean_loop]. rewrite ST. cbn [bind]. unfold all_pairings. rewrite (Hf fuel Hfuel []). cbn [bind app].
    rewrite pairings_eqb_refl. reflexivity.
  Qed.
End Same.

Definition sq (x : Z) : Z := (x * x)%Z.

(** with the distance used by default (the maximum norm, squared) *)
Theorem C77_same : forall top ds choice Y0,
  let dist := fun p q => sq (infinityDistance p q) in
  let orth := fun p => sq (orthogonalDistance (fun x => Z.quot x 2) infinityDistance p) in
  (0 < top)%Z -> nth_error ds choice = Some Y0 -> (forall D, In D ds -> dgm_dim D = 0) ->
  (forall D, In D ds -> Permutation (points (removeDiagonal Y0)) (points (removeDiagonal D))) ->
  exists f0, forall fuel rounds, f0 <= fuel -> 0 < rounds -> mean top dist orth (fun x => Z.quot x 2) Z.quot fuel rounds choice ds = Ok (removeDiagonal Y0).
Proof.
  intros top ds choice Y0 dist orth Ht E Hd HP. apply mean_same; auto.
  - intro p. unfold dist, infinityDistance. rewrite !Z.sub_diag, !Z.leb_refl. reflexivity.
  - intros [px py] [qx qy] N. unfold dist, infinityDistance, sq. cbn [fst snd].
    assert (px <> qx \/ py <> qy) by (destruct (Z.eq_dec px qx); [right; intros ->; subst; contradiction|left; assumption]).
    match goal with |- (0 < ?a * ?a)%Z => assert (0 < a)%Z by (destruct (Z.leb_spec qx px), (Z.leb_spec qy py); lia) end. nia.
  - intros [x y] H. cbn [fst snd] in H. subst y. unfold orth, orthogonalDistance, infinityDistance, sq. cbn [fst snd].
    replace (x + x)%Z with (x * 2)%Z by lia. rewrite Z.quot_mul by lia. rewrite !Z.sub_diag, !Z.leb_refl. reflexivity.
  - intros [x y] H. cbn [fst snd] in H. unfold orth, orthogonalDistance, infinityDistance, sq. cbn [fst snd].
    set (u := Z.quot (x + y) 2). match goal with |- (0 < ?a * ?a)%Z => assert (0 < a)%Z by (destruct (Z.leb_spec u x), (Z.leb_spec u y); lia) end. nia.
  - intros n x Hn. rewrite Z.mul_comm. apply Z.quot_mul. lia.
Qed.

(** the new point is ((0 + 2 + 1) / 3, (12 + 16 + 17) / 3); the other points are on or near the diagonal *)
Definition m_dist p q := sq (infinityDistance p q).
Definition m_orth p := sq (orthogonalDistance (fun x => Z.quot x 2) infinityDistance p).
Example C77_example :
  mean 1000 m_dist m_orth (fun x => Z.quot x 2) Z.quot 30 5 0 [Diagram 0 [(0, 12); (3, 3)]; Diagram 0 [(2, 16)]; Diagram 0 [(1, 17); (40, 42)]]%Z
    = Ok (Diagram 0 [(1, 15)%Z]) /\
  mean 1000 m_dist m_orth (fun x => Z.quot x 2) Z.quot 30 5 1 [Diagram 1 [(0, 12)]; Diagram 1 [(0, 12)]]%Z = Throw RuntimeError /\
  optimalPairing 1000 m_dist m_orth 20 (Diagram 1 [(0, 10); (2, 4)]%Z) (Diagram 1 [(1, 12)]%Z) = Ok (Pairing 5 [(0, 0); (1, 2); (2, 1)]).
Proof. vm_compute. repeat split; reflexivity. Qed.

Print Assumptions C77_pairing.
Print Assumptions C77_pairing_dimension.
Print Assumptions C77_empty.
Print Assumptions C77_point.
Print Assumptions C77_dimension_refuted.
Print Assumptions C77_result.
Print Assumptions C77_same.
