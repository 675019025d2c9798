(** * C63: the Wasserstein distance satisfies the triangle inequality. *)
From Coq Require Import List Arith Bool ZArith Lia Permutation.
From Verif Require Import Base BaseFacts Diagram Hausdorff Munkres MunkresFacts PropertiesMunkres Wasserstein PropertiesWasserstein.
Import ListNotations.

(** ** the costs of a matching, point by point *)
Section Pointwise.
  Variables (d : point -> point -> Z) (o : point -> Z) (D1 D2 : list point) (m : list (nat * nat)).

  Definition first_cost (i : nat) : Z := match by_first m i with Some p => d (pt D1 i) (pt D2 (snd p)) | None => o (pt D1 i) end.
  Definition second_cost (j : nat) : Z := match by_second m j with Some _ => 0%Z | None => o (pt D2 j) end.

  Lemma by_first_In i j : NoDup (map fst m) -> In (i, j) m -> by_first m i = Some (i, j).
  Proof.
    intros N H. destruct (by_first m i) as [p|] eqn:E.
    - apply by_first_some in E as [E1 E2]. f_equal. apply (NoDup_map_eq fst m); auto.
    - exfalso. apply by_first_none in E. apply E. apply in_map_iff. exists (i, j). auto.
  Qed.
  Lemma by_second_In i j : NoDup (map snd m) -> In (i, j) m -> by_second m j = Some (i, j).
  Proof.
    intros N H. destruct (by_second m j) as [p|] eqn:E.
    - apply by_second_some in E as [E1 E2]. f_equal. apply (NoDup_map_eq snd m); auto.
    - exfalso. apply by_second_none in E. apply E. apply in_map_iff. exists (i, j). auto.
  Qed.
  Lemma by_first_none_iff i : by_first m i = None <-> ~ In i (map fst m).
  Proof. split; [apply by_first_none|]. intro H. destruct (by_first m i) as [p|] eqn:E; [|reflexivity]. exfalso. apply by_first_some in E as [E <-]. apply H, in_map, E. Qed.
  Lemma by_second_none_iff i : by_second m i = None <-> ~ In i (map snd m).
  Proof. split; [apply by_second_none|]. intro H. destruct (by_second m i) as [p|] eqn:E; [|reflexivity]. exfalso. apply by_second_some in E as [E <-]. apply H, in_map, E. Qed.

  Lemma cost_pointwise : partial_matching D1 D2 m ->
    matching_cost d o D1 D2 m = (zsum first_cost (seq 0 (length D1)) + zsum second_cost (seq 0 (length D2)))%Z.
  Proof.
    intros (N1 & N2 & Hm). unfold matching_cost. change (@sum) with (@zsum). f_equal.
    - rewrite (zsum_split (fun i => existsb (Nat.eqb i) (map fst m)) first_cost). f_equal.
      + assert (P := perm_filter (map fst m) (length D1) N1 ltac:(intros i Hi; apply in_map_iff in Hi as ([i' j'] & <- & Hi); apply (Hm i' j' Hi))).
        rewrite (zsum_perm first_cost _ _ P), zsum_map. apply zsum_ext. intros [i j] Hp. unfold first_cost. cbn [fst snd]. rewrite (by_first_In i j N1 Hp). reflexivity.
      + apply zsum_ext. intros i Hi. apply filter_In in Hi as [_ Hn]. apply negb_true_iff in Hn. unfold first_cost.
        rewrite (proj2 (by_first_none_iff i)); [reflexivity|]. intro H. apply existsb_eq in H. congruence.
    - rewrite (zsum_split (fun i => existsb (Nat.eqb i) (map snd m)) second_cost). rewrite (zsum_zero second_cost (filter (fun i => existsb (Nat.eqb i) (map snd m)) _)).
      + cbn. apply zsum_ext. intros i Hi. apply filter_In in Hi as [_ Hn]. apply negb_true_iff in Hn. unfold second_cost.
        rewrite (proj2 (by_second_none_iff i)); [reflexivity|]. intro H. apply existsb_eq in H. congruence.
      + intros j Hj. apply filter_In in Hj as [_ Hj]. apply existsb_eq in Hj. unfold second_cost. destruct (by_second m j) eqn:E; [reflexivity|]. apply by_second_none in E. contradiction.
  Qed.
End Pointwise.

(** ** composition of matchings *)
Definition compose (m12 m23 : list (nat * nat)) : list (nat * nat) :=
  flat_map (fun p => match by_first m23 (snd p) with Some q => [(fst p, snd q)] | None => [] end) m12.

Lemma compose_In m12 m23 i k : NoDup (map fst m23) -> (In (i, k) (compose m12 m23) <-> exists j, In (i, j) m12 /\ In (j, k) m23).
Proof.
  intro N. unfold compose. rewrite in_flat_map. split.
  - intros ([i' j] & H & Hp). cbn [fst snd] in Hp. destruct (by_first m23 j) as [[j' k']|] eqn:E; [|easy]. apply by_first_some in E as [E1 E2]. cbn in E2. subst j'. destruct Hp as [[= -> ->]|[]]. exists j. auto.
  - intros (j & H1 & H2). exists (i, j). split; [exact H1|]. cbn [fst snd]. rewrite (by_first_In m23 j k N H2). left. reflexivity.
Qed.

Lemma compose_matching D1 D2 D3 m12 m23 : partial_matching D1 D2 m12 -> partial_matching D2 D3 m23 -> partial_matching D1 D3 (compose m12 m23).
Proof.
  intros (N1 & N2 & H12) (N2' & N3 & H23). refine (conj _ (conj _ _)).
  - clear H12 N2. induction m12 as [|[i j] m IH]; [constructor|]. cbn in N1. inversion N1 as [|? ? Ni N1']; subst. unfold compose. cbn [flat_map]. rewrite map_app.
    cbn [fst snd]. destruct (by_first m23 j) as [q|] eqn:E; [|apply IH, N1']. cbn [map app]. constructor; [|apply IH, N1'].
    intro H. apply Ni. apply in_map_iff in H as ([i' k] & E' & H). cbn in E'. subst i'. apply (compose_In m) in H; [|exact N2']. destruct H as (j' & H & _). apply in_map_iff. exists (i, j'). auto.
  - clear H12 N1. induction m12 as [|[i j] m IH]; [constructor|]. cbn in N2. inversion N2 as [|? ? Nj N2'']; subst. unfold compose. cbn [flat_map]. rewrite map_app.
    cbn [fst snd]. destruct (by_first m23 j) as [[j0 k]|] eqn:E; [|apply IH, N2'']. cbn [map app]. constructor; [|apply IH, N2'']. apply by_first_some in E as [E1 E2]. cbn in E2. subst j0. cbn [snd fst].
    intro H. apply in_map_iff in H as ([i' k'] & E' & H). cbn in E'. subst k'. apply (compose_In m) in H; [|exact N2']. destruct H as (j' & H & H').
    assert (Q := NoDup_map_eq snd m23 _ _ N3 E1 H' eq_refl). injection Q as <-. apply Nj. apply in_map_iff. exists (i', j). auto.
  - intros i k H. apply compose_In in H as (j & Ha & Hb); [|exact N2']. split; [apply (H12 i j Ha)|apply (H23 j k Hb)].
Qed.

Lemma zsum_incl (f : nat -> Z) l l' : NoDup l -> incl l l' -> (forall x, In x l' -> (0 <= f x)%Z) -> (zsum f l <= zsum f l')%Z.
Proof.
  revert l'. induction l as [|x l IH]; intros l' N I H; [apply zsum_nonneg, H|]. inversion N as [|? ? Nx N']; subst.
  assert (Hx : In x l') by (apply I; simpl; auto). apply in_split in Hx as (a & b & ->).
  assert (G : (zsum f l <= zsum f (a ++ b))%Z).
  { apply IH; [exact N'| |]; [|intros y Hy; apply H; apply in_app_iff in Hy; apply in_app_iff; simpl; tauto].
    intros y Hy. assert (Q := I y (or_intror Hy)). apply in_app_iff in Q. apply in_app_iff. destruct Q as [Q|[<-|Q]]; auto. contradiction. }
  rewrite zsum_app in *. cbn. unfold zsum in *. lia.
Qed.

Section Triangle.
  Variables (d : point -> point -> Z) (o : point -> Z) (D1 D2 D3 : list point) (m12 m23 : list (nat * nat)).
  Hypothesis d_nonneg : forall p q, In p D2 -> In q D3 -> (0 <= d p q)%Z.
  Hypothesis o_nonneg : forall p, In p D2 -> (0 <= o p)%Z.
  Hypothesis d_triangle : forall p q r, (d p r <= d p q + d q r)%Z.
  Hypothesis o_first : forall p q, (o p <= d p q + o q)%Z.
  Hypothesis o_second : forall q r, (o r <= o q + d q r)%Z.
  Hypothesis M12 : partial_matching D1 D2 m12.
  Hypothesis M23 : partial_matching D2 D3 m23.
  Notation m13 := (compose m12 m23).
  Notation G12 := (first_cost d o D1 D2 m12).
  Notation G23 := (first_cost d o D2 D3 m23).
  Notation G13 := (first_cost d o D1 D3 m13).
  Notation H12 := (second_cost o D2 m12).
  Notation H23 := (second_cost o D3 m23).
  Notation H13 := (second_cost o D3 m13).

  (** the part of the second matching that pays for the detour of a point of the first diagram *)
  Definition detour (i : nat) : Z := match by_first m12 i with Some p => G23 (snd p) | None => 0%Z end.
  (** and of a point of the third diagram *)
  Definition detour' (k : nat) : Z := match by_second m23 k with Some p => if existsb (Nat.eqb (fst p)) (map snd m12) then 0%Z else (G23 (fst p) + H12 (fst p))%Z | None => 0%Z end.

  Lemma first_bound i : (G13 i <= G12 i + detour i)%Z.
  Proof.
    destruct M12 as (N1 & N2 & B12). destruct M23 as (N2' & N3 & B23). destruct (compose_matching _ _ _ _ _ M12 M23) as (C1 & C3 & _).
    unfold first_cost at 1 2, detour. destruct (by_first m12 i) as [[i' j]|] eqn:E12.
    - apply by_first_some in E12 as [E12 E]. cbn in E. subst i'. cbn [fst snd]. unfold first_cost. destruct (by_first m23 j) as [[j' k]|] eqn:E23.
      + apply by_first_some in E23 as [E23 E]. cbn in E. subst j'. rewrite (by_first_In m13 i k C1); [|apply compose_In; eauto]. cbn [snd]. apply d_triangle.
      + destruct (by_first m13 i) as [[i' k]|] eqn:E13; [|apply o_first]. exfalso. apply by_first_some in E13 as [E13 E]. cbn in E. subst i'. apply compose_In in E13 as (j' & Ha & Hb); [|exact N2'].
        assert (Q := NoDup_map_eq fst m12 _ _ N1 Ha E12 eq_refl). injection Q as ->. apply by_first_none in E23. apply E23, in_map_iff. exists (j, k). auto.
    - destruct (by_first m13 i) as [[i' k]|] eqn:E13; [|lia]. exfalso. apply by_first_some in E13 as [E13 E]. cbn in E. subst i'. apply compose_In in E13 as (j' & Ha & Hb); [|exact N2'].
      apply by_first_none in E12. apply E12, in_map_iff. exists (i, j'). auto.
  Qed.

  Lemma second_bound k : (H13 k <= H23 k + detour' k)%Z.
  Proof.
    destruct M12 as (N1 & N2 & B12). destruct M23 as (N2' & N3 & B23). destruct (compose_matching _ _ _ _ _ M12 M23) as (C1 & C3 & _).
    unfold second_cost at 1 2, detour'. destruct (by_second m23 k) as [[j k']|] eqn:E23.
    - apply by_second_some in E23 as [E23 E]. cbn in E. subst k'. cbn [fst snd]. destruct (existsb (Nat.eqb j) (map snd m12)) eqn:Ej.
      + apply existsb_eq in Ej. apply in_map_iff in Ej as ([i j'] & E & Ej). cbn in E. subst j'. rewrite (by_second_In m13 i k C3); [lia|apply compose_In; eauto].
      + destruct (by_second m13 k) as [p|] eqn:E13.
        * exfalso. destruct p as [i k']. apply by_second_some in E13 as [E13 E]. cbn in E. subst k'. apply compose_In in E13 as (j' & Ha & Hb); [|exact N2'].
          assert (Q := NoDup_map_eq snd m23 _ _ N3 Hb E23 eq_refl). injection Q as ->. assert (existsb (Nat.eqb j) (map snd m12) = true); [|congruence]. apply existsb_eq, in_map_iff. exists (i, j). auto.
        * unfold first_cost, second_cost. rewrite (by_first_In m23 j k N2' E23). cbn [snd]. rewrite (proj2 (by_second_none_iff m12 j)); [|intro Hj; apply existsb_eq in Hj; congruence].
          assert (Q := o_second (pt D2 j) (pt D3 k)). lia.
    - assert (E13 : by_second m13 k = None); [|rewrite E13; lia]. apply by_second_none_iff. intro H. apply in_map_iff in H as ([i k'] & E & H). cbn in E. subst k'. apply compose_In in H as (j & Ha & Hb); [|exact N2'].
      apply by_second_none in E23. apply E23, in_map_iff. exists (j, k). auto.
  Qed.

  Lemma G23_nonneg j : j < length D2 -> (0 <= G23 j)%Z.
  Proof.
    intro Hj. unfold first_cost. destruct (by_first m23 j) as [[j' k]|] eqn:E; [|apply o_nonneg, pt_In, Hj]. apply by_first_some in E as [E _]. destruct M23 as (_ & _ & B). destruct (B j' k E). cbn. apply d_nonneg; apply pt_In; auto.
  Qed.
  Lemma H12_nonneg j : j < length D2 -> (0 <= H12 j)%Z.
  Proof. intro Hj. unfold second_cost. destruct (by_second m12 j); [lia|apply o_nonneg, pt_In, Hj]. Qed.

  Lemma detour_sum : zsum detour (seq 0 (length D1)) = zsum G23 (map snd m12).
  Proof.
    destruct M12 as (N1 & N2 & B12). rewrite (zsum_split (fun i => existsb (Nat.eqb i) (map fst m12))).
    rewrite (zsum_zero detour (filter (fun x => negb (existsb (Nat.eqb x) (map fst m12))) (seq 0 (length D1)))).
    - rewrite Z.add_0_r. assert (P := perm_filter (map fst m12) (length D1) N1 ltac:(intros i Hi; apply in_map_iff in Hi as ([i' j'] & <- & Hi); apply (B12 i' j' Hi))).
      rewrite (zsum_perm detour _ _ P), !zsum_map. apply zsum_ext. intros [i j] Hp. unfold detour. cbn [fst snd]. rewrite (by_first_In m12 i j N1 Hp). reflexivity.
    - intros i Hi. apply filter_In in Hi as [_ Hn]. apply negb_true_iff in Hn. unfold detour. rewrite (proj2 (by_first_none_iff m12 i)); [reflexivity|]. intro H. apply existsb_eq in H. congruence.
  Qed.

  Notation free := (filter (fun p => negb (existsb (Nat.eqb (fst p)) (map snd m12))) m23).
  Lemma detour'_sum : zsum detour' (seq 0 (length D3)) = zsum (fun j => (G23 j + H12 j)%Z) (map fst free).
  Proof.
    destruct M23 as (N2 & N3 & B23). rewrite (zsum_split (fun i => existsb (Nat.eqb i) (map snd m23))).
    rewrite (zsum_zero detour' (filter (fun x => negb (existsb (Nat.eqb x) (map snd m23))) (seq 0 (length D3)))).
    - rewrite Z.add_0_r. assert (P := perm_filter (map snd m23) (length D3) N3 ltac:(intros i Hi; apply in_map_iff in Hi as ([i' j'] & <- & Hi); apply (B23 i' j' Hi))).
      rewrite (zsum_perm detour' _ _ P), !zsum_map. rewrite (zsum_split (fun p => existsb (Nat.eqb (fst p)) (map snd m12))). rewrite zsum_zero.
      + cbn [Z.add]. apply zsum_ext. intros [j k] Hp. apply filter_In in Hp as [Hp Hn]. apply negb_true_iff in Hn. cbn [fst snd] in *. unfold detour'. rewrite (by_second_In m23 j k N3 Hp). cbn [fst]. rewrite Hn. reflexivity.
      + intros [j k] Hp. apply filter_In in Hp as [Hp Hn]. cbn [fst snd] in *. unfold detour'. rewrite (by_second_In m23 j k N3 Hp). cbn [fst]. rewrite Hn. reflexivity.
    - intros i Hi. apply filter_In in Hi as [_ Hn]. apply negb_true_iff in Hn. unfold detour'. rewrite (proj2 (by_second_none_iff m23 i)); [reflexivity|]. intro H. apply existsb_eq in H. congruence.
  Qed.

  Lemma compose_cost : (matching_cost d o D1 D3 m13 <= matching_cost d o D1 D2 m12 + matching_cost d o D2 D3 m23)%Z.
  Proof.
    rewrite (cost_pointwise d o D1 D3 m13 (compose_matching _ _ _ _ _ M12 M23)), (cost_pointwise d o D1 D2 m12 M12), (cost_pointwise d o D2 D3 m23 M23).
    assert (A : (zsum G13 (seq 0 (length D1)) <= zsum (fun i => (G12 i + detour i)%Z) (seq 0 (length D1)))%Z) by (apply zsum_le; intros; apply first_bound).
    assert (B : (zsum H13 (seq 0 (length D3)) <= zsum (fun i => (H23 i + detour' i)%Z) (seq 0 (length D3)))%Z) by (apply zsum_le; intros; apply second_bound).
    rewrite zsum_plus in A. rewrite zsum_plus in B. rewrite detour_sum in A. rewrite detour'_sum in B. rewrite zsum_plus in B.
    destruct M12 as (N1 & N2 & B12). destruct M23 as (N2' & N3 & B23).
    assert (NF : NoDup (map fst free)). { clear -N2'. induction m23 as [|p m IH]; [constructor|]. cbn in N2'. inversion N2' as [|? ? Np N]; subst. cbn. destruct (negb _); [|apply IH, N]. cbn. constructor; [|apply IH, N].
      intro H. apply Np. apply in_map_iff in H as (q & E & H). apply filter_In in H as [H _]. rewrite <- E. apply in_map, H. }
    assert (C : (zsum G23 (map snd m12) + zsum G23 (map fst free) <= zsum G23 (seq 0 (length D2)))%Z).
    { rewrite <- zsum_app. apply zsum_incl.
      - assert (X : forall (l l' : list nat), NoDup l -> NoDup l' -> (forall x, In x l -> ~ In x l') -> NoDup (l ++ l')).
        { induction l as [|x l IH]; intros l' Hl Hl' Hd; [exact Hl'|]. inversion Hl; subst. cbn. constructor; [|apply IH; auto; intros; apply Hd; simpl; auto]. rewrite in_app_iff. intros [?|?]; [contradiction|]. apply (Hd x); simpl; auto. }
        apply X; auto. intros j Hj Hf. apply in_map_iff in Hf as (p & <- & Hf). apply filter_In in Hf as [_ Hf]. apply negb_true_iff in Hf. apply existsb_eq in Hj. congruence.
      - intros j Hj. apply in_seq. apply in_app_iff in Hj as [Hj|Hj]; apply in_map_iff in Hj as ([a b] & <- & Hj); cbn; [destruct (B12 a b Hj); lia|]. apply filter_In in Hj as [Hj _]. destruct (B23 a b Hj). lia.
      - intros j Hj. apply in_seq in Hj. apply G23_nonneg. lia. }
    assert (D : (zsum H12 (map fst free) <= zsum H12 (seq 0 (length D2)))%Z).
    { apply zsum_incl; [exact NF| |].
      - intros j Hj. apply in_seq. apply in_map_iff in Hj as ([a b] & <- & Hj). apply filter_In in Hj as [Hj _]. destruct (B23 a b Hj). cbn. lia.
      - intros j Hj. apply in_seq in Hj. apply H12_nonneg. lia. }
    lia.
  Qed.
End Triangle.

(** ** the theorem *)
(** [wassersteinDistance] with power 1 satisfies the triangle inequality whenever the
    distance of points and the distance to the diagonal do. *)
Theorem C63_triangle : forall top d o D1 D2 D3,
  dgm_dim D1 = dgm_dim D2 -> dgm_dim D2 = dgm_dim D3 ->
  (forall p q, (0 <= d p q)%Z) -> (forall p, (0 <= o p)%Z) ->
  (forall p q, d p q = d q p) -> (forall p q r, (d p r <= d p q + d q r)%Z) ->
  (forall p q, (o p <= d p q + o q)%Z) ->
  (sum o (points D1) + sum o (points D2) < top)%Z -> (sum o (points D2) + sum o (points D3) < top)%Z -> (sum o (points D1) + sum o (points D3) < top)%Z ->
  exists w12 w23 w13 fuel0, (w13 <= w12 + w23)%Z /\ forall fuel, fuel0 <= fuel ->
    wassersteinDistance top d o (fun x => x) fuel D1 D2 = Ok w12 /\
    wassersteinDistance top d o (fun x => x) fuel D2 D3 = Ok w23 /\
    wassersteinDistance top d o (fun x => x) fuel D1 D3 = Ok w13.
Proof.
  intros top d o D1 D2 D3 E12 E23 Hd Ho Hs Ht Hod T12 T23 T13.
  destruct (C35_optimal top d o (fun x => x) D1 D2 E12 (fun p q _ _ => Hd p q) (fun p _ => Ho p) T12) as (w12 & f12 & [(m12 & M12 & C12) _] & F12).
  destruct (C35_optimal top d o (fun x => x) D2 D3 E23 (fun p q _ _ => Hd p q) (fun p _ => Ho p) T23) as (w23 & f23 & [(m23 & M23 & C23) _] & F23).
  destruct (C35_optimal top d o (fun x => x) D1 D3 (eq_trans E12 E23) (fun p q _ _ => Hd p q) (fun p _ => Ho p) T13) as (w13 & f13 & [_ Hmin] & F13).
  exists w12, w23, w13, (f12 + f23 + f13). split.
  - assert (Q := Hmin _ (compose_matching _ _ _ _ _ M12 M23)).
    assert (R := compose_cost d o (points D1) (points D2) (points D3) m12 m23 (fun p q _ _ => Hd p q) (fun p _ => Ho p) Ht Hod ltac:(intros q r; rewrite (Hs q r); specialize (Hod r q); lia) M12 M23). lia.
  - intros fuel Hf. refine (conj _ (conj _ _)); [apply F12; lia|apply F23; lia|apply F13; lia].
Qed.

(** The infinity distance and half the persistence (doubled here, to stay integral)
    satisfy the hypotheses. *)
Definition twice_infinity (p q : point) : Z := (2 * infinityDistance p q)%Z.
Definition persistence_cost (p : point) : Z := Z.abs (snd p - fst p).
Theorem C63_hypotheses :
  (forall p q, (0 <= twice_infinity p q)%Z) /\ (forall p, (0 <= persistence_cost p)%Z) /\
  (forall p q, twice_infinity p q = twice_infinity q p) /\ (forall p q r, (twice_infinity p r <= twice_infinity p q + twice_infinity q r)%Z) /\
  (forall p q, (persistence_cost p <= twice_infinity p q + persistence_cost q)%Z).
Proof.
  assert (E : forall p q, infinityDistance p q = Z.max (Z.abs (fst p - fst q)) (Z.abs (snd p - snd q))).
  { intros p q. unfold infinityDistance. destruct (Z.leb_spec (fst q) (fst p)), (Z.leb_spec (snd q) (snd p)); lia. }
  unfold twice_infinity, persistence_cost. refine (conj _ (conj _ (conj _ (conj _ _)))); intros; rewrite ?E; lia.
Qed.

(** ** a concrete case *)
Definition t_D1 := Diagram 0 [(0, 8)%Z].
Definition t_D2 := Diagram 0 [(0, 10)%Z; (3, 4)%Z].
Definition t_D3 := Diagram 0 [(1, 10)%Z].
Example C63_example :
  wassersteinDistance 1000 twice_infinity persistence_cost (fun x => x) 30 t_D1 t_D2 = Ok 5%Z /\
  wassersteinDistance 1000 twice_infinity persistence_cost (fun x => x) 30 t_D2 t_D3 = Ok 3%Z /\
  wassersteinDistance 1000 twice_infinity persistence_cost (fun x => x) 30 t_D1 t_D3 = Ok 4%Z.
Proof. vm_compute. auto. Qed.

Print Assumptions C63_triangle.
Print Assumptions C63_hypotheses.
