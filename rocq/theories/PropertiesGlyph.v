(** * Glyphs of persistence indicator functions. *)
From Coq Require Import Reals List Arith Bool ZArith Lia Lra Sorted.
From Verif Require Import Base BaseFacts PropertiesLaplacian PropertiesMLE StepNorm PropertiesStepNorm Glyph.
Import ListNotations.
Local Open Scope R_scope.

(** ** specification *)
Section Specification.
  Variables next prev : R -> R.
  Variable n : nat.
  Variables min max : R.
  Variable domain : list R.
  (** bins of equal length, and bins whose ends have equal quotients *)
  Definition lin_bin (b : nat) (x : R) : Prop :=
    min + INR b * ((max - min) / INR n) <= x < min + (INR b + 1) * ((max - min) / INR n).
  Definition log_bin (b : nat) (x : R) : Prop :=
    min * Rpower (max / min) (INR b / INR n) <= x < min * Rpower (max / min) ((INR b + 1) / INR n).
  (** the ends of the bins that the tool announces: there are [n - 1] of the second kind *)
  Definition lin_end (i : nat) : R := min + INR i * ((max - min) / INR n).
  Definition log_end (i : nat) : R := min * Rpower (max / min) (INR i / INR (n - 1)).
  Definition sample (z : R) : Prop :=
    In z domain \/ (exists i, (S i < n)%nat /\ z = (lin_end i + lin_end (S i)) / 2) \/ (exists i, (S i < n)%nat /\ z = (log_end i + log_end (S i)) / 2).
  (** the functions are evaluated beside the samples *)
  Definition evaluated (x : R) : Prop :=
    exists y, sample y /\ ((exists z, sample z /\ y < z) /\ x = next y \/ (exists z, sample z /\ z < y) /\ x = prev y).
  (** every entry is the largest value in its bin, or zero *)
  Definition histogram (bin : nat -> R -> Prop) (f : R -> R) (h : list R) : Prop :=
    length h = n /\ forall b, (b < n)%nat ->
      0 <= nth b h 0 /\ (forall x, evaluated x -> bin b x -> f x <= nth b h 0) /\
      (nth b h 0 = 0 \/ exists x, evaluated x /\ bin b x /\ f x = nth b h 0).
End Specification.
(** a table with the columns: number of the bin, number of the function, value *)
Definition table (row : nat) (h : list R) (t : list (nat * nat * R)) : Prop :=
  length t = length h /\ forall b, (b < length h)%nat -> nth_error t b = Some (b, row, nth b h 0).

(** ** conversions *)
Lemma to_size_spec b x : (Z.of_nat b < 18446744073709551616)%Z -> INR b <= x < INR b + 1 -> to_size x = Ok b.
Proof.
  intros B [L U]. pose proof (pos_INR b) as P. unfold to_size. destruct (Rle_dec x (-1)); [lra|].
  destruct (Rle_dec 18446744073709551616 x) as [H|_].
  - exfalso. assert (E : (Z.of_nat b + 1 <= 18446744073709551616)%Z) by lia. apply IZR_le in E. rewrite plus_IZR, <- INR_IZR_INZ in E. lra.
  - destruct (Rlt_dec x 0); [lra|]. f_equal. destruct (base_Int_part x) as [I1 I2]. rewrite INR_IZR_INZ in L, U.
    assert (E1 : (Int_part x < Z.of_nat b + 1)%Z) by (apply lt_IZR; rewrite plus_IZR; lra).
    assert (E2 : (Z.of_nat b < Int_part x + 1)%Z) by (apply lt_IZR; rewrite plus_IZR; lra). lia.
Qed.
Lemma to_size_total n x : (Z.of_nat n < 18446744073709551616)%Z -> 0 <= x < INR n -> exists b, (b < n)%nat /\ INR b <= x < INR b + 1.
Proof.
  intros B [L U]. destruct (base_Int_part x) as [I1 I2]. rewrite INR_IZR_INZ in U.
  assert (E1 : (Int_part x < Z.of_nat n)%Z) by (apply lt_IZR; lra).
  assert (E2 : (-1 < Int_part x)%Z) by (apply lt_IZR; lra).
  exists (Z.to_nat (Int_part x)). split; [lia|]. rewrite INR_IZR_INZ, Z2Nat.id by lia. lra.
Qed.

Section Bins.
  Variable n : nat.
  Variables min max : R.
  Hypothesis Hn : (0 < n)%nat.
  Hypothesis Hlimit : (Z.of_nat n < 4294967296)%Z.
  Hypothesis Hm : 0 < min < max.

  Lemma n_pos : 0 < INR n. Proof. apply lt_0_INR. exact Hn. Qed.
  Lemma lin_quotient b x : lin_bin n min max b x <-> INR b <= (x - min) / ((max - min) / INR n) < INR b + 1.
  Proof.
    unfold lin_bin. pose proof n_pos as P. set (w := (max - min) / INR n). assert (W : 0 < w) by (apply Rdiv_lt_0_compat; lra).
    assert (E : (x - min) / w * w = x - min) by (unfold Rdiv; rewrite Rmult_assoc, Rinv_l by lra; ring).
    set (q := (x - min) / w) in *. split; intros [A B]; split.
    - apply (Rmult_le_reg_r w); lra.
    - apply (Rmult_lt_reg_r w); lra.
    - assert (INR b * w <= q * w) by (apply Rmult_le_compat_r; lra). lra.
    - assert (q * w < (INR b + 1) * w) by (apply Rmult_lt_compat_r; lra). lra.
  Qed.
  Lemma lin_index b x : (b < n)%nat -> lin_bin n min max b x -> valueToLinIndex n min max x = Ok b.
  Proof.
    intros B H. unfold valueToLinIndex. destruct (n =? 0)%nat eqn:E; [apply Nat.eqb_eq in E; lia|].
    apply to_size_spec; [lia|]. apply lin_quotient. exact H.
  Qed.
  Lemma lin_total x : min <= x < max -> exists b, (b < n)%nat /\ lin_bin n min max b x.
  Proof.
    intros H. destruct (to_size_total n ((x - min) / ((max - min) / INR n))) as (b & B & Q).
    - lia.
    - pose proof n_pos as P. set (w := (max - min) / INR n). assert (W : 0 < w) by (apply Rdiv_lt_0_compat; lra).
      assert (E : (x - min) / w * w = x - min) by (unfold Rdiv; rewrite Rmult_assoc, Rinv_l by lra; ring).
      assert (E' : INR n * w = max - min) by (unfold w, Rdiv; rewrite (Rmult_comm (max - min)), <- Rmult_assoc, Rinv_r by lra; ring).
      set (q := (x - min) / w) in *. split; [apply (Rmult_le_reg_r w); lra|apply (Rmult_lt_reg_r w); lra].
    - exists b. split; [exact B|]. apply lin_quotient. exact Q.
  Qed.

  Lemma ln10_pos : 0 < ln 10. Proof. rewrite <- ln_1. apply ln_increasing; lra. Qed.
  Lemma log_pos : 0 < ln max - ln min. Proof. assert (ln min < ln max) by (apply ln_increasing; lra). lra. Qed.
  Lemma geometric t : 0 < min * Rpower (max / min) t /\ ln (min * Rpower (max / min) t) = ln min + t * (ln max - ln min).
  Proof.
    assert (P : 0 < Rpower (max / min) t) by (unfold Rpower; apply exp_pos). split; [apply Rmult_lt_0_compat; lra|].
    rewrite ln_mult by lra. f_equal. unfold Rpower. rewrite ln_exp. f_equal. unfold Rdiv. rewrite ln_mult, ln_Rinv; [ring|lra|lra|apply Rinv_0_lt_compat; lra].
  Qed.
  Lemma ln_le_iff a b : 0 < a -> 0 < b -> (a <= b <-> ln a <= ln b).
  Proof.
    intros A B. split; intro H.
    - destruct (Rle_lt_or_eq_dec _ _ H) as [L|<-]; [left; apply ln_increasing; assumption|right; reflexivity].
    - destruct (Rle_dec a b) as [L|L]; [exact L|]. exfalso. assert (ln b < ln a) by (apply ln_increasing; lra). lra.
  Qed.
  Definition log_quotient_of (x : R) : R := (ln x / ln 10 - ln min / ln 10) / ((ln max / ln 10 - ln min / ln 10) / INR n).
  Lemma log_quotient_value x : 0 < x -> log_quotient_of x * (ln max - ln min) = (ln x - ln min) * INR n.
  Proof. intros X. pose proof ln10_pos. pose proof log_pos. pose proof n_pos. unfold log_quotient_of. field. repeat split; lra. Qed.
  Lemma log_quotient b x : 0 < x -> (log_bin n min max b x <-> INR b <= log_quotient_of x < INR b + 1).
  Proof.
    intro X. pose proof (log_quotient_value x X) as E. pose proof log_pos as W. pose proof n_pos as P. set (w := ln max - ln min) in *. set (q := log_quotient_of x) in *.
    unfold log_bin. destruct (geometric (INR b / INR n)) as [G1 G2]. destruct (geometric ((INR b + 1) / INR n)) as [G3 G4]. fold w in G2, G4.
    assert (F : forall t, t / INR n * w * INR n = t * w) by (intro t; field; lra).
    rewrite (ln_le_iff _ x G1 X), G2.
    assert (LT : x < min * Rpower (max / min) ((INR b + 1) / INR n) <-> ln x < ln min + (INR b + 1) / INR n * w).
    { rewrite <- G4. split; intro H; [apply ln_increasing; assumption|]. apply ln_lt_inv; assumption. }
    rewrite LT. pose proof (F (INR b)) as F1. pose proof (F (INR b + 1)) as F2. clear G1 G2 G3 G4 LT F.
    set (t1 := INR b / INR n * w) in *. set (t2 := (INR b + 1) / INR n * w) in *.
    split; intros [A B]; split.
    - apply (Rmult_le_reg_r w); [exact W|]. rewrite E, <- F1. apply Rmult_le_compat_r; lra.
    - apply (Rmult_lt_reg_r w); [exact W|]. rewrite E, <- F2. apply Rmult_lt_compat_r; lra.
    - assert (H : INR b * w <= q * w) by (apply Rmult_le_compat_r; lra). rewrite E, <- F1 in H. apply Rmult_le_reg_r in H; lra.
    - assert (H : q * w < (INR b + 1) * w) by (apply Rmult_lt_compat_r; lra). rewrite E, <- F2 in H. apply Rmult_lt_reg_r in H; lra.
  Qed.
  Lemma log_index_quotient x : 0 < x -> valueToLogIndex n min max x = to_size (log_quotient_of x).
  Proof.
    intros X. unfold valueToLogIndex, log10. destruct (Rlt_dec 0 min) as [_|Z]; [|lra]. destruct (Rlt_dec 0 max) as [_|Z]; [|lra]. destruct (Rlt_dec 0 x) as [_|Z]; [|lra].
    destruct (n =? 0)%nat eqn:E; [apply Nat.eqb_eq in E; lia|]. reflexivity.
  Qed.
  Lemma log_index b x : (b < n)%nat -> 0 < x -> log_bin n min max b x -> valueToLogIndex n min max x = Ok b.
  Proof. intros B X H. rewrite log_index_quotient by exact X. apply to_size_spec; [lia|]. apply log_quotient; assumption. Qed.
  Lemma log_total x : min <= x < max -> exists b, (b < n)%nat /\ log_bin n min max b x.
  Proof.
    intros H. assert (X : 0 < x) by lra. destruct (to_size_total n (log_quotient_of x)) as (b & B & Q).
    - lia.
    - pose proof (log_quotient_value x X) as E. pose proof log_pos as W. pose proof n_pos as P.
      assert (L1 : ln min <= ln x) by (apply (proj1 (ln_le_iff min x (proj1 Hm) X)); lra). assert (L2 : ln x < ln max) by (apply ln_increasing; lra).
      set (w := ln max - ln min) in *. split.
      + apply (Rmult_le_reg_r w); [exact W|]. rewrite E, Rmult_0_l. apply Rmult_le_pos; lra.
      + apply (Rmult_lt_reg_r w); [exact W|]. rewrite E, (Rmult_comm (INR n)). apply Rmult_lt_compat_r; unfold w; lra.
    - exists b. split; [exact B|]. apply log_quotient; assumption.
  Qed.

  (** ** histograms *)
  Definition largest (bin : nat -> R -> Prop) (f : R -> R) (l : list R) (h : list R) : Prop :=
    length h = n /\ forall b, (b < n)%nat ->
      0 <= nth b h 0 /\ (forall x, In x l -> bin b x -> f x <= nth b h 0) /\
      (nth b h 0 = 0 \/ exists x, In x l /\ bin b x /\ f x = nth b h 0).
  Lemma largest_step (bin : nat -> R -> Prop) f l h b x :
    largest bin f l h -> (b < n)%nat -> bin b x -> (forall b', (b' < n)%nat -> bin b' x -> b' = b) ->
    largest bin f (l ++ [x]) (upd h b (Rmax (nth b h 0) (f x))).
  Proof.
    intros [L H] B X U. split; [rewrite upd_length; exact L|]. intros b' B'.
    destruct (Nat.eq_dec b' b) as [->|N].
    - rewrite (nth_upd h b b) by lia. rewrite Nat.eqb_refl. destruct (H b B) as (H1 & H2 & H3). pose proof (Rmax_l (nth b h 0) (f x)). pose proof (Rmax_r (nth b h 0) (f x)).
      refine (conj _ (conj _ _)); [lra| |].
      + intros y Iy Y. apply in_app_iff in Iy. destruct Iy as [Iy|[<-|[]]]; [specialize (H2 y Iy Y); lra|lra].
      + unfold Rmax. destruct (Rle_dec (nth b h 0) (f x)).
        * right. exists x. refine (conj _ (conj X eq_refl)). apply in_app_iff. right. left. reflexivity.
        * destruct H3 as [H3|(y & Iy & Y & E)]; [left; exact H3|right; exists y; refine (conj _ (conj Y E)); apply in_app_iff; left; exact Iy].
    - rewrite (nth_upd h b b') by lia. destruct (b =? b')%nat eqn:Eb; [apply Nat.eqb_eq in Eb; congruence|]. destruct (H b' B') as (H1 & H2 & H3). refine (conj H1 (conj _ _)).
      + intros y Iy Y. apply in_app_iff in Iy. destruct Iy as [Iy|[<-|[]]]; [exact (H2 y Iy Y)|]. exfalso. apply N. apply U; assumption.
      + destruct H3 as [H3|(y & Iy & Y & E)]; [left; exact H3|right; exists y; refine (conj _ (conj Y E)); apply in_app_iff; left; exact Iy].
  Qed.
End Bins.

Section Tool.
  Variables next prev : R -> R.
  Variable n : nat.
  Variables min max : R.
  Hypothesis Hn : (0 < n)%nat.
  Hypothesis Hlimit : (Z.of_nat n < 4294967296)%Z.
  Hypothesis Hm : 0 < min < max.

  Lemma at_nth (h : list R) b : (b < length h)%nat -> at_ h b = Ok (nth b h 0).
  Proof. intro L. unfold at_. rewrite (nth_error_nth' h 0 L). reflexivity. Qed.
  Lemma step_ok f l st x : min <= x < max -> largest n (lin_bin n min max) f l (fst st) -> largest n (log_bin n min max) f l (snd st) ->
    exists st', glyph_step n min max f st x = Ok st' /\ largest n (lin_bin n min max) f (l ++ [x]) (fst st') /\ largest n (log_bin n min max) f (l ++ [x]) (snd st').
  Proof.
    intros X L G. assert (P : 0 < x) by lra.
    destruct (lin_total n min max Hn Hlimit Hm x X) as (b & B & Hb). destruct (log_total n min max Hn Hlimit Hm x X) as (c & C & Hc).
    pose proof (lin_index n min max Hn Hlimit Hm b x B Hb) as Ib. pose proof (log_index n min max Hn Hlimit Hm c x C P Hc) as Ic.
    pose proof (proj1 L) as Ll. pose proof (proj1 G) as Lg.
    exists (upd (fst st) b (Rmax (nth b (fst st) 0) (f x)), upd (snd st) c (Rmax (nth c (snd st) 0) (f x))). refine (conj _ (conj _ _)).
    - unfold glyph_step. rewrite Ib, Ic. cbn [bind]. rewrite at_nth by lia. cbn [bind]. destruct (c <? length (snd st))%nat eqn:E; [|apply Nat.ltb_ge in E; lia].
      rewrite at_nth by lia. reflexivity.
    - cbn [fst]. apply largest_step; try assumption. intros b' B' Hb'. pose proof (lin_index n min max Hn Hlimit Hm b' x B' Hb') as Ib'. congruence.
    - cbn [snd]. apply largest_step; try assumption. intros b' B' Hb'. pose proof (log_index n min max Hn Hlimit Hm b' x B' P Hb') as Ib'. congruence.
  Qed.
  Lemma histograms_ok f l : (forall x, In x l -> min <= x < max) ->
    exists st, histograms n min max l f = Ok st /\ largest n (lin_bin n min max) f l (fst st) /\ largest n (log_bin n min max) f l (snd st).
  Proof.
    assert (G : forall l acc st, (forall x, In x l -> min <= x < max) -> largest n (lin_bin n min max) f acc (fst st) -> largest n (log_bin n min max) f acc (snd st) ->
      exists st', foldM (glyph_step n min max f) l st = Ok st' /\ largest n (lin_bin n min max) f (acc ++ l) (fst st') /\ largest n (log_bin n min max) f (acc ++ l) (snd st')).
    { clear l. induction l as [|x l IH]; intros acc st X A B; [exists st; rewrite app_nil_r; auto|].
      destruct (step_ok f acc st x (X x (or_introl eq_refl)) A B) as (st1 & E1 & A1 & B1). cbn [foldM]. rewrite E1. cbn [bind].
      destruct (IH (acc ++ [x]) st1 (fun y I => X y (or_intror I)) A1 B1) as (st2 & E2 & A2 & B2). rewrite <- app_assoc in A2, B2. exists st2. auto. }
    intro X. apply (G l []); [exact X| |].
    all: cbn [fst snd]; split; [apply repeat_length|]; intros b _; assert (E : nth b (repeat 0 n) 0 = 0) by (apply nth_repeat); rewrite E; refine (conj (Rle_refl 0) (conj _ (or_introl eq_refl))); intros ? [].
  Qed.

  (** ** samples *)
  Lemma middles_in : forall bins D z, In z (add_middles bins D) <->
    In z D \/ exists i a b, nth_error bins i = Some (Some a) /\ nth_error bins (S i) = Some (Some b) /\ z = (a + b) / 2.
  Proof. clear Hn Hlimit Hm min max n.
    induction bins as [|o bins IH]; intros D z.
    - cbn [add_middles]. split; [auto|]. intros [H|(i & a & b & E & _)]; [exact H|destruct i; discriminate].
    - assert (Skip : (forall a b, o = Some a -> nth_error bins 0 <> Some (Some b)) -> add_middles (o :: bins) D = add_middles bins D).
      { intro N. cbn [add_middles]. destruct o as [a|]; [|destruct bins; reflexivity]. destruct bins as [|[b|] bins]; try reflexivity. exfalso. apply (N a b); reflexivity. }
      destruct o as [a|]; [destruct bins as [|[b|] bins]|].
      2:{ assert (Eq : add_middles (Some a :: Some b :: bins) D = add_middles (Some b :: bins) (rset_insert ((a + b) / 2) D)) by reflexivity.
          rewrite Eq, IH, rset_in. split.
          - intros [[->|H]|(i & x & y & E1 & E2 & E3)]; [right; exists 0%nat, a, b; auto|left; exact H|right; exists (S i), x, y; auto].
          - intros [H|(i & x & y & E1 & E2 & E3)]; [left; right; exact H|]. destruct i as [|i].
            + cbn in E1, E2. injection E1 as <-. injection E2 as <-. left. left. exact E3.
            + right. exists i, x, y. auto. }
      all: rewrite Skip by (intros x y E1 E2; cbn in E2; congruence); rewrite IH; split;
        (intros [H|(i & x & y & E1 & E2 & E3)]; [left; exact H|]).
      1,3,5: right; exists (S i), x, y; auto.
      all: destruct i as [|i]; [cbn in E1, E2; try discriminate|right; exists i, x, y; auto].
  Qed.
  Lemma middles_sorted : forall bins D, StronglySorted Rlt D -> StronglySorted Rlt (add_middles bins D).
  Proof. clear Hn Hlimit Hm min max n.
    induction bins as [|o bins IH]; intros D H; [exact H|]. destruct o as [a|]; [destruct bins as [|[b|] bins]|]; try (apply IH; exact H).
    apply (IH (rset_insert ((a + b) / 2) D)). apply rset_sorted. exact H.
  Qed.
  Lemma last_in (D : list R) : D <> [] -> In (last D 0) D.
  Proof. clear Hn Hlimit Hm min max n. induction D as [|x D IH]; [congruence|]. intros _. destruct D as [|y D]; [left; reflexivity|right; apply IH; discriminate]. Qed.
  Lemma last_greatest D : StronglySorted Rlt D -> forall y, In y D -> y <= last D 0.
  Proof. clear Hn Hlimit Hm min max n.
    induction 1 as [|x D S IH F]; intros y I; [destruct I|]. destruct D as [|z D]; [destruct I as [<-|[]]; apply Rle_refl|].
    change (last (x :: z :: D) 0) with (last (z :: D) 0). destruct I as [<-|I]; [|apply IH; exact I].
    assert (x < z) by (inversion F; assumption). specialize (IH z (or_introl eq_refl)). lra.
  Qed.
  Lemma hd_least D : StronglySorted Rlt D -> forall y, In y D -> hd 0 D <= y.
  Proof. clear Hn Hlimit Hm min max n. intros S y I. destruct S as [|x D S F]; [destruct I|]. cbn [hd]. destruct I as [<-|I]; [apply Rle_refl|]. rewrite Forall_forall in F. left. apply F. exact I. Qed.
  Lemma replace_in D : StronglySorted Rlt D -> forall x, In x (replaceDomain next prev D) <->
    exists y, In y D /\ ((exists z, In z D /\ y < z) /\ x = next y \/ (exists z, In z D /\ z < y) /\ x = prev y).
  Proof. clear Hn Hlimit Hm min max n.
    intros S x.
    assert (G : forall l s, In x (fold_left (fun s x =>
      let s := if Req_EM_T x (last D 0) then s else rset_insert (next x) s in
      if Req_EM_T x (hd 0 D) then s else rset_insert (prev x) s) l s) <->
      In x s \/ exists y, In y l /\ (y <> last D 0 /\ x = next y \/ y <> hd 0 D /\ x = prev y)).
    { induction l as [|y l IH]; intro s; cbn [fold_left]; [split; [auto|intros [H|(y & [] & _)]; exact H]|]. rewrite IH. clear IH. cbn zeta.
      assert (E : In x (if Req_EM_T y (hd 0 D) then if Req_EM_T y (last D 0) then s else rset_insert (next y) s else rset_insert (prev y) (if Req_EM_T y (last D 0) then s else rset_insert (next y) s)) <->
        In x s \/ (y <> last D 0 /\ x = next y \/ y <> hd 0 D /\ x = prev y)).
      { destruct (Req_EM_T y (hd 0 D)), (Req_EM_T y (last D 0)); rewrite ?rset_in; tauto. }
      rewrite E. clear E. split.
      - intros [[H|H]|(z & I & H)]; [left; exact H|right; exists y; split; [left; reflexivity|exact H]|right; exists z; split; [right; exact I|exact H]].
      - intros [H|(z & [<-|I] & H)]; [left; left; exact H|left; right; exact H|right; exists z; auto]. }
    unfold replaceDomain. rewrite G. clear G. split.
    - intros [[]|(y & I & H)]. assert (NE : D <> []) by (intro Z; rewrite Z in I; destruct I). exists y. split; [exact I|].
      destruct H as [[N E]|[N E]]; [left|right]; (split; [|exact E]).
      + exists (last D 0). split; [apply last_in; exact NE|]. pose proof (last_greatest D S y I). lra.
      + exists (hd 0 D). split; [destruct D; [congruence|left; reflexivity]|]. pose proof (hd_least D S y I). lra.
    - intros (y & I & H). right. exists y. split; [exact I|]. destruct H as [[(z & Iz & L) E]|[(z & Iz & L) E]]; [left|right]; (split; [|exact E]).
      + pose proof (last_greatest D S z Iz). lra.
      + pose proof (hd_least D S z Iz). lra.
  Qed.

  Lemma lin_nth i a : nth_error (map Some (linbins n min max)) i = Some (Some a) <-> (i < n)%nat /\ a = lin_end n min max i.
  Proof.
    unfold linbins. rewrite map_map. destruct (Nat.lt_ge_cases i n) as [L|L].
    - rewrite nth_error_map, (nth_error_nth' _ 0%nat) by (rewrite seq_length; exact L). rewrite seq_nth by exact L. cbn [option_map plus]. unfold lin_end. split; [intro E; injection E as <-; auto|intros [_ ->]; reflexivity].
    - assert (E : nth_error (map (fun x => Some (min + INR x * ((max - min) / INR n))) (seq 0 n)) i = None) by (apply nth_error_None; rewrite map_length, seq_length; exact L).
      rewrite E. split; [discriminate|lia].
  Qed.
  Lemma log_nth i a : nth_error (logbins n min max) i = Some (Some a) <-> (i < n)%nat /\ (1 < n)%nat /\ a = log_end n min max i.
  Proof.
    unfold logbins, log10. destruct (Rlt_dec 0 min) as [_|Z]; [|lra]. destruct (Rlt_dec 0 max) as [_|Z]; [|lra].
    destruct (Nat.lt_ge_cases i n) as [L|L].
    - rewrite nth_error_map, (nth_error_nth' _ 0%nat) by (rewrite seq_length; exact L). rewrite seq_nth by exact L. cbn [option_map plus].
      destruct (n - 1 =? 0)%nat eqn:E; [apply Nat.eqb_eq in E; split; [discriminate|lia]|]. apply Nat.eqb_neq in E.
      assert (P : 0 < INR (n - 1)) by (apply lt_0_INR; lia). pose proof ln10_pos as T.
      assert (Q : Rpower 10 (ln min / ln 10 + INR i * ((ln max / ln 10 - ln min / ln 10) / INR (n - 1))) = log_end n min max i).
      { unfold log_end, Rpower at 1. destruct (geometric min max Hm (INR i / INR (n - 1))) as [G1 G2].
        rewrite <- (exp_ln (min * _)) by exact G1. rewrite G2. f_equal. field. lra. }
      rewrite Q. split; [intro H; injection H as <-; repeat split; lia|intros (_ & _ & ->); reflexivity].
    - match goal with |- nth_error ?l i = _ <-> _ => assert (E : nth_error l i = None) by (apply nth_error_None; rewrite map_length, seq_length; exact L) end.
      rewrite E. split; [discriminate|lia].
  Qed.

  Definition samples (domain : list R) : list R := add_middles (logbins n min max) (add_middles (map Some (linbins n min max)) domain).
  Lemma samples_in domain z : In z (samples domain) <-> sample n min max domain z.
  Proof.
    unfold samples, sample. rewrite !middles_in. split.
    - intros [[H|(i & a & b & E1 & E2 & E3)]|(i & a & b & E1 & E2 & E3)].
      + left. exact H.
      + apply lin_nth in E1, E2. destruct E1 as [L1 ->], E2 as [L2 ->]. right. left. exists i. split; [lia|exact E3].
      + apply log_nth in E1, E2. destruct E1 as (L1 & _ & ->), E2 as (L2 & _ & ->). right. right. exists i. split; [lia|exact E3].
    - intros [H|[(i & L & E)|(i & L & E)]].
      + left. left. exact H.
      + left. right. exists i, (lin_end n min max i), (lin_end n min max (S i)). refine (conj _ (conj _ E)); apply lin_nth; split; try reflexivity; lia.
      + right. exists i, (log_end n min max i), (log_end n min max (S i)). refine (conj _ (conj _ E)); apply log_nth; repeat split; lia.
  Qed.

  (** all samples are in the range *)
  Lemma sample_range domain z : (forall y, In y domain -> min <= y < max) -> sample n min max domain z -> min <= z < max.
  Proof.
    intros HD [H|[(i & L & ->)|(i & L & ->)]]; [apply HD; exact H| |].
    - assert (A : forall j, (j < n)%nat -> min <= lin_end n min max j < max).
      { intros j J. unfold lin_end. pose proof (lt_INR _ _ J) as Q. pose proof (pos_INR j) as Q0. set (w := (max - min) / INR n).
        assert (W : 0 < w) by (apply Rdiv_lt_0_compat; lra). assert (E' : INR n * w = max - min) by (unfold w; field; lra).
        assert (INR j * w < INR n * w) by (apply Rmult_lt_compat_r; lra). assert (0 <= INR j * w) by (apply Rmult_le_pos; lra). lra. }
      pose proof (A i ltac:(lia)). pose proof (A (S i) L). lra.
    - assert (A : forall j, (j < n)%nat -> min <= log_end n min max j <= max /\ ((S j < n)%nat -> log_end n min max j < max)).
      { intros j J. assert (P : 0 < INR (n - 1)) by (apply lt_0_INR; lia). unfold log_end. destruct (geometric min max Hm (INR j / INR (n - 1))) as [G1 G2]. set (g := min * _) in *.
        pose proof (log_pos min max Hm) as W. assert (Q : 0 <= INR j / INR (n - 1) <= 1 /\ ((S j < n)%nat -> INR j / INR (n - 1) < 1)).
        { pose proof (pos_INR j). assert (Le : INR j <= INR (n - 1)) by (apply le_INR; lia). assert (Pi : 0 < / INR (n - 1)) by (apply Rinv_0_lt_compat; exact P).
          assert (One : INR (n - 1) * / INR (n - 1) = 1) by (apply Rinv_r; lra). unfold Rdiv. refine (conj (conj _ _) _).
          - apply Rmult_le_pos; lra.
          - rewrite <- One. apply Rmult_le_compat_r; lra.
          - intro Lt. rewrite <- One. apply Rmult_lt_compat_r; [exact Pi|]. apply lt_INR. lia. }
        destruct Q as [Q1 Q2]. set (t := INR j / INR (n - 1)) in *. set (w := ln max - ln min) in *.
        assert (0 <= t * w) by (apply Rmult_le_pos; lra). assert (t * w <= 1 * w) by (apply Rmult_le_compat_r; lra).
        refine (conj (conj _ _) _).
        - apply ln_le_iff; [lra|exact G1|lra].
        - apply ln_le_iff; [exact G1|lra|]. unfold w in *. lra.
        - intro Lt. apply ln_lt_inv; [exact G1|lra|]. specialize (Q2 Lt). assert (t * w < 1 * w) by (apply Rmult_lt_compat_r; lra). unfold w in *. lra. }
      destruct (A i ltac:(lia)) as [A1 A2]. specialize (A2 L). destruct (A (S i) L) as [A3 _]. lra.
  Qed.
End Tool.

(** ** output *)
Lemma print_table m row : table row m (print_glyph m row).
Proof.
  unfold table, print_glyph. rewrite map_length, combine_length, seq_length, Nat.min_id. split; [reflexivity|]. intros b B.
  rewrite nth_error_map. assert (E : nth_error (combine (seq 0 (length m)) m) b = Some (b, nth b m 0)).
  { rewrite (nth_error_nth' _ (0%nat, 0)) by (rewrite combine_length, seq_length; lia). f_equal. rewrite combine_nth by apply seq_length. rewrite seq_nth by exact B. reflexivity. }
  rewrite E. reflexivity.
Qed.
Lemma indexed_nth {A B} (f : nat * A -> B) (l : list A) i b : nth_error (map f (combine (seq 0 (length l)) l)) i = Some b -> exists a, nth_error l i = Some a /\ b = f (i, a).
Proof.
  rewrite nth_error_map. assert (G : forall (l : list A) k i, nth_error (combine (seq k (length l)) l) i = option_map (fun a => ((k + i)%nat, a)) (nth_error l i)).
  { clear. induction l as [|a l IH]; intros k i; [destruct i; reflexivity|]. cbn [length seq combine]. destruct i as [|i]; cbn [nth_error option_map]; [rewrite Nat.add_0_r; reflexivity|].
    rewrite IH. destruct (nth_error l i); [cbn [option_map]; do 2 f_equal; lia|reflexivity]. }
  rewrite G. destruct (nth_error l i) as [a|]; cbn [option_map plus]; [|discriminate]. intro E. injection E as <-. exists a. auto.
Qed.

(** ** the result *)
(** Both files have one table for every function, and tables with zeros up to the number that has been requested.
    The entry of a bin is the largest value of the function at the points of evaluation in the bin, and zero if
    there is none that is positive.  Neighbours of samples do not go beyond other samples; this is true of the
    neighbours of floating-point numbers. *)
Theorem C154_glyphs next prev n maxK domain pifs :
  let min := hd 0 domain in
  let max := next (last domain 0) in
  (0 < n)%nat -> (Z.of_nat n < 4294967296)%Z -> domain <> [] -> StronglySorted Rlt domain -> 0 < min ->
  (forall y, prev y < y < next y) ->
  (forall y z, sample n min max domain y -> sample n min max domain z -> y < z -> next y <= z /\ y <= prev z) ->
  exists L G, glyphs next prev n maxK domain pifs = Ok (Some (L, G)) /\
    length L = Nat.max maxK (length pifs) /\ length G = Nat.max maxK (length pifs) /\
    forall i t u, nth_error L i = Some t -> nth_error G i = Some u ->
      exists h g, table i h t /\ table i g u /\
        match nth_error pifs i with
        | Some f => histogram next prev n min max domain (lin_bin n min max) f h /\ histogram next prev n min max domain (log_bin n min max) f g
        | None => h = repeat 0 n /\ g = repeat 0 n
        end.
Proof.
  intros min max Hn Hl NE S Pos NP Near.
  assert (HD : forall y, In y domain -> min <= y < max).
  { intros y I. split; [apply hd_least; assumption|]. pose proof (last_greatest domain S y I). pose proof (NP (last domain 0)). unfold max. lra. }
  assert (Hm : 0 < min < max). { split; [exact Pos|]. assert (I : In min domain) by (unfold min; destruct domain; [congruence|left; reflexivity]). apply (HD min I). }
  set (D2 := replaceDomain next prev (samples n min max domain)).
  assert (SS : StronglySorted Rlt (samples n min max domain)) by (unfold samples; do 2 apply middles_sorted; exact S).
  assert (Ev : forall x, In x D2 <-> evaluated next prev n min max domain x).
  { intro x. unfold D2, evaluated. rewrite replace_in by exact SS. split; intros (y & I & H); exists y; (split; [apply (samples_in n min max Hn Hm); exact I|]);
      (destruct H as [[(z & Iz & L) E]|[(z & Iz & L) E]]; [left|right]); (split; [|exact E]); exists z; (split; [apply (samples_in n min max Hn Hm); exact Iz|exact L]). }
  assert (Rng : forall x, In x D2 -> min <= x < max).
  { intros x I. apply Ev in I. destruct I as (y & Iy & H). pose proof (sample_range n min max Hn Hm domain y HD Iy) as Ry. pose proof (NP y) as Ny.
    destruct H as [[(z & Iz & L) E]|[(z & Iz & L) E]]; pose proof (sample_range n min max Hn Hm domain z HD Iz) as Rz.
    - destruct (Near y z Iy Iz L). lra.
    - destruct (Near z y Iz Iy L). lra. }
  assert (Hist : forall f, exists st, histograms n min max D2 f = Ok st /\
    histogram next prev n min max domain (lin_bin n min max) f (fst st) /\ histogram next prev n min max domain (log_bin n min max) f (snd st)).
  { intro f. destruct (histograms_ok n min max Hn Hl Hm f D2 Rng) as (st & E & A & B). exists st. refine (conj E (conj _ _)).
    - destruct A as [A1 A2]. split; [exact A1|]. intros b Hb. destruct (A2 b Hb) as (X & Y & Z). refine (conj X (conj _ _)); [intros x I; apply Y; apply Ev; exact I|].
      destruct Z as [Z|(x & I & Z)]; [left; exact Z|right; exists x; split; [apply Ev; exact I|exact Z]].
    - destruct B as [A1 A2]. split; [exact A1|]. intros b Hb. destruct (A2 b Hb) as (X & Y & Z). refine (conj X (conj _ _)); [intros x I; apply Y; apply Ev; exact I|].
      destruct Z as [Z|(x & I & Z)]; [left; exact Z|right; exists x; split; [apply Ev; exact I|exact Z]]. }
  assert (All : forall fs acc, exists hs, foldM (fun hs pif => let* h := histograms n min max D2 pif in Ok (hs ++ [h])) fs acc = Ok (acc ++ hs) /\
    Forall2 (fun f h => histogram next prev n min max domain (lin_bin n min max) f (fst h) /\ histogram next prev n min max domain (log_bin n min max) f (snd h)) fs hs).
  { induction fs as [|f fs IH]; intro acc; [exists []; rewrite app_nil_r; split; [reflexivity|constructor]|].
    destruct (Hist f) as (h & E & H). cbn [foldM]. rewrite E. cbn [bind]. destruct (IH (acc ++ [h])) as (hs & E2 & F). exists (h :: hs). rewrite E2, <- app_assoc. split; [reflexivity|constructor; assumption]. }
  destruct (All pifs []) as (hs & E & F). cbn [app] in E.
  set (hs' := hs ++ repeat (repeat 0 n, repeat 0 n) (maxK - length pifs)).
  assert (Len : length pifs = length hs) by (clear - F; induction F; cbn [length]; congruence).
  exists (map (fun p => print_glyph (fst (snd p)) (fst p)) (combine (seq 0 (length hs')) hs')), (map (fun p => print_glyph (snd (snd p)) (fst p)) (combine (seq 0 (length hs')) hs')).
  assert (Len' : length hs' = Nat.max maxK (length pifs)) by (unfold hs'; rewrite app_length, repeat_length; lia).
  refine (conj _ (conj _ (conj _ _))).
  - unfold glyphs. destruct domain as [|d domain]; [congruence|]. unfold D2, samples, max, min in E. cbn [hd] in E. cbv zeta. rewrite E. cbn [bind]. reflexivity.
  - rewrite map_length, combine_length, seq_length, Nat.min_id. exact Len'.
  - rewrite map_length, combine_length, seq_length, Nat.min_id. exact Len'.
  - intros i t u Ht Hu. apply indexed_nth in Ht, Hu. destruct Ht as (h & I & ->), Hu as (h' & I' & ->). rewrite I in I'. injection I' as <-. cbn [fst snd].
    exists (fst h), (snd h). refine (conj (print_table _ _) (conj (print_table _ _) _)).
    unfold hs' in I. destruct (nth_error pifs i) as [f|] eqn:Ei.
    + assert (Li : (i < length pifs)%nat) by (apply nth_error_Some; congruence). rewrite nth_error_app1 in I by lia.
      clear - F Ei I. revert i Ei I. induction F as [|f' h' fs hs P F IH]; intros i Ei I; [destruct i; discriminate|]. destruct i as [|i]; [cbn in Ei, I; injection Ei as ->; injection I as ->; exact P|exact (IH i Ei I)].
    + apply nth_error_None in Ei. rewrite nth_error_app2 in I by lia. apply nth_error_In, repeat_spec in I. rewrite I. split; reflexivity.
Qed.

(** If the smallest value is not positive, as it is for diagrams with points that are created at zero, the behaviour
    is undefined, whatever is done with the logarithmic bins afterwards. *)
Theorem C154_zero_refuted next prev n maxK domain f pifs :
  StronglySorted Rlt domain -> (2 <= length domain)%nat -> hd 0 domain <= 0 ->
  glyphs next prev n maxK domain (f :: pifs) = UB.
Proof.
  intros S L Z. destruct domain as [|a [|b domain]]; [cbn in L; lia|cbn in L; lia|]. cbn [hd] in Z. unfold glyphs.
  set (max := next (last (a :: b :: domain) 0)). set (D1 := add_middles (logbins n a max) (add_middles (map Some (linbins n a max)) (a :: b :: domain))).
  assert (S1 : StronglySorted Rlt D1) by (unfold D1; do 2 apply middles_sorted; exact S).
  assert (AB : a < b) by (inversion S as [|? ? _ F]; inversion F; assumption).
  assert (I : In (next a) (replaceDomain next prev D1)).
  { apply replace_in; [exact S1|]. exists a. split; [|left; split; [exists b; split; [|exact AB]|reflexivity]];
      unfold D1; apply middles_in; left; apply middles_in; left; cbn [In]; auto. }
  set (D2 := replaceDomain next prev D1) in *. cbn [foldM]. unfold histograms. destruct D2 as [|x D2]; [destruct I|]. cbn [foldM].
  assert (U : glyph_step n a max f (repeat 0 n, repeat 0 n) x = UB).
  { unfold glyph_step. assert (T : forall y, (exists b, to_size y = Ok b) \/ to_size y = UB).
    { intro y. unfold to_size. destruct (Rle_dec y (-1)); [right; reflexivity|]. destruct (Rle_dec 18446744073709551616 y); [right; reflexivity|]. destruct (Rlt_dec y 0); left; eexists; reflexivity. }
    assert (V : (exists b, valueToLinIndex n a max x = Ok b) \/ valueToLinIndex n a max x = UB).
    { unfold valueToLinIndex. destruct (n =? 0)%nat; [left; eexists; reflexivity|apply T]. }
    destruct V as [(c & ->)| ->]; [|reflexivity]. cbn [bind]. unfold valueToLogIndex, log10. destruct (Rlt_dec 0 a) as [P|_]; [lra|]. reflexivity. }
  rewrite U. reflexivity.
Qed.

(** The ends of the logarithmic bins that are announced, and that determine the samples, are not those of the histogram:
    all but the first are larger, and the last one has no bin. *)
Theorem C154_log_ends_refuted n min max : (1 < n)%nat -> (Z.of_nat n < 4294967296)%Z -> 0 < min < max ->
  (forall i, (0 < i < n)%nat -> min * Rpower (max / min) (INR i / INR n) < log_end n min max i) /\
  valueToLogIndex n min max (log_end n min max (n - 1)) = Ok n.
Proof.
  intros Hn Hl Hm. assert (P : 0 < INR (n - 1)) by (apply lt_0_INR; lia). assert (P' : INR (n - 1) < INR n) by (apply lt_INR; lia).
  pose proof (log_pos min max Hm) as W. split.
  - intros i Hi. unfold log_end. destruct (geometric min max Hm (INR i / INR n)) as [A1 A2]. destruct (geometric min max Hm (INR i / INR (n - 1))) as [B1 B2].
    apply ln_lt_inv; [exact A1|exact B1|]. rewrite A2, B2. apply Rplus_lt_compat_l, Rmult_lt_compat_r; [exact W|]. unfold Rdiv. apply Rmult_lt_compat_l; [apply lt_0_INR; lia|]. apply Rinv_lt_contravar; [apply Rmult_lt_0_compat; lra|exact P'].
  - destruct (geometric min max Hm (INR (n - 1) / INR (n - 1))) as [A1 A2]. unfold log_end. set (g := min * _) in *.
    assert (G : ln g = ln max). { rewrite A2. unfold Rdiv. rewrite Rinv_r by lra. ring. }
    rewrite (log_index_quotient n min max ltac:(lia) Hm g A1). apply to_size_spec; [lia|].
    assert (E : log_quotient_of n min max g = INR n). { unfold log_quotient_of. rewrite G. pose proof ln10_pos. field. split; lra. }
    rewrite E. lra.
Qed.

(** The documentation of [print] shows the row first. *)
Theorem C154_print_refuted : exists m row, print_glyph m row <> map (fun p => (row, fst p, snd p)) (combine (seq 0 (length m)) m).
Proof. exists [4; 5; 6], 23%nat. cbn. intro E. discriminate. Qed.

(** one bin, the domain with values 1 and 2, and a function that is 3 at all points *)
Example C154_example : exists L G,
  glyphs (fun x => x + 1 / 2) (fun x => x - 1 / 2) 1 2 [1; 2] [fun _ => 3] = Ok (Some (L, G)) /\ L = [[(0%nat, 0%nat, 3)]; [(0%nat, 1%nat, 0)]].
Proof.
  set (next := fun x => x + 1 / 2). set (prev := fun x => x - 1 / 2).
  assert (Smp : forall y, sample 1 1 (next 2) [1; 2] y -> y = 1 \/ y = 2).
  { intros y [H|[(i & L & _)|(i & L & _)]]; [cbn [In] in H; intuition congruence|lia|lia]. }
  destruct (C154_glyphs next prev 1 2 [1; 2] [fun _ => 3]) as (L & G & E & A & B & C).
  - lia.
  - lia.
  - discriminate.
  - repeat constructor; lra.
  - cbn [hd]. lra.
  - intro y. unfold next, prev. lra.
  - cbn [hd last]. intros y z Hy Hz Lt. apply Smp in Hy, Hz. unfold next, prev. lra.
  - exists L, G. split; [exact E|]. cbn [length Nat.max] in A, B. destruct L as [|t0 [|t1 [|]]]; try discriminate. destruct G as [|u0 [|u1 [|]]]; try discriminate.
    destruct (C 0%nat t0 u0 eq_refl eq_refl) as (h & g & T & _ & [Hl Hh] & _). destruct (C 1%nat t1 u1 eq_refl eq_refl) as (h' & g' & T' & _ & -> & _).
    destruct h as [|x [|]]; try discriminate. destruct t0 as [|q0 [|]]; try (destruct T; discriminate). destruct t1 as [|q1 [|]]; try (destruct T'; discriminate).
    destruct T as [_ T]. specialize (T 0%nat ltac:(cbn; lia)). cbn in T. injection T as ->. destruct T' as [_ T']. specialize (T' 0%nat ltac:(cbn; lia)). cbn in T'. injection T' as ->.
    destruct (Hh 0%nat ltac:(lia)) as (H1 & H2 & H3). cbn [nth hd last] in H1, H2, H3.
    assert (X : x = 3).
    { assert (Le : 3 <= x).
      { apply (H2 (next 1)).
        - exists 1. split; [left; left; reflexivity|left; split; [exists 2; split; [left; right; left; reflexivity|lra]|reflexivity]].
        - unfold lin_bin, next. cbn [INR]. lra. }
      destruct H3 as [H3|(_ & _ & _ & H3)]; [lra|symmetry; exact H3]. }
    rewrite X. reflexivity.
Qed.

Print Assumptions C154_glyphs.
Print Assumptions C154_zero_refuted.
Print Assumptions C154_log_ends_refuted.
Print Assumptions C154_print_refuted.
