(** * Facts about piecewise linear functions. *)
From Coq Require Import List Arith Bool QArith Qabs Qfield Lqa Sorted Setoid Morphisms.
From Verif Require Import Base BaseFacts PiecewiseLinear.
Import ListNotations.
Local Open Scope Q_scope.

Lemma qltb_spec x y : BoolSpec (x < y) (y <= x) (qltb x y).
Proof.
  unfold qltb. destruct (Qle_bool y x) eqn:E; cbn [negb]; constructor; [apply Qle_bool_iff; auto|].
  apply Qnot_le_lt. intro H. apply Qle_bool_iff in H. congruence.
Qed.
Lemma qeqb_spec x y : BoolSpec (x == y) (~ x == y) (Qeq_bool x y).
Proof. destruct (Qeq_bool x y) eqn:E; constructor; [apply Qeq_bool_iff; auto|]. intro H. apply Qeq_bool_iff in H. congruence. Qed.

Definition pl_sorted (f : pl) : Prop := StronglySorted (fun p q => fst p < fst q) f.
Definition q_sorted (s : list Q) : Prop := StronglySorted Qlt s.

(** ** evaluation *)
Lemma lower_skip x : forall l1 prev l2, Forall (fun p => fst p < x) l1 -> lower_bound x prev (l1 ++ l2) = lower_bound x (last (map Some l1) prev) l2.
Proof.
  induction l1 as [|p l1 IH]; intros prev l2 H; [reflexivity|]. inversion H; subst. cbn [app lower_bound]. destruct (qltb_spec (fst p) x); [|lra].
  rewrite IH by auto. f_equal. cbn [map]. destruct l1 as [|a l1]; [reflexivity|]. cbn [map]. generalize (map Some l1). intro m.
  clear. revert a. induction m as [|b m IHm]; intro a; [reflexivity|]. cbn [last]. destruct b; destruct m; auto.
  all: specialize (IHm a); cbn [last] in *; auto.
Qed.

Lemma pl_sorted_app f1 f2 : pl_sorted (f1 ++ f2) -> pl_sorted f1 /\ pl_sorted f2 /\ forall p q, In p f1 -> In q f2 -> fst p < fst q.
Proof. intro H. apply StronglySorted_app in H. tauto. Qed.

Lemma lerp_left x x0 y0 x1 y1 : x == x0 -> ~ x1 == x0 -> lerp x x0 y0 x1 y1 == y0.
Proof. intros Hx H. unfold lerp. rewrite Hx. field. intro E. apply H. lra. Qed.
Lemma lerp_right x x0 y0 x1 y1 : x == x1 -> ~ x1 == x0 -> lerp x x0 y0 x1 y1 == y1.
Proof. intros Hx H. unfold lerp. rewrite Hx. field. intro E. apply H. lra. Qed.

Lemma eval_first x p0 f : pl_sorted (p0 :: f) -> fst p0 <= x -> pl_eval (p0 :: f) x =
  match lower_bound x None (p0 :: f) with
  | (_, []) => 0
  | (prev, r :: _) => if Qeq_bool (fst r) x then snd r
                      else match prev with Some l => lerp x (fst l) (snd l) (fst r) (snd r) | None => 0 end
  end.
Proof. intros Hs H. unfold pl_eval. destruct (lower_bound x None (p0 :: f)) as [prev [|r rest]]; [reflexivity|]. destruct (qltb_spec x (fst p0)); [lra|reflexivity]. Qed.

Lemma eval_below x f : (forall p, In p f -> x < fst p) -> pl_eval f x = 0.
Proof.
  intro H. destruct f as [|p0 f]; [reflexivity|]. unfold pl_eval. destruct (lower_bound x None (p0 :: f)) as [prev [|r rest]]; [reflexivity|].
  destruct (qltb_spec x (fst p0)); [reflexivity|]. specialize (H p0 (or_introl eq_refl)). lra.
Qed.

Lemma eval_above x f : (forall p, In p f -> fst p < x) -> pl_eval f x = 0.
Proof.
  intro H. destruct f as [|p0 f]; [reflexivity|]. unfold pl_eval. replace (p0 :: f) with ((p0 :: f) ++ []) at 1 by apply app_nil_r.
  rewrite lower_skip by (apply Forall_forall; auto). reflexivity.
Qed.

Lemma eval_point f p x : pl_sorted f -> In p f -> x == fst p -> pl_eval f x == snd p.
Proof.
  intros Hs Hp Hx. apply in_split in Hp as (f1 & f2 & ->). destruct (pl_sorted_app f1 (p :: f2) Hs) as (S1 & S2 & S3).
  assert (H1 : Forall (fun q => fst q < x) f1) by (apply Forall_forall; intros q Hq; rewrite Hx; apply S3; simpl; auto).
  assert (E : exists p0 f', f1 ++ p :: f2 = p0 :: f' /\ fst p0 <= x).
  { destruct f1 as [|p0 f1]; [exists p, f2; split; [reflexivity|lra]|]. exists p0, (f1 ++ p :: f2). split; [reflexivity|]. inversion H1; subst. lra. }
  destruct E as (p0 & f' & E & Hle). rewrite E in *. rewrite eval_first by auto. rewrite <- E, lower_skip by auto. cbn [lower_bound].
  destruct (qltb_spec (fst p) x); [lra|]. destruct (qeqb_spec (fst p) x); [reflexivity|]. exfalso. lra.
Qed.

Lemma eval_segment f1 p q f2 x : pl_sorted (f1 ++ p :: q :: f2) -> fst p <= x <= fst q ->
  pl_eval (f1 ++ p :: q :: f2) x == lerp x (fst p) (snd p) (fst q) (snd q).
Proof.
  intros Hs [Hp Hq]. destruct (pl_sorted_app f1 (p :: q :: f2) Hs) as (S1 & S2 & S3).
  assert (Hpq : fst p < fst q) by (inversion S2 as [|? ? _ Hf]; inversion Hf; auto).
  destruct (Qlt_le_dec (fst p) x) as [Hlt|Hle].
  - assert (H1 : Forall (fun r => fst r < x) (f1 ++ [p])).
    { apply Forall_app. split; [|repeat constructor; auto]. apply Forall_forall. intros r Hr. specialize (S3 r p Hr (or_introl eq_refl)). lra. }
    assert (E : exists p0 f', f1 ++ p :: q :: f2 = p0 :: f' /\ fst p0 <= x).
    { destruct f1 as [|p0 f1]; [exists p, (q :: f2); split; [reflexivity|lra]|]. exists p0, (f1 ++ p :: q :: f2). split; [reflexivity|]. inversion H1; subst. lra. }
    destruct E as (p0 & f' & E & Hle). rewrite E in *. rewrite eval_first by auto. rewrite <- E.
    replace (f1 ++ p :: q :: f2) with ((f1 ++ [p]) ++ q :: f2) by (rewrite <- app_assoc; reflexivity). rewrite lower_skip by auto. cbn [lower_bound].
    destruct (qltb_spec (fst q) x); [lra|]. replace (last (map Some (f1 ++ [p])) None) with (Some p) by (rewrite map_app; cbn [map]; rewrite last_last; reflexivity).
    destruct (qeqb_spec (fst q) x); [|reflexivity]. rewrite lerp_right; [reflexivity|lra|lra].
  - rewrite lerp_left by lra. apply eval_point; auto; [apply in_app_iff; simpl; auto|lra].
Qed.

(** between two neighbours without breakpoints in between *)
Lemma segment_around f xl xr : pl_sorted f -> (exists p, In p f /\ fst p <= xl) -> (exists q, In q f /\ xr <= fst q) -> xl < xr ->
  (forall r, In r f -> fst r <= xl \/ xr <= fst r) ->
  exists f1 p q f2, f = f1 ++ p :: q :: f2 /\ fst p <= xl /\ xr <= fst q.
Proof.
  induction f as [|p f IH]; intros Hs (p0 & Hp0 & Hle) (q0 & Hq0 & Hge) Hlt Hgap; [easy|].
  inversion Hs as [|? ? Hs' Hf]; subst. rewrite Forall_forall in Hf.
  assert (Hp : fst p <= xl). { destruct Hp0 as [<-|Hp0]; [exact Hle|]. specialize (Hf p0 Hp0). lra. }
  destruct Hq0 as [<-|Hq0]; [lra|]. destruct f as [|q f]; [easy|].
  destruct (Hgap q (or_intror (or_introl eq_refl))) as [Hq|Hq].
  - destruct IH as (f1 & a & b & f2 & -> & A & B); auto.
    + exists q. simpl. auto.
    + exists q0. auto.
    + intros r Hr. apply Hgap. simpl; auto.
    + exists (p :: f1), a, b, f2. auto.
  - exists [], p, q, f. auto.
Qed.

Lemma lerp_affine x xl xr x0 y0 x1 y1 : x0 <= xl -> xl < xr -> xr <= x1 ->
  lerp x x0 y0 x1 y1 == lerp x xl (lerp xl x0 y0 x1 y1) xr (lerp xr x0 y0 x1 y1).
Proof. intros. unfold lerp. field. split; intro; lra. Qed.

Lemma eval_affine f xl xr x : pl_sorted f -> (exists p, In p f /\ fst p <= xl) -> (exists q, In q f /\ xr <= fst q) -> xl < xr ->
  (forall r, In r f -> fst r <= xl \/ xr <= fst r) -> xl <= x <= xr ->
  pl_eval f x == lerp x xl (pl_eval f xl) xr (pl_eval f xr).
Proof.
  intros Hs H1 H2 Hlt Hgap Hx. destruct (segment_around f xl xr Hs H1 H2 Hlt Hgap) as (f1 & p & q & f2 & -> & A & B).
  unfold lerp at 1. rewrite !(eval_segment f1 p q f2) by (auto; lra). apply (lerp_affine x xl xr); auto.
Qed.

(** ** finding the place of an argument *)
Lemma locate f x : pl_sorted f -> (exists p, In p f /\ fst p <= x) -> (exists q, In q f /\ x <= fst q) ->
  (exists f1 p q f2, f = f1 ++ p :: q :: f2 /\ fst p <= x <= fst q) \/ (exists p, f = [p] /\ x == fst p).
Proof.
  induction f as [|p f IH]; intros Hs (p0 & Hp0 & Hle) (q0 & Hq0 & Hge); [easy|].
  inversion Hs as [|? ? Hs' Hf]; subst. rewrite Forall_forall in Hf.
  assert (Hp : fst p <= x). { destruct Hp0 as [<-|Hp0]; [exact Hle|]. specialize (Hf p0 Hp0). lra. }
  destruct f as [|q f].
  - right. exists p. split; [reflexivity|]. destruct Hq0 as [<-|[]]. lra.
  - left. destruct (Qlt_le_dec x (fst q)) as [Hlt|Hle'].
    + exists [], p, q, f. split; [reflexivity|lra].
    + destruct IH as [(f1 & a & b & f2 & E & Hab)|(a & E & Ha)]; auto.
      * exists q. simpl. split; auto.
      * destruct Hq0 as [<-|Hq0]; [|exists q0; auto]. exists q. assert (G := Hf q (or_introl eq_refl)). split; [simpl; auto|lra].
      * exists (p :: f1), a, b, f2. rewrite E. auto.
      * injection E as -> ->. exists [], p, a, []. split; [reflexivity|lra].
Qed.

(** ** sets and maps *)
Definition qin (x : Q) (s : list Q) : Prop := exists y, In y s /\ y == x.

Lemma qset_insert_sorted x s : q_sorted s -> q_sorted (qset_insert x s).
Proof.
  induction s as [|y s IH]; intro Hs; [repeat constructor|]. cbn [qset_insert]. inversion Hs as [|? ? Hs' Hf]; subst. destruct (qltb_spec x y).
  - constructor; auto. constructor; auto. eapply Forall_impl; [|exact Hf]. cbn beta. intros; lra.
  - destruct (qltb_spec y x); auto. constructor; [apply IH; auto|]. apply Forall_forall. intros z Hz.
    assert (Hz' : In z (x :: s)).
    { clear - Hz. induction s as [|k s IH]; [exact Hz|]. cbn [qset_insert] in Hz. destruct (qltb x k); [exact Hz|]. destruct (qltb k x); [|simpl in *; tauto].
      destruct Hz as [->|Hz]; [simpl; auto|]. apply IH in Hz. simpl in *. tauto. }
    destruct Hz' as [<-|Hz']; [auto|]. rewrite Forall_forall in Hf. auto.
Qed.
Lemma qset_insert_In x s z : In z (qset_insert x s) -> z = x \/ In z s.
Proof.
  induction s as [|y s IH]; cbn [qset_insert]; [simpl; intuition|]. destruct (qltb x y); [simpl; intuition|]. destruct (qltb y x); [|auto]. simpl. intuition.
Qed.
Lemma qset_insert_old x s z : In z s -> In z (qset_insert x s).
Proof. induction s as [|y s IH]; cbn [qset_insert]; [easy|]. destruct (qltb x y); [simpl; auto|]. destruct (qltb y x); [|auto]. simpl. intuition. Qed.
Lemma qset_insert_new x s : qin x (qset_insert x s).
Proof.
  induction s as [|y s IH]; cbn [qset_insert]; [exists x; simpl; split; auto; reflexivity|]. destruct (qltb_spec x y); [exists x; simpl; split; auto; reflexivity|].
  destruct (qltb_spec y x); [|exists y; simpl; split; auto; lra]. destruct IH as (z & Hz & E). exists z. simpl. auto.
Qed.

Lemma insert_all_sorted l : forall s, q_sorted s -> q_sorted (qset_insert_all l s).
Proof. induction l as [|x l IH]; intros s H; [exact H|]. apply IH, qset_insert_sorted, H. Qed.
Lemma insert_all_In l : forall s z, In z (qset_insert_all l s) -> In z l \/ In z s.
Proof. induction l as [|x l IH]; intros s z H; [auto|]. apply IH in H as [H|H]; [simpl; auto|]. apply qset_insert_In in H. simpl. intuition. Qed.
Lemma insert_all_old l : forall s z, In z s -> In z (qset_insert_all l s).
Proof. induction l as [|x l IH]; intros s z H; [exact H|]. apply IH, qset_insert_old, H. Qed.
Lemma insert_all_new l : forall s z, In z l -> qin z (qset_insert_all l s).
Proof.
  induction l as [|x l IH]; intros s z H; [easy|]. destruct H as [->|H]; cbn [qset_insert_all fold_left]; [|apply IH; auto].
  destruct (qset_insert_new z s) as (y & Hy & E). exists y. split; [apply insert_all_old; auto|auto].
Qed.

Lemma plm_insert_last x y m : Forall (fun p => fst p < x) m -> plm_insert x y m = (m ++ [(x, y)], true).
Proof.
  induction 1 as [|p m Hp _ IH]; [reflexivity|]. cbn [plm_insert]. destruct (qltb_spec x (fst p)); [lra|]. destruct (qltb_spec (fst p) x); [|lra]. rewrite IH. reflexivity.
Qed.

Lemma build_map (h : Q -> Q) : forall xs m, Forall (fun p => Forall (fun x => fst p < x) xs) m -> q_sorted xs ->
  fold_left (fun m x => fst (plm_insert x (h x) m)) xs m = m ++ map (fun x => (x, h x)) xs.
Proof.
  induction xs as [|x xs IH]; intros m Hm Hs; [rewrite app_nil_r; reflexivity|]. cbn [fold_left map]. inversion Hs as [|? ? Hs' Hf]; subst.
  rewrite plm_insert_last. 2:{ eapply Forall_impl; [|exact Hm]. cbn beta. intros p Hp. inversion Hp; auto. }
  cbn [fst]. rewrite IH; auto; [rewrite <- app_assoc; reflexivity|]. apply Forall_app. split.
  - eapply Forall_impl; [|exact Hm]. cbn beta. intros p Hp. inversion Hp; auto.
  - repeat constructor. exact Hf.
Qed.

Lemma map_sorted (h : Q -> Q) xs : q_sorted xs -> pl_sorted (map (fun x => (x, h x)) xs).
Proof. induction 1 as [|x xs _ IH Hf]; cbn [map]; constructor; auto. rewrite Forall_map. exact Hf. Qed.

Lemma insert_sorted x y m : pl_sorted m -> pl_sorted (fst (plm_insert x y m)).
Proof.
  induction m as [|p m IH]; intro Hs; [repeat constructor|]. cbn [plm_insert]. inversion Hs as [|? ? Hs' Hf]; subst. destruct (qltb_spec x (fst p)).
  - cbn [fst]. constructor; auto. constructor; auto. eapply Forall_impl; [|exact Hf]. cbn [fst]. intros; lra.
  - destruct (qltb_spec (fst p) x); [|exact Hs]. cbn [fst]. constructor; [apply IH; auto|]. apply Forall_forall. intros q Hq.
    assert (Hq' : q = (x, y) \/ In q m).
    { clear - Hq. induction m as [|k m IH]; [simpl in Hq; intuition|]. cbn [plm_insert] in Hq. destruct (qltb x (fst k)); [simpl in *; intuition|].
      destruct (qltb (fst k) x); [|simpl in *; intuition]. destruct Hq as [<-|Hq]; [simpl; auto|]. apply IH in Hq. simpl. tauto. }
    destruct Hq' as [->|Hq']; [exact H0|]. rewrite Forall_forall in Hf. auto.
Qed.
Lemma plm_insert_In x y m q : In q (fst (plm_insert x y m)) -> q = (x, y) \/ In q m.
Proof.
  induction m as [|k m IH]; [simpl; intuition|]. cbn [plm_insert]. destruct (qltb x (fst k)); [simpl; intuition|].
  destruct (qltb (fst k) x); [|simpl; auto]. cbn [fst]. intros [<-|Hq]; [simpl; auto|]. apply IH in Hq. simpl. tauto.
Qed.
Lemma plm_insert_old x y m q : In q m -> In q (fst (plm_insert x y m)).
Proof.
  induction m as [|k m IH]; [easy|]. cbn [plm_insert]. destruct (qltb x (fst k)); [simpl; auto|].
  destruct (qltb (fst k) x); [|simpl; auto]. cbn [fst]. simpl. intuition.
Qed.
Lemma plm_insert_true x y m : pl_sorted m -> (snd (plm_insert x y m) = true <-> forall q, In q m -> ~ fst q == x) /\
  (snd (plm_insert x y m) = true -> In (x, y) (fst (plm_insert x y m))).
Proof.
  induction m as [|k m IH]; intro Hs; [simpl; split; [split; [intros _ q []|auto]|auto]|]. inversion Hs as [|? ? Hs' Hf]; subst. rewrite Forall_forall in Hf.
  cbn [plm_insert]. destruct (qltb_spec x (fst k)).
  - cbn [fst snd]. split; [|simpl; auto]. split; [|auto]. intros _ q [<-|Hq]; [lra|]. specialize (Hf q Hq). intro. lra.
  - destruct (qltb_spec (fst k) x).
    + cbn [fst snd]. destruct (IH Hs') as [A B]. split; [|simpl; auto]. rewrite A. split.
      * intros G q [<-|Hq]; [lra|auto].
      * intros G q Hq. apply G. simpl. auto.
    + cbn [snd]. split; [|discriminate]. split; [discriminate|]. intro G. exfalso. apply (G k (or_introl eq_refl)). lra.
Qed.
