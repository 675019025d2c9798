(** * C39, C62: piecewise linear functions. *)
From Coq Require Import List Arith Bool QArith Qabs Qfield Lqa Sorted Setoid Morphisms Permutation.
From Verif Require Import Base BaseFacts PiecewiseLinear LinearFacts.
Import ListNotations.
Local Open Scope Q_scope.

(** ** specification *)

(** [x] lies between the first and the last breakpoint *)
Definition in_hull (f : pl) (x : Q) : Prop := (exists p, In p f /\ fst p <= x) /\ (exists q, In q f /\ x <= fst q).
Definition same_hull (f g : pl) : Prop := forall x, in_hull f x <-> in_hull g x.

(** the point [(x, y)] is on the line through [p] and [q] *)
Definition on_line (p q : Q * Q) (x y : Q) : Prop := (y - snd p) * (fst q - fst p) == (snd q - snd p) * (x - fst p).

Definition neighbours {A} (p q : A) (f : list A) : Prop := exists f1 f2, f = f1 ++ p :: q :: f2.

(** the sign only changes in breakpoints *)
Definition no_sign_change (f : pl) : Prop := forall p q, neighbours p q f -> 0 <= snd p * snd q.

(** ** evaluation *)
Lemma lerp_on_line p q x : fst p < fst q -> on_line p q x (lerp x (fst p) (snd p) (fst q) (snd q)).
Proof. intro H. unfold on_line, lerp. field. intro. lra. Qed.

Theorem C39_eval : forall f x, pl_sorted f ->
  (forall p, In p f -> x == fst p -> pl_eval f x == snd p) /\
  (forall p q, neighbours p q f -> fst p <= x <= fst q -> on_line p q x (pl_eval f x)) /\
  (~ in_hull f x -> pl_eval f x == 0).
Proof.
  intros f x Hs. split; [intros p Hp Hx; apply eval_point; auto|]. split.
  - intros p q (f1 & f2 & ->) Hx. unfold on_line. rewrite (eval_segment f1 p q f2 x Hs Hx). apply lerp_on_line.
    destruct (pl_sorted_app f1 (p :: q :: f2) Hs) as (_ & S2 & _). inversion S2 as [|? ? _ Hf]; inversion Hf; auto.
  - intro Hn. destruct f as [|p0 f]; [reflexivity|]. destruct (Qlt_le_dec x (fst p0)) as [Hlt|Hle].
    + rewrite eval_below; [reflexivity|]. intros p [<-|Hp]; [exact Hlt|]. inversion Hs as [|? ? _ Hf]; subst. rewrite Forall_forall in Hf. specialize (Hf p Hp). lra.
    + rewrite eval_above; [reflexivity|]. intros p Hp. destruct (Qlt_le_dec (fst p) x); auto. exfalso. apply Hn. split; [exists p0; simpl; auto|exists p; auto].
Qed.

Lemma qltb_comp x x' y : x == x' -> qltb y x = qltb y x'.
Proof. intro E. destruct (qltb_spec y x), (qltb_spec y x'); auto; exfalso; lra. Qed.
Lemma qltb_comp_l x x' y : x == x' -> qltb x y = qltb x' y.
Proof. intro E. destruct (qltb_spec x y), (qltb_spec x' y); auto; exfalso; lra. Qed.
Lemma lower_comp x x' m : x == x' -> forall prev, lower_bound x prev m = lower_bound x' prev m.
Proof. intro E. induction m as [|p m IH]; intro prev; [reflexivity|]. cbn [lower_bound]. rewrite (qltb_comp x x' (fst p) E), IH. reflexivity. Qed.
Lemma eval_comp f x x' : x == x' -> pl_eval f x == pl_eval f x'.
Proof.
  intro E. destruct f as [|p0 f]; [reflexivity|]. unfold pl_eval. rewrite (lower_comp x x' (p0 :: f) E None). destruct (lower_bound x' None (p0 :: f)) as [prev [|r rest]]; [reflexivity|].
  rewrite (qltb_comp_l x x' (fst p0) E). destruct (qltb x' (fst p0)); [reflexivity|]. destruct (qeqb_spec (fst r) x), (qeqb_spec (fst r) x'); try (exfalso; lra); [reflexivity|].
  destruct prev; [|reflexivity]. unfold lerp. rewrite E. reflexivity.
Qed.

Lemma neighbours_lt f p q : pl_sorted f -> neighbours p q f -> fst p < fst q.
Proof. intros Hs (f1 & f2 & ->). destruct (pl_sorted_app f1 (p :: q :: f2) Hs) as (_ & S2 & _). inversion S2 as [|? ? _ Hf]; inversion Hf; auto. Qed.
Lemma neighbours_In {A} (p q : A) f : neighbours p q f -> In p f /\ In q f.
Proof. intros (f1 & f2 & ->). split; apply in_app_iff; simpl; auto. Qed.
Lemma neighbours_gap f p q r : pl_sorted f -> neighbours p q f -> In r f -> fst r <= fst p \/ fst q <= fst r.
Proof.
  intros Hs (f1 & f2 & ->) Hr. destruct (pl_sorted_app f1 (p :: q :: f2) Hs) as (_ & S2 & S3).
  apply in_app_iff in Hr as [Hr|[<-|[<-|Hr]]]; [left; specialize (S3 r p Hr (or_introl eq_refl)); lra|left; lra|right; lra|].
  right. inversion S2 as [|? ? S4 _]; subst. inversion S4 as [|? ? _ Hf]; subst. rewrite Forall_forall in Hf. specialize (Hf r Hr). lra.
Qed.

Lemma hull_In f p : In p f -> in_hull f (fst p).
Proof. intro H. split; exists p; (split; [exact H|lra]). Qed.
Lemma hull_between f x y z : in_hull f x -> in_hull f y -> x <= z <= y -> in_hull f z.
Proof. intros [(p & Hp & A) _] [_ (q & Hq & B)] Hz. split; [exists p|exists q]; (split; [auto|lra]). Qed.
Lemma hull_comp f x y : x == y -> in_hull f x -> in_hull f y.
Proof. intros E [(p & Hp & A) (q & Hq & B)]. split; [exists p|exists q]; (split; [auto|lra]). Qed.

(** a function that is affine between the neighbouring keys of a map that tabulates it *)
Lemma piecewise_eval m (F : Q -> Q) : pl_sorted m -> (forall x y, x == y -> F x == F y) -> (forall p, In p m -> snd p == F (fst p)) ->
  (forall a b z, neighbours a b m -> fst a <= z <= fst b -> F z == lerp z (fst a) (F (fst a)) (fst b) (F (fst b))) ->
  forall z, in_hull m z -> pl_eval m z == F z.
Proof.
  intros Hs HF Hm Ha z [H1 H2]. destruct (locate m z Hs H1 H2) as [(f1 & p & q & f2 & E & Hz)|(p & E & Hz)].
  - assert (Hn : neighbours p q m) by (exists f1, f2; exact E). destruct (neighbours_In p q m Hn) as [Ip Iq].
    rewrite (Ha p q z Hn Hz). rewrite E at 1. rewrite (eval_segment f1 p q f2 z) by (rewrite <- ?E; auto). unfold lerp. rewrite (Hm p Ip), (Hm q Iq). reflexivity.
  - assert (Ip : In p m) by (rewrite E; simpl; auto). rewrite (eval_point m p z Hs Ip Hz), (Hm p Ip). apply HF. lra.
Qed.

Definition covers (f : pl) (x : Q) : Prop := f = [] \/ in_hull f x.

Lemma affine_cover f xl xr z : pl_sorted f -> covers f xl -> covers f xr -> xl < xr -> (forall r, In r f -> fst r <= xl \/ xr <= fst r) -> xl <= z <= xr ->
  pl_eval f z == lerp z xl (pl_eval f xl) xr (pl_eval f xr).
Proof.
  intros Hs [->|[Hl _]] Hr Hlt Hgap Hz; [unfold lerp; cbn [pl_eval]; field; intro; lra|].
  destruct Hr as [->|[_ Hr]]; [unfold lerp; cbn [pl_eval]; field; intro; lra|]. apply eval_affine; auto.
Qed.

(** ** merging *)
Lemma sorted_nil : q_sorted [].
Proof. constructor. Qed.

Definition base_values (f g : pl) : list Q := qset_insert_all (pl_domain g) (qset_insert_all (pl_domain f) []).

Lemma base_sorted f g : q_sorted (base_values f g).
Proof. apply insert_all_sorted, insert_all_sorted, sorted_nil. Qed.
Lemma base_In f g x : In x (base_values f g) -> exists p, In p (f ++ g) /\ fst p = x.
Proof.
  intro H. apply insert_all_In in H as [H|H].
  - unfold pl_domain in H. apply in_map_iff in H as (p & E & Hp). exists p. split; [apply in_app_iff; auto|auto].
  - apply insert_all_In in H as [H|[]]. unfold pl_domain in H. apply in_map_iff in H as (p & E & Hp). exists p. split; [apply in_app_iff; auto|auto].
Qed.
Lemma base_has f g p : In p (f ++ g) -> qin (fst p) (base_values f g).
Proof.
  intro H. apply in_app_iff in H as [H|H].
  - destruct (insert_all_new (pl_domain f) [] (fst p)) as (y & Hy & E); [apply in_map; auto|]. exists y. split; [apply insert_all_old; auto|auto].
  - apply insert_all_new. apply in_map. auto.
Qed.

Lemma intersection_bounds x0 y0 x1 y1 y2 y3 : x0 < x1 -> x0 <= intersection x0 y0 x1 y1 x0 y2 x1 y3 <= x1.
Proof.
  intro H. unfold intersection. destruct (Qeq_bool _ 0); [lra|]. cbn zeta. set (s := _ / _). set (t := _ / _).
  destruct (Qle_bool 0 s && Qle_bool s 1 && Qle_bool 0 t && Qle_bool t 1) eqn:E; [|lra].
  apply andb_true_iff in E as [E E4]. apply andb_true_iff in E as [_ E3]. apply Qle_bool_iff in E3. apply Qle_bool_iff in E4.
  split; nra.
Qed.

Lemma intersections_In f g xs : forall s z, In z (intersections f g xs s) -> In z s \/
  exists x0 x1, neighbours x0 x1 xs /\ z = intersection x0 (pl_eval f x0) x1 (pl_eval f x1) x0 (pl_eval g x0) x1 (pl_eval g x1).
Proof.
  induction xs as [|x0 xs IH]; intros s z H; [auto|]. destruct xs as [|x1 xs]; [auto|]. cbn [intersections] in H.
  apply IH in H as [H|(a & b & (f1 & f2 & E) & Ez)].
  - destruct (Qeq_bool _ x0); [auto|]. apply qset_insert_In in H as [->|H]; [|auto]. right. exists x0, x1. split; [exists [], xs; reflexivity|reflexivity].
  - right. exists a, b. split; [exists (x0 :: f1), f2; rewrite E; reflexivity|exact Ez].
Qed.

Lemma intersections_keep f g xs : forall s z, qin z s -> qin z (intersections f g xs s).
Proof.
  induction xs as [|x0 xs IH]; intros s z H; [auto|]. destruct xs as [|x1 xs]; [auto|]. cbn [intersections]. apply IH.
  destruct (Qeq_bool _ x0); [auto|]. destruct H as (y & Hy & E). exists y. split; [apply qset_insert_old; auto|auto].
Qed.

Lemma intersections_has f g x0 x1 xs : neighbours x0 x1 xs -> forall s,
  let z := intersection x0 (pl_eval f x0) x1 (pl_eval f x1) x0 (pl_eval g x0) x1 (pl_eval g x1) in
  ~ z == x0 -> qin z (intersections f g xs s).
Proof.
  intros (f1 & f2 & ->) s z Hz. revert s. induction f1 as [|a f1 IH]; intro s.
  - change (qin z (intersections f g (x1 :: f2) (if Qeq_bool z x0 then s else qset_insert z s))). destruct (qeqb_spec z x0); [easy|]. apply intersections_keep, qset_insert_new.
  - cbn [app]. destruct (f1 ++ x0 :: x1 :: f2) as [|b t] eqn:E; [destruct f1; discriminate|].
    pose (y := intersection a (pl_eval f a) b (pl_eval f b) a (pl_eval g a) b (pl_eval g b)).
    change (qin z (intersections f g (b :: t) (if Qeq_bool y a then s else qset_insert y s))). apply IH.
Qed.

Lemma q_neighbours s x y : q_sorted s -> neighbours x y s -> x < y /\ forall z, In z s -> z <= x \/ y <= z.
Proof.
  intros Hs (f1 & f2 & ->). apply StronglySorted_app in Hs as (_ & S2 & S3). inversion S2 as [|? ? S4 Hf]; subst. inversion Hf as [|? ? Hxy _]; subst. split; [exact Hxy|].
  intros z Hz. apply in_app_iff in Hz as [Hz|[<-|[<-|Hz]]]; [left; specialize (S3 z x Hz (or_introl eq_refl)); lra|left; lra|right; lra|].
  right. inversion S4 as [|? ? _ Hf']; subst. rewrite Forall_forall in Hf'. specialize (Hf' z Hz). lra.
Qed.

Definition between_values (s : list Q) (x : Q) : Prop := (exists y, In y s /\ y <= x) /\ (exists y, In y s /\ x <= y).

Lemma merged_spec f g : q_sorted (merged f g) /\
  (forall p, In p (f ++ g) -> qin (fst p) (merged f g)) /\
  (forall x, In x (merged f g) -> in_hull (f ++ g) x).
Proof.
  unfold merged. fold (base_values f g). split; [apply insert_all_sorted, base_sorted|]. split.
  - intros p Hp. destruct (base_has f g p Hp) as (y & Hy & E). exists y. split; [apply insert_all_old; auto|auto].
  - intros x Hx. assert (Hb : forall x, In x (base_values f g) -> in_hull (f ++ g) x) by (intros y Hy; destruct (base_In f g y Hy) as (p & Hp & <-); apply hull_In; auto).
    apply insert_all_In in Hx as [Hx|Hx]; [|auto]. apply intersections_In in Hx as [[]|(x0 & x1 & Hn & ->)].
    destruct (q_neighbours _ _ _ (base_sorted f g) Hn) as [Hlt _]. destruct (neighbours_In _ _ _ Hn) as [I0 I1].
    apply (hull_between _ x0 x1); auto. apply intersection_bounds. exact Hlt.
Qed.

Lemma apply_map f g op : (f <> [] \/ g <> []) -> pl_apply f g op = map (fun x => (x, op (pl_eval f x) (pl_eval g x))) (merged f g).
Proof.
  intro H. unfold pl_apply. destruct (qset_insert_all (pl_domain g) (qset_insert_all (pl_domain f) [])) as [|x xs] eqn:E.
  - exfalso. fold (base_values f g) in E. assert (Hp : exists p, In p (f ++ g)).
    { destruct f as [|p f]; [destruct g as [|p g]; [tauto|exists p; simpl; auto]|exists p; simpl; auto]. }
    destruct Hp as (p & Hp). destruct (base_has f g p Hp) as (y & Hy & _). rewrite E in Hy. easy.
  - apply (build_map (fun x => op (pl_eval f x) (pl_eval g x)) (merged f g) []); [constructor|apply merged_spec].
Qed.

(** functions that may be combined: the same first and last breakpoint, or no breakpoint at all *)
Definition compatible (f g : pl) : Prop := same_hull f g \/ f = [] \/ g = [].

Lemma compatible_covers f g x : compatible f g -> in_hull (f ++ g) x -> covers f x /\ covers g x.
Proof.
  intros Hc Hx. assert (G : forall f g, same_hull f g -> in_hull (f ++ g) x -> in_hull f x).
  { clear. intros f g Hc [(p & Hp & A) (q & Hq & B)]. split.
    - apply in_app_iff in Hp as [Hp|Hp]; [exists p; auto|]. assert (H := hull_In g p Hp). apply Hc in H. destruct H as [(p' & Hp' & C) _]. exists p'. split; [auto|lra].
    - apply in_app_iff in Hq as [Hq|Hq]; [exists q; auto|]. assert (H := hull_In g q Hq). apply Hc in H. destruct H as [_ (p' & Hp' & C)]. exists p'. split; [auto|lra]. }
  unfold covers. destruct Hc as [Hc|[-> | ->]].
  - assert (Hf := G f g Hc Hx). split; right; auto. apply Hc. auto.
  - cbn [app] in Hx. auto.
  - rewrite app_nil_r in Hx. auto.
Qed.

Definition binary_affine (op : Q -> Q -> Q) : Prop :=
  op 0 0 == 0 /\ (forall a b c d, a == b -> c == d -> op a c == op b d) /\
  forall z xl xr a b c d, xl < xr -> op (lerp z xl a xr b) (lerp z xl c xr d) == lerp z xl (op a c) xr (op b d).

Lemma plus_affine : binary_affine Qplus.
Proof. split; [reflexivity|]. split; [intros ? ? ? ? -> ->; reflexivity|]. intros. unfold lerp. field. intro. lra. Qed.
Lemma minus_affine : binary_affine Qminus.
Proof. split; [reflexivity|]. split; [intros ? ? ? ? -> ->; reflexivity|]. intros. unfold lerp. field. intro. lra. Qed.

Lemma apply_sorted f g op : pl_sorted f -> pl_sorted (pl_apply f g op).
Proof.
  intro Hf. destruct f as [|p f]; [destruct g as [|q g]; [constructor|]|]; rewrite apply_map by (try (left; discriminate); right; discriminate); apply map_sorted, merged_spec.
Qed.

Lemma map_neighbours {A B} (h : A -> B) l a b : neighbours a b (map h l) -> exists x y, neighbours x y l /\ a = h x /\ b = h y.
Proof.
  intros (f1 & f2 & E). revert f1 E. induction l as [|x l IH]; intros f1 E; [destruct f1; discriminate|]. destruct f1 as [|c f1].
  - cbn [map app] in E. injection E as <- E. destruct l as [|y l]; [discriminate|]. cbn [map] in E. injection E as <- _. exists x, y. split; [exists [], l; reflexivity|auto].
  - cbn [map app] in E. injection E as _ E. destruct (IH f1 E) as (u & v & (g1 & g2 & ->) & A1 & A2). exists u, v. split; [exists (x :: g1), g2; reflexivity|auto].
Qed.

Lemma merged_affine f g x y : pl_sorted f -> pl_sorted g -> compatible f g -> neighbours x y (merged f g) ->
  x < y /\ forall z, x <= z <= y -> pl_eval f z == lerp z x (pl_eval f x) y (pl_eval f y) /\ pl_eval g z == lerp z x (pl_eval g x) y (pl_eval g y).
Proof.
  intros Hf Hg Hc Hn. destruct (merged_spec f g) as (M1 & M2 & M3). destruct (q_neighbours _ _ _ M1 Hn) as [Hlt Hgap]. split; [exact Hlt|].
  destruct (neighbours_In _ _ _ Hn) as [Ix Iy]. destruct (compatible_covers f g x Hc (M3 x Ix)) as [Cfx Cgx]. destruct (compatible_covers f g y Hc (M3 y Iy)) as [Cfy Cgy].
  assert (G : forall r, In r (f ++ g) -> fst r <= x \/ y <= fst r).
  { intros r Hr. destruct (M2 r Hr) as (u & Hu & E). destruct (Hgap u Hu); [left|right]; lra. }
  intros z Hz. split; apply affine_cover; auto; intros r Hr; apply G, in_app_iff; auto.
Qed.

Lemma hull_merged f g op x : (f <> [] \/ g <> []) -> in_hull (f ++ g) x <-> in_hull (pl_apply f g op) x.
Proof.
  intro Hn. rewrite apply_map by auto. destruct (merged_spec f g) as (M1 & M2 & M3). split.
  - intros [(p & Hp & A) (q & Hq & B)]. destruct (M2 p Hp) as (u & Hu & Eu). destruct (M2 q Hq) as (v & Hv & Ev). split.
    + exists (u, op (pl_eval f u) (pl_eval g u)). split; [apply in_map_iff; exists u; auto|cbn [fst]; lra].
    + exists (v, op (pl_eval f v) (pl_eval g v)). split; [apply in_map_iff; exists v; auto|cbn [fst]; lra].
  - intros [(p & Hp & A) (q & Hq & B)]. apply in_map_iff in Hp as (u & <- & Hu). apply in_map_iff in Hq as (v & <- & Hv). cbn [fst] in *.
    apply (hull_between _ u v); auto.
Qed.

Lemma hull_dec f x : in_hull f x \/ ~ in_hull f x.
Proof.
  assert (G : forall (P : Q * Q -> Prop) (b : Q * Q -> bool), (forall p, P p <-> b p = true) -> forall f, (exists p, In p f /\ P p) \/ ~ exists p, In p f /\ P p).
  { intros P b Hb l. destruct (existsb b l) eqn:E.
    - left. apply existsb_exists in E as (p & Hp & E). exists p. split; [auto|apply Hb; auto].
    - right. intros (p & Hp & HP). apply Hb in HP. assert (existsb b l = true) by (apply existsb_exists; eauto). congruence. }
  unfold in_hull. destruct (G (fun p => fst p <= x) (fun p => Qle_bool (fst p) x)) with (f := f) as [A|A]; [intro; rewrite Qle_bool_iff; tauto| |tauto].
  destruct (G (fun p => x <= fst p) (fun p => Qle_bool x (fst p))) with (f := f) as [B|B]; [intro; rewrite Qle_bool_iff; tauto|tauto|tauto].
Qed.

Lemma apply_pointwise f g op : pl_sorted f -> pl_sorted g -> compatible f g -> binary_affine op ->
  forall x, pl_eval (pl_apply f g op) x == op (pl_eval f x) (pl_eval g x).
Proof.
  intros Hf Hg Hc (Ho & Hcomp & Haff) x. assert (D : f ++ g = [] \/ f ++ g <> []) by (destruct (f ++ g); [left; reflexivity|right; discriminate]). destruct D as [E|E].
  { apply app_eq_nil in E as [-> ->]. cbn. rewrite Ho. reflexivity. }
  assert (Hn : f <> [] \/ g <> []) by (destruct f; [right; exact E|left; discriminate]).
  destruct (hull_dec (f ++ g) x) as [Hx|Hx].
  - assert (Hx' := proj1 (hull_merged f g op x Hn) Hx). assert (Hs := apply_sorted f g op Hf). revert Hx' Hs. rewrite apply_map by auto. intros Hx' Hs.
    apply (piecewise_eval _ (fun x => op (pl_eval f x) (pl_eval g x))); auto.
    + intros u v Huv. apply Hcomp; apply eval_comp; auto.
    + intros p Hp. apply in_map_iff in Hp as (u & <- & _). reflexivity.
    + intros a b z Hab Hz. apply map_neighbours in Hab as (u & v & Huv & -> & ->). cbn [fst snd] in *.
      destruct (merged_affine f g u v Hf Hg Hc Huv) as [Hlt Haf]. destruct (Haf z Hz) as [A B]. rewrite <- (Haff z u v _ _ _ _ Hlt). apply Hcomp; auto.
  - destruct (C39_eval _ x (apply_sorted f g op Hf)) as (_ & _ & H). rewrite H by (rewrite <- hull_merged; auto).
    assert (Nf : ~ in_hull f x) by (intros [(p & Hp & A) (q & Hq & B)]; apply Hx; split; [exists p|exists q]; (split; [apply in_app_iff; auto|auto])).
    assert (Ng : ~ in_hull g x) by (intros [(p & Hp & A) (q & Hq & B)]; apply Hx; split; [exists p|exists q]; (split; [apply in_app_iff; auto|auto])).
    rewrite (Hcomp (pl_eval f x) 0 (pl_eval g x) 0); [symmetry; exact Ho| |]; [apply (C39_eval f x Hf); auto|apply (C39_eval g x Hg); auto].
Qed.

Theorem C39_sum : forall f g x, pl_sorted f -> pl_sorted g -> compatible f g ->
  pl_sorted (pl_plus f g) /\ pl_sorted (pl_minus f g) /\
  pl_eval (pl_plus f g) x == pl_eval f x + pl_eval g x /\ pl_eval (pl_minus f g) x == pl_eval f x - pl_eval g x.
Proof.
  intros f g x Hf Hg Hc. split; [apply apply_sorted; auto|]. split; [apply apply_sorted; auto|]. split.
  - apply apply_pointwise; auto using plus_affine.
  - apply apply_pointwise; auto using minus_affine.
Qed.

(** FINDING: with different domains the sum is not pointwise. *)
Theorem C39_sum_refuted : exists f g x, pl_sorted f /\ pl_sorted g /\ ~ pl_eval (pl_plus f g) x == pl_eval f x + pl_eval g x.
Proof.
  exists [(0, 0); (2, 0)], [(1, 1); (2, 1)], (1 # 2). split; [repeat constructor|]. split; [repeat constructor|]. vm_compute. discriminate.
Qed.

(** ** scalar operations *)
Lemma map_eval (phi : Q -> Q) f : pl_sorted f -> (forall x y, x == y -> phi x == phi y) ->
  (forall z xl xr a b, xl < xr -> phi (lerp z xl a xr b) == lerp z xl (phi a) xr (phi b)) ->
  pl_sorted (map (fun p => (fst p, phi (snd p))) f) /\
  forall x, in_hull f x -> pl_eval (map (fun p => (fst p, phi (snd p))) f) x == phi (pl_eval f x).
Proof.
  intros Hs Hc Ha. assert (Hs' : pl_sorted (map (fun p => (fst p, phi (snd p))) f)).
  { clear Hc Ha. induction Hs as [|p f _ IH Hf]; cbn [map]; constructor; auto. rewrite Forall_map. exact Hf. }
  split; [exact Hs'|]. intros x Hx. apply (piecewise_eval _ (fun x => phi (pl_eval f x))); auto.
  - intros u v E. apply Hc, eval_comp, E.
  - intros p Hp. apply in_map_iff in Hp as (q & <- & Hq). cbn [fst snd]. apply Hc. symmetry. apply eval_point; auto. reflexivity.
  - intros a b z Hn Hz. apply map_neighbours in Hn as (p & q & Hn & -> & ->). cbn [fst snd] in *.
    assert (Hlt := neighbours_lt f p q Hs Hn). rewrite <- Ha by auto. apply Hc. destruct (neighbours_In _ _ _ Hn) as [Ip Iq].
    apply affine_cover; auto; [right; apply hull_In; auto|right; apply hull_In; auto|]. intros r Hr. apply (neighbours_gap f p q r); auto.
  - destruct Hx as [(p & Hp & A) (q & Hq & B)]. split; [exists (fst p, phi (snd p))|exists (fst q, phi (snd q))]; (split; [apply in_map_iff; eauto|auto]).
Qed.

Lemma hull_map phi f x : in_hull (map (fun p => (fst p, phi (snd p))) f) x -> in_hull f x.
Proof. intros [(p & Hp & A) (q & Hq & B)]. apply in_map_iff in Hp as (u & <- & Hu). apply in_map_iff in Hq as (v & <- & Hv). split; [exists u|exists v]; auto. Qed.

Lemma map_eval_all (phi : Q -> Q) f : pl_sorted f -> (forall x y, x == y -> phi x == phi y) -> phi 0 == 0 ->
  (forall z xl xr a b, xl < xr -> phi (lerp z xl a xr b) == lerp z xl (phi a) xr (phi b)) ->
  forall x, pl_eval (map (fun p => (fst p, phi (snd p))) f) x == phi (pl_eval f x).
Proof.
  intros Hs Hc H0 Ha x. destruct (map_eval phi f Hs Hc Ha) as [Hs' He]. destruct (hull_dec f x) as [Hx|Hx]; [auto|].
  rewrite (proj2 (proj2 (C39_eval _ x Hs'))) by (intro H; apply Hx, (hull_map phi), H). rewrite (Hc (pl_eval f x) 0) by (apply (C39_eval f x Hs); auto). symmetry. exact H0.
Qed.

Lemma negate_map f : pl_sorted f -> pl_negate f = map (fun p => (fst p, - snd p)) f.
Proof.
  intro Hs. unfold pl_negate. assert (G : forall rest acc, pl_sorted (acc ++ rest) ->
    fold_left (fun g p => fst (plm_insert (fst p) (- snd p) g)) rest (map (fun p => (fst p, - snd p)) acc) = map (fun p => (fst p, - snd p)) (acc ++ rest)).
  { induction rest as [|p rest IH]; intros acc Ha; [rewrite app_nil_r; reflexivity|]. cbn [fold_left]. destruct (pl_sorted_app acc (p :: rest) Ha) as (_ & _ & S3).
    rewrite plm_insert_last by (rewrite Forall_map; apply Forall_forall; intros q Hq; exact (S3 q p Hq (or_introl eq_refl))). cbn [fst].
    replace (map (fun p => (fst p, - snd p)) acc ++ [(fst p, - snd p)]) with (map (fun p => (fst p, - snd p)) (acc ++ [p])) by (rewrite map_app; reflexivity).
    rewrite IH by (rewrite <- app_assoc; exact Ha). rewrite <- app_assoc. reflexivity. }
  exact (G f [] Hs).
Qed.

Theorem C39_scalar : forall f lambda x, pl_sorted f ->
  pl_eval (pl_scale f lambda) x == pl_eval f x * lambda /\
  pl_eval (pl_negate f) x == - pl_eval f x /\
  (~ lambda == 0 -> exists g, pl_divide f lambda = Ok g /\ pl_eval g x == pl_eval f x / lambda) /\
  (in_hull f x -> pl_eval (pl_plus_scalar f lambda) x == pl_eval f x + lambda /\ pl_eval (pl_minus_scalar f lambda) x == pl_eval f x - lambda).
Proof.
  intros f lambda x Hs.
  assert (Hmul : forall l, pl_eval (pl_scale f l) x == pl_eval f x * l).
  { intro l. apply (map_eval_all (fun y => y * l)); auto; [intros u v E; rewrite E; reflexivity|field|]. intros. unfold lerp. field. intro. lra. }
  split; [apply Hmul|]. split.
  - rewrite negate_map by auto. apply (map_eval_all (fun y => - y)); auto; [intros u v E; rewrite E; reflexivity|reflexivity|]. intros. unfold lerp. field. intro. lra.
  - split.
    + intro Hl. unfold pl_divide, pl_divide_assign. destruct (qeqb_spec lambda 0); [easy|]. eexists. split; [reflexivity|]. rewrite Hmul. field. exact Hl.
    + intro Hx. split.
      * apply (map_eval (fun y => y + lambda)); auto; [intros u v E; rewrite E; reflexivity|]. intros. unfold lerp. field. intro. lra.
      * apply (map_eval (fun y => y - lambda)); auto; [intros u v E; rewrite E; reflexivity|]. intros. unfold lerp. field. intro. lra.
Qed.

(** FINDING: [operator/] is noexcept although [operator/=] throws. *)
Theorem C39_division_by_zero : forall f lambda, lambda == 0 -> pl_divide_assign f lambda = Throw RuntimeError /\ pl_divide f lambda = Throw Terminated.
Proof. intros f lambda H. unfold pl_divide, pl_divide_assign. destruct (qeqb_spec lambda 0); [auto|easy]. Qed.

(** ** comparison *)
Theorem C39_equality : forall f g, pl_sorted f -> pl_sorted g -> same_hull f g ->
  (pl_eqb f g = true <-> forall x, pl_eval f x == pl_eval g x).
Proof.
  intros f g Hf Hg Hh. unfold pl_eqb. fold (base_values f g). rewrite forallb_forall. split.
  - intros H x. destruct (hull_dec f x) as [Hx|Hx].
    2:{ rewrite (proj2 (proj2 (C39_eval f x Hf)) Hx). rewrite (proj2 (proj2 (C39_eval g x Hg))); [reflexivity|]. intro H'. apply Hx, Hh, H'. }
    set (m := map (fun x => (x, pl_eval f x)) (base_values f g)). assert (Hs : pl_sorted m) by (apply map_sorted, base_sorted).
    assert (Hb : forall x, In x (base_values f g) -> covers f x /\ covers g x).
    { intros y Hy. apply (compatible_covers f g); [left; exact Hh|]. destruct (base_In f g y Hy) as (p & Hp & <-). apply hull_In; auto. }
    assert (Hgap : forall a b, neighbours a b (base_values f g) -> a < b /\ forall r, In r (f ++ g) -> fst r <= a \/ b <= fst r).
    { intros a b Hn. destruct (q_neighbours _ _ _ (base_sorted f g) Hn) as [Hlt Hg']. split; [exact Hlt|]. intros r Hr. destruct (base_has f g r Hr) as (u & Hu & E). destruct (Hg' u Hu); [left|right]; lra. }
    assert (Hm : in_hull m x).
    { destruct Hx as [(p & Hp & A) (q & Hq & B)]. destruct (base_has f g p) as (u & Hu & Eu); [apply in_app_iff; auto|]. destruct (base_has f g q) as (v & Hv & Ev); [apply in_app_iff; auto|].
      split; [exists (u, pl_eval f u)|exists (v, pl_eval f v)]; (split; [apply in_map_iff; eauto|cbn [fst]; lra]). }
    transitivity (pl_eval m x).
    + symmetry. apply (piecewise_eval m (pl_eval f)); auto; [intros; apply eval_comp; auto| |].
      * intros p Hp. apply in_map_iff in Hp as (u & <- & _). reflexivity.
      * intros a b z Hn Hz. apply map_neighbours in Hn as (u & v & Hn & -> & ->). cbn [fst snd] in *. destruct (Hgap u v Hn) as [Hlt Hg']. destruct (neighbours_In _ _ _ Hn) as [Iu Iv].
        apply affine_cover; auto; [apply Hb; auto|apply Hb; auto|]. intros r Hr. apply Hg', in_app_iff. auto.
    + apply (piecewise_eval m (pl_eval g)); auto; [intros; apply eval_comp; auto| |].
      * intros p Hp. apply in_map_iff in Hp as (u & <- & Hu). cbn [fst snd]. apply Qeq_bool_iff, H, Hu.
      * intros a b z Hn Hz. apply map_neighbours in Hn as (u & v & Hn & -> & ->). cbn [fst snd] in *. destruct (Hgap u v Hn) as [Hlt Hg']. destruct (neighbours_In _ _ _ Hn) as [Iu Iv].
        apply affine_cover; auto; [apply Hb; auto|apply Hb; auto|]. intros r Hr. apply Hg', in_app_iff. auto.
  - intros H x _. apply Qeq_bool_iff, H.
Qed.

(** FINDING: with different domains, functions that differ may compare as equal. *)
Theorem C39_equality_refuted : exists f g x, pl_sorted f /\ pl_sorted g /\ pl_eqb f g = true /\ ~ pl_eval f x == pl_eval g x.
Proof.
  exists [(0, 0); (1, 1)], [(0, 0); (1, 1); (2, 0)], (3 # 2). split; [repeat constructor|]. split; [repeat constructor|]. split; [vm_compute; reflexivity|]. vm_compute. discriminate.
Qed.


(** ** zeros of a line *)
Lemma sign_root x0 v0 x1 v1 a b : x0 < x1 -> x0 <= a -> a < b -> b <= x1 -> lerp a x0 v0 x1 v1 * lerp b x0 v0 x1 v1 < 0 ->
  v0 * v1 < 0 /\ a < x0 + v0 / (v0 - v1) * (x1 - x0) /\ x0 + v0 / (v0 - v1) * (x1 - x0) < b.
Proof.
  intros H01 Ha Hab Hb Hneg. set (k := (v1 - v0) / (x1 - x0)).
  assert (Ek : v1 == v0 + k * (x1 - x0)) by (unfold k; field; intro; lra).
  assert (El : forall z, lerp z x0 v0 x1 v1 == v0 + k * (z - x0)) by (intro z; unfold lerp, k; field; intro; lra).
  rewrite !El in Hneg. assert (Hk : ~ k == 0) by (intro E; rewrite E in Hneg; nra).
  set (r := x0 + v0 / (v0 - v1) * (x1 - x0)). assert (Er : v0 == k * (x0 - r)).
  { unfold r. rewrite Ek. field. intro E. apply Hk. assert (k * (x1 - x0) == 0) by lra. apply Qmult_integral in H as [H|H]; [exact H|lra]. }
  assert (Hk2 : 0 < k * k) by (destruct (Q_dec k 0) as [[H|H]|H]; [nra|nra|easy]).
  assert (Hp : (a - r) * (b - r) < 0).
  { assert (E : (v0 + k * (a - x0)) * (v0 + k * (b - x0)) == k * k * ((a - r) * (b - r))) by (rewrite Er; ring). rewrite E in Hneg.
    destruct (Qlt_le_dec ((a - r) * (b - r)) 0); [auto|]. exfalso. assert (0 <= k * k * ((a - r) * (b - r))) by (apply Qmult_le_0_compat; lra). lra. }
  assert (H1 : a < r) by (destruct (Qlt_le_dec a r); [auto|exfalso; assert (0 <= (a - r) * (b - r)) by (apply Qmult_le_0_compat; lra); lra]).
  assert (H2 : r < b) by (destruct (Qlt_le_dec r b); [auto|exfalso; assert (0 <= (r - a) * (r - b)) by (apply Qmult_le_0_compat; lra); lra]).
  split; [|split; assumption].
  assert (E : v0 * v1 == - (k * k * ((r - x0) * (x1 - r)))) by (rewrite Ek; rewrite Er; ring).
  assert (H3 : 0 < (r - x0) * (x1 - r)) by (apply Qmult_lt_0_compat; lra). assert (0 < k * k * ((r - x0) * (x1 - r))) by (apply Qmult_lt_0_compat; lra). lra.
Qed.

(** ** construction *)
Lemma crossings_In m : forall s z, In z (zero_crossings m s) -> In z s \/
  exists p q, neighbours p q m /\ snd p * snd q < 0 /\ z = - (snd p - (snd q - snd p) / (fst q - fst p) * fst p) / ((snd q - snd p) / (fst q - fst p)).
Proof.
  induction m as [|p m IH]; intros s z H; [auto|]. destruct m as [|q m]; [auto|]. cbn [zero_crossings] in H.
  apply IH in H as [H|(a & b & (f1 & f2 & E) & Ez)].
  - destruct (qltb_spec (snd p * snd q) 0); [|auto]. apply qset_insert_In in H as [->|H]; [|auto]. right. exists p, q. split; [exists [], m; reflexivity|auto].
  - right. exists a, b. split; [exists (p :: f1), f2; rewrite E; reflexivity|exact Ez].
Qed.
Lemma crossings_keep m : forall s z, qin z s -> qin z (zero_crossings m s).
Proof.
  induction m as [|p m IH]; intros s z H; [auto|]. destruct m as [|q m]; [auto|]. cbn [zero_crossings]. apply IH.
  destruct (qltb _ 0); [|auto]. destruct H as (y & Hy & E). exists y. split; [apply qset_insert_old; auto|auto].
Qed.
Lemma crossings_has p q m : neighbours p q m -> snd p * snd q < 0 -> forall s,
  qin (- (snd p - (snd q - snd p) / (fst q - fst p) * fst p) / ((snd q - snd p) / (fst q - fst p))) (zero_crossings m s).
Proof.
  intros (f1 & f2 & ->) Hz. set (z := - _ / _). induction f1 as [|a f1 IH]; intro s.
  - change (qin z (zero_crossings (q :: f2) (if qltb (snd p * snd q) 0 then qset_insert z s else s))). destruct (qltb_spec (snd p * snd q) 0); [|lra]. apply crossings_keep, qset_insert_new.
  - cbn [app]. destruct (f1 ++ p :: q :: f2) as [|b t] eqn:E; [destruct f1; discriminate|].
    pose (y := - (snd a - (snd b - snd a) / (fst b - fst a) * fst a) / ((snd b - snd a) / (fst b - fst a))).
    change (qin z (zero_crossings (b :: t) (if qltb (snd a * snd b) 0 then qset_insert y s else s))). apply IH.
Qed.

Lemma crossing_root p q : fst p < fst q -> snd p * snd q < 0 ->
  - (snd p - (snd q - snd p) / (fst q - fst p) * fst p) / ((snd q - snd p) / (fst q - fst p)) == fst p + snd p / (snd p - snd q) * (fst q - fst p).
Proof.
  intros H Hn. assert (~ snd p == snd q) by (intro E; rewrite E in Hn; nra). field.
  split; [intro; apply H0; lra|]. split; [intro; lra|]. intro; apply H0; lra.
Qed.

Lemma root_between p q : fst p < fst q -> snd p * snd q < 0 -> let r := fst p + snd p / (snd p - snd q) * (fst q - fst p) in
  fst p < r < fst q /\ lerp r (fst p) (snd p) (fst q) (snd q) == 0.
Proof.
  intros H Hn r. assert (Hd : ~ snd p - snd q == 0) by (intro E; assert (E' : snd p == snd q) by lra; rewrite E' in Hn; nra).
  assert (P := sign_root (fst p) (snd p) (fst q) (snd q) (fst p) (fst q) H (Qle_refl _) H (Qle_refl _)).
  rewrite lerp_left, lerp_right in P by (try reflexivity; intro; lra). destruct (P Hn) as (_ & A & B). split; [split; assumption|].
  unfold r, lerp. field. split; [exact Hd|intro; lra].
Qed.

Lemma insert_zeros xs : forall m0 m, pl_sorted m -> (forall p, In p m -> snd p == pl_eval m0 (fst p) /\ in_hull m0 (fst p)) -> (forall p, In p m0 -> In p m) ->
  (forall x, In x xs -> pl_eval m0 x == 0 /\ in_hull m0 x) ->
  let m' := fold_left (fun m x => fst (plm_insert x 0 m)) xs m in
  pl_sorted m' /\ (forall p, In p m' -> snd p == pl_eval m0 (fst p) /\ in_hull m0 (fst p)) /\ (forall p, In p m -> In p m') /\ (forall x, In x xs -> exists p, In p m' /\ fst p == x).
Proof.
  induction xs as [|x xs IH]; intros m0 m Hs Hv Hi Hx; [cbn; split; [auto|]; split; [auto|]; split; [auto|easy]|]. cbn [fold_left].
  destruct (IH m0 (fst (plm_insert x 0 m))) as (A & B & C & D).
  - apply insert_sorted, Hs.
  - intros p Hp. apply plm_insert_In in Hp as [->|Hp]; [|auto]. cbn [fst snd]. destruct (Hx x (or_introl eq_refl)) as [E1 E2]. split; [symmetry; exact E1|exact E2].
  - intros p Hp. apply plm_insert_old, Hi, Hp.
  - intros y Hy. apply Hx. simpl. auto.
  - split; [exact A|]. split; [exact B|]. split; [intros p Hp; apply C, plm_insert_old, Hp|].
    intros y [<-|Hy]; [|apply D, Hy]. destruct (plm_insert_true x 0 m Hs) as [E1 E2]. destruct (snd (plm_insert x 0 m)) eqn:E.
    + exists (x, 0). split; [apply C, E2, eq_refl|reflexivity].
    + assert (H : exists q, In q m /\ fst q == x).
      { destruct (existsb (fun q => Qeq_bool (fst q) x) m) eqn:Ex.
        - apply existsb_exists in Ex as (q & Hq & Eq). exists q. split; [auto|apply Qeq_bool_iff; auto].
        - exfalso. assert (false = true); [|discriminate]. apply E1. intros q Hq Eq. assert (existsb (fun q => Qeq_bool (fst q) x) m = true); [|congruence]. apply existsb_exists. exists q. split; [auto|apply Qeq_bool_iff; auto]. }
      destruct H as (q & Hq & Eq). exists q. split; [apply C, plm_insert_old, Hq|exact Eq].
Qed.

Lemma insertion m : pl_sorted m -> let f := insertIntersectionPoints m in
  pl_sorted f /\ no_sign_change f /\ (forall p, In p m -> In p f) /\ forall x, pl_eval f x == pl_eval m x.
Proof.
  intros Hs f. destruct (insert_zeros (zero_crossings m []) m m Hs) as (A & B & C & D).
  - intros p Hp. split; [symmetry; apply eval_point; auto; reflexivity|apply hull_In; auto].
  - auto.
  - intros x Hx. apply crossings_In in Hx as [[]|(p & q & Hn & Hneg & ->)]. assert (Hlt := neighbours_lt m p q Hs Hn). destruct (neighbours_In _ _ _ Hn) as [Ip Iq].
    assert (E := crossing_root p q Hlt Hneg). destruct (root_between p q Hlt Hneg) as [R1 R2]. set (z := - _ / _) in *. set (r := fst p + _) in *.
    split.
    + rewrite (eval_comp m z r E). destruct Hn as (f1 & f2 & ->). rewrite (eval_segment f1 p q f2 r Hs) by lra. exact R2.
    + apply (hull_between m (fst p) (fst q)); [apply hull_In; auto|apply hull_In; auto|lra].
  - fold f in A, B, C, D. fold (insertIntersectionPoints m) in A, B, C, D. fold f in A, B, C, D.
    assert (Hgap : forall a b, neighbours a b f -> forall r, In r m -> fst r <= fst a \/ fst b <= fst r) by (intros a b Hn r Hr; apply (neighbours_gap f a b r); auto).
    split; [exact A|]. split; [|split; [exact C|]].
    + intros a b Hn. destruct (Qlt_le_dec (snd a * snd b) 0) as [Hneg|]; [|auto]. exfalso.
      assert (Hab := neighbours_lt f a b A Hn). destruct (neighbours_In _ _ _ Hn) as [Ia Ib]. destruct (B a Ia) as [Va [Ha1 Ha2]]. destruct (B b Ib) as [Vb [Hb1 Hb2]].
      destruct (segment_around m (fst a) (fst b) Hs Ha1 Hb2 Hab) as (f1 & p & q & f2 & E & Hpa & Hqb); [intros r Hr; destruct (Hgap a b Hn r Hr); [left|right]; assumption|].
      assert (Hn' : neighbours p q m) by (exists f1, f2; exact E). assert (Hlt := neighbours_lt m p q Hs Hn').
      assert (Ea : snd a == lerp (fst a) (fst p) (snd p) (fst q) (snd q)) by (rewrite Va, E; apply eval_segment; [rewrite <- E; auto|lra]).
      assert (Eb : snd b == lerp (fst b) (fst p) (snd p) (fst q) (snd q)) by (rewrite Vb, E; apply eval_segment; [rewrite <- E; auto|lra]).
      rewrite Ea, Eb in Hneg. destruct (sign_root _ _ _ _ _ _ Hlt Hpa Hab Hqb Hneg) as (N & R1 & R2). rewrite <- crossing_root in R1, R2 by auto.
      destruct (crossings_has p q m Hn' N []) as (z & Hz & Ez). destruct (D z Hz) as (c & Hc & Ec).
      destruct (neighbours_gap f a b c A Hn Hc); lra.
    + intro x. destruct (hull_dec f x) as [Hx|Hx].
      * apply (piecewise_eval f (pl_eval m)); auto; [intros; apply eval_comp; auto|intros p Hp; apply B, Hp|].
        intros a b z Hn Hz. assert (Hab := neighbours_lt f a b A Hn). destruct (neighbours_In _ _ _ Hn) as [Ia Ib].
        exact (affine_cover m (fst a) (fst b) z Hs (or_intror (proj2 (B a Ia))) (or_intror (proj2 (B b Ib))) Hab (Hgap a b Hn) Hz).
      * rewrite (proj2 (proj2 (C39_eval f x A)) Hx). rewrite (proj2 (proj2 (C39_eval m x Hs))); [reflexivity|].
        intros [(p & Hp & P1) (q & Hq & Q1)]. apply Hx. split; [exists p|exists q]; auto.
Qed.

Definition distinct_abscissae (l : list (Q * Q)) : Prop := ForallOrdPairs (fun p q => ~ fst p == fst q) l.

Lemma plm_insert_perm x y m : snd (plm_insert x y m) = true -> Permutation (fst (plm_insert x y m)) ((x, y) :: m).
Proof.
  induction m as [|p m IH]; [reflexivity|]. cbn [plm_insert]. destruct (qltb x (fst p)); [reflexivity|]. destruct (qltb (fst p) x); [|discriminate]. cbn [fst snd].
  intro H. rewrite (IH H). apply perm_swap.
Qed.

Lemma insert_all_spec l : forall m, pl_sorted m ->
  (distinct_abscissae l /\ (forall p q, In p l -> In q m -> ~ fst p == fst q) -> exists m', pl_insert_all l m = Ok m' /\ pl_sorted m' /\ Permutation m' (l ++ m)) /\
  (~ (distinct_abscissae l /\ (forall p q, In p l -> In q m -> ~ fst p == fst q)) -> pl_insert_all l m = Throw RuntimeError).
Proof.
  induction l as [|p l IH]; intros m Hs.
  - split; [intros _; exists m; split; [reflexivity|]; split; [auto|reflexivity]|]. intro H. exfalso. apply H. split; [constructor|easy].
  - cbn [pl_insert_all]. destruct (plm_insert_true (fst p) (snd p) m Hs) as [T1 T2]. destruct (IH (fst (plm_insert (fst p) (snd p) m)) (insert_sorted _ _ _ Hs)) as [I1 I2].
    destruct (snd (plm_insert (fst p) (snd p) m)) eqn:E.
    + assert (N := proj1 T1 eq_refl). assert (Pm := plm_insert_perm _ _ _ E). rewrite <- surjective_pairing in Pm.
      assert (Q : (distinct_abscissae (p :: l) /\ (forall p0 q, In p0 (p :: l) -> In q m -> ~ fst p0 == fst q)) <->
                  (distinct_abscissae l /\ (forall p0 q, In p0 l -> In q (fst (plm_insert (fst p) (snd p) m)) -> ~ fst p0 == fst q))).
      { split.
        - intros [D1 D2]. inversion D1 as [|? ? Df D3]; subst. split; [exact D3|]. intros a b Ha Hb. apply (Permutation_in _ Pm) in Hb as [<-|Hb].
          + rewrite Forall_forall in Df. intro Eq. apply (Df a Ha). symmetry. exact Eq.
          + apply D2; simpl; auto.
        - intros [D1 D2]. split.
          + constructor; [|exact D1]. apply Forall_forall. intros a Ha Eq. apply (D2 a p Ha); [|symmetry; exact Eq]. apply (Permutation_in _ (Permutation_sym Pm)). simpl. auto.
          + intros a b [<-|Ha] Hb; [intro Eq; apply (N b Hb); symmetry; exact Eq|]. apply (D2 a b Ha). apply (Permutation_in _ (Permutation_sym Pm)). simpl. auto. }
      split.
      * intro H. apply Q in H. destruct (I1 H) as (m' & E1 & E2 & E3). exists m'. split; [exact E1|]. split; [exact E2|]. rewrite E3, Pm. symmetry. apply Permutation_middle.
      * intro H. apply I2. intro H'. apply H, Q, H'.
    + split; [|reflexivity]. intros [_ D2]. exfalso. assert (false = true); [|discriminate]. apply T1. intros q Hq Eq. apply (D2 p q (or_introl eq_refl) Hq). symmetry. exact Eq.
Qed.

(** The constructor interpolates the given pairs (through their sorted arrangement)
    and makes sure that the sign only changes at breakpoints. *)
Theorem C39_constructor : forall l,
  (distinct_abscissae l -> exists m f, Permutation m l /\ pl_sorted m /\ pl_of l = Ok f /\ pl_sorted f /\ no_sign_change f /\ incl m f /\ forall x, pl_eval f x == pl_eval m x) /\
  (~ distinct_abscissae l -> pl_of l = Throw RuntimeError).
Proof.
  intro l. destruct (insert_all_spec l [] ltac:(constructor)) as [H1 H2]. unfold pl_of. split.
  - intro H. destruct H1 as (m & E & Hs & Hp); [split; [exact H|easy]|]. rewrite app_nil_r in Hp. rewrite E. cbn [bind].
    destruct (insertion m Hs) as (A & B & C & D). exists m. destruct m as [|p m].
    + exists []. split; [exact Hp|]. split; [exact Hs|]. split; [reflexivity|]. split; [constructor|]. split; [|split; [easy|reflexivity]]. intros a b (f1 & f2 & Ef). destruct f1; discriminate.
    + exists (insertIntersectionPoints (p :: m)). split; [exact Hp|]. split; [exact Hs|]. split; [reflexivity|]. split; [exact A|]. split; [exact B|]. split; [exact C|exact D].
  - intro H. rewrite H2; [reflexivity|]. intros [H' _]. exact (H H').
Qed.

Example C39_example : pl_eval (pl_plus [(0, 0); (2, 4); (4, 0)] [(0, 1); (4, 5)]) 3 == 6 /\ pl_eqb [(0, 0); (2, 4)] [(0, 0); (1, 2); (2, 4)] = true /\
  distinct_abscissae [(2, 1); (0, -1 # 1)] /\ match pl_of [(2, 1); (0, -1 # 1)] with Ok f => map (fun p => (Qred (fst p), snd p)) f = [(0, -1 # 1); (1, 0); (2, 1)] | _ => False end /\
  pl_of [(2, 1); (2, 1)] = Throw RuntimeError.
Proof.
  split; [vm_compute; reflexivity|]. split; [vm_compute; reflexivity|]. split; [|split; vm_compute; reflexivity].
  constructor; [|constructor; [constructor|constructor]]. constructor; [|constructor]. cbn. lra.
Qed.

(** ** C62: absolute value and integral *)

Lemma lerp_between z xl xr : xl < xr -> xl <= z <= xr -> exists t, 0 <= t /\ t <= 1 /\ forall a b, lerp z xl a xr b == (1 - t) * a + t * b.
Proof.
  intros H Hz. exists ((z - xl) / (xr - xl)). split; [apply Qle_shift_div_l; lra|]. split; [apply Qle_shift_div_r; lra|]. intros. unfold lerp. field. intro. lra.
Qed.

(** The maximum is attained and bounds all values; [lowest] stands for numeric_limits::lowest(). *)
Lemma max_fold f : forall s, let r := fold_left (fun m (p : Q * Q) => if qltb m (snd p) then snd p else m) f s in
  s <= r /\ (forall p, In p f -> snd p <= r) /\ (r = s \/ exists p, In p f /\ r = snd p).
Proof.
  induction f as [|p f IH]; intro s; cbn [fold_left]; [split; [lra|]; split; [easy|auto]|].
  destruct (IH (if qltb s (snd p) then snd p else s)) as (A & B & C). destruct (qltb_spec s (snd p)) as [L|L].
  - split; [lra|]. split; [intros q [<-|Hq]; auto|]. right. destruct C as [C|(q & Hq & C)]; [exists p; simpl; auto|exists q; simpl; auto].
  - split; [lra|]. split; [intros q [<-|Hq]; [lra|auto]|]. destruct C as [C|(q & Hq & C)]; [left; auto|right; exists q; simpl; auto].
Qed.

Theorem C39_max : forall lowest f, pl_sorted f -> f <> [] -> (forall p, In p f -> lowest <= snd p) ->
  (exists x, in_hull f x /\ pl_eval f x == pl_max lowest f) /\ (forall x, in_hull f x -> pl_eval f x <= pl_max lowest f).
Proof.
  intros lowest f Hs Hne Hl. destruct (max_fold f lowest) as (A & B & C).
  assert (E : pl_max lowest f = fold_left (fun m (p : Q * Q) => if qltb m (snd p) then snd p else m) f lowest) by (destruct f; [easy|reflexivity]).
  rewrite E. set (r := fold_left _ f lowest) in *. split.
  - assert (G : exists p, In p f /\ snd p == r).
    { destruct C as [C|(p & Hp & C)]; [|exists p; split; [auto|rewrite C; reflexivity]]. destruct f as [|p f]; [easy|]. exists p. split; [simpl; auto|].
      assert (H1 := Hl p (or_introl eq_refl)). assert (H2 := B p (or_introl eq_refl)). rewrite C in *. lra. }
    destruct G as (p & Hp & Ep). exists (fst p). split; [apply hull_In; auto|]. rewrite (eval_point f p (fst p) Hs Hp) by reflexivity. exact Ep.
  - intros x [H1 H2]. destruct (locate f x Hs H1 H2) as [(f1 & p & q & f2 & Ef & Hx)|(p & Ef & Hx)].
    + assert (Hn : neighbours p q f) by (exists f1, f2; exact Ef). assert (Hlt := neighbours_lt f p q Hs Hn). destruct (neighbours_In _ _ _ Hn) as [Ip Iq].
      rewrite Ef. rewrite eval_segment by (rewrite <- ?Ef; auto). destruct (lerp_between x (fst p) (fst q) Hlt Hx) as (t & T0 & T1 & El). rewrite El.
      assert (P := B p Ip). assert (Q := B q Iq). nra.
    + assert (Ip : In p f) by (rewrite Ef; simpl; auto). rewrite (eval_point f p x Hs Ip Hx). apply B, Ip.
Qed.

Lemma lerp_abs z xl xr a b : xl < xr -> xl <= z <= xr -> 0 <= a * b -> Qabs (lerp z xl a xr b) == lerp z xl (Qabs a) xr (Qabs b).
Proof.
  intros H Hz Hs. destruct (lerp_between z xl xr H Hz) as (t & T0 & T1 & E). rewrite !E.
  assert (D : (0 <= a /\ 0 <= b) \/ (a <= 0 /\ b <= 0)).
  { destruct (Qlt_le_dec a 0), (Qlt_le_dec b 0); [right; lra| | |left; auto].
    - destruct (Qlt_le_dec 0 b); [exfalso; nra|right; lra].
    - destruct (Qlt_le_dec 0 a); [exfalso; nra|right; lra]. }
  destruct D as [[A B]|[A B]].
  - rewrite (Qabs_pos a), (Qabs_pos b) by auto. rewrite Qabs_pos; [reflexivity|nra].
  - rewrite (Qabs_neg a), (Qabs_neg b) by auto. rewrite Qabs_neg; [ring|nra].
Qed.

(** [abs] is the pointwise absolute value of a function that changes its sign only in breakpoints. *)
Theorem C62_abs : forall f x, pl_sorted f -> no_sign_change f -> pl_eval (pl_abs f) x == Qabs (pl_eval f x).
Proof.
  intros f x Hs Hn. assert (Hs' : pl_sorted (pl_abs f)).
  { clear Hn. unfold pl_abs. induction Hs as [|p f _ IH Hf]; cbn [map]; constructor; auto. rewrite Forall_map. exact Hf. }
  destruct (hull_dec f x) as [Hx|Hx].
  - apply (piecewise_eval (pl_abs f) (fun x => Qabs (pl_eval f x))); auto.
    + intros u v E. rewrite (eval_comp f u v E). reflexivity.
    + intros p Hp. apply in_map_iff in Hp as (q & <- & Hq). cbn [fst snd]. rewrite (eval_point f q (fst q) Hs Hq) by reflexivity. reflexivity.
    + intros a b z Hab Hz. apply map_neighbours in Hab as (p & q & Hpq & -> & ->). cbn [fst snd] in *.
      assert (Hlt := neighbours_lt f p q Hs Hpq). destruct (neighbours_In _ _ _ Hpq) as [Ip Iq].
      rewrite <- lerp_abs; auto.
      * rewrite (affine_cover f (fst p) (fst q) z); auto; [reflexivity|right; apply hull_In; auto|right; apply hull_In; auto|]. intros r Hr. apply (neighbours_gap f p q r); auto.
      * rewrite (eval_point f p (fst p) Hs Ip), (eval_point f q (fst q) Hs Iq) by reflexivity. apply Hn. exact Hpq.
    + destruct Hx as [(p & Hp & A) (q & Hq & B)]. split; [exists (fst p, Qabs (snd p))|exists (fst q, Qabs (snd q))]; (split; [apply in_map_iff; eauto|auto]).
  - rewrite (proj2 (proj2 (C39_eval _ x Hs'))) by (intro H; apply Hx, (hull_map Qabs), H). rewrite (proj2 (proj2 (C39_eval f x Hs)) Hx). reflexivity.
Qed.

(** the area between the graph of [f] and the x-axis, a trapezoid for every segment on one side of the axis *)
Fixpoint area (f : pl) : Q :=
  match f with
  | p :: ((q :: _) as t) => (Qabs (snd p) + Qabs (snd q)) / 2 * (fst q - fst p) + area t
  | _ => 0
  end.

Lemma no_sign_tail p f : no_sign_change (p :: f) -> no_sign_change f.
Proof. intros H a b (f1 & f2 & ->). apply H. exists (p :: f1), f2. reflexivity. Qed.

Lemma abs_mean a b : 0 <= a * b -> Qabs ((a + b) / 2) == (Qabs a + Qabs b) / 2.
Proof.
  intro Hs. assert (D : (0 <= a /\ 0 <= b) \/ (a <= 0 /\ b <= 0)).
  { destruct (Qlt_le_dec a 0), (Qlt_le_dec b 0); [right; lra| | |left; auto].
    - destruct (Qlt_le_dec 0 b); [exfalso; nra|right; lra].
    - destruct (Qlt_le_dec 0 a); [exfalso; nra|right; lra]. }
  destruct D as [[A B]|[A B]].
  - rewrite (Qabs_pos a), (Qabs_pos b) by auto. apply Qabs_pos. unfold Qdiv. assert (0 < / 2) by reflexivity. nra.
  - rewrite (Qabs_neg a), (Qabs_neg b) by auto. rewrite Qabs_neg; [field|]. unfold Qdiv. assert (0 < / 2) by reflexivity. nra.
Qed.

(** The integral is the area under the absolute value. *)
Theorem C62_integral : forall f, pl_sorted f -> no_sign_change f -> pl_integral f == area f.
Proof.
  intros f Hs Hn. unfold pl_integral. assert (G : forall s, pl_integral_from f s == s + area f); [|rewrite G; ring].
  induction f as [|p f IH]; intro s; [cbn; ring|]. destruct f as [|q f]; [cbn; ring|].
  assert (Hlt : fst p < fst q) by (apply (neighbours_lt (p :: q :: f)); [auto|exists [], f; reflexivity]).
  assert (Hpq : 0 <= snd p * snd q) by (apply Hn; exists [], f; reflexivity).
  inversion Hs as [|? ? Hs' _]; subst.
  change (area (p :: q :: f)) with ((Qabs (snd p) + Qabs (snd q)) / 2 * (fst q - fst p) + area (q :: f)).
  set (mm := (snd q - snd p) / (fst q - fst p)). set (c := snd p - mm * fst p).
  set (ev := fun x => if Qeq_bool mm 0 then c * x else (mm * x + c) * (mm * x + c) / (mm * (1 + 1))).
  change (pl_integral_from (p :: q :: f) s) with (pl_integral_from (q :: f) (s + Qabs (ev (fst q) - ev (fst p)))).
  rewrite IH by (auto; eapply no_sign_tail; eauto).
  assert (E : ev (fst q) - ev (fst p) == (snd p + snd q) / 2 * (fst q - fst p)).
  { unfold ev. destruct (qeqb_spec mm 0) as [E0|E0].
    - assert (Eq : snd q == snd p). { assert (snd q - snd p == mm * (fst q - fst p)) by (unfold mm; field; intro; lra). rewrite E0 in H. lra. }
      unfold c. rewrite E0, Eq. field.
    - assert (Hne : ~ snd q - snd p == 0) by (intro E1; apply E0; unfold mm; rewrite E1; field; intro; lra). unfold c, mm. field. split; [intro; lra|exact Hne]. }
  assert (Ea : Qabs (ev (fst q) - ev (fst p)) == (Qabs (snd p) + Qabs (snd q)) / 2 * (fst q - fst p)).
  { rewrite E, Qabs_Qmult, abs_mean by auto. rewrite (Qabs_pos (fst q - fst p)) by lra. reflexivity. }
  rewrite Ea. ring.
Qed.

(** The difference of two functions only changes its sign in breakpoints ... *)
Lemma intersection_root x0 x1 y0 y1 y2 y3 : x0 < x1 -> (y0 - y2) * (y1 - y3) < 0 ->
  intersection x0 y0 x1 y1 x0 y2 x1 y3 == x0 + (y0 - y2) / ((y0 - y2) - (y1 - y3)) * (x1 - x0).
Proof.
  intros Hlt Hn. set (d0 := y0 - y2) in *. set (d1 := y1 - y3) in *.
  assert (Hd : ~ d0 - d1 == 0) by (intro E; assert (E' : d0 == d1) by lra; rewrite E' in Hn; nra).
  assert (Hw : ~ x1 - x0 == 0) by (intro; lra).
  assert (Hden : - (x1 - x0) * (y1 - y0) + (x1 - x0) * (y3 - y2) == (x1 - x0) * (d0 - d1)) by (unfold d0, d1; ring).
  assert (Hden0 : ~ (x1 - x0) * (d0 - d1) == 0) by (intro E; apply Qmult_integral in E as [E|E]; [exact (Hw E)|exact (Hd E)]).
  unfold intersection. destruct (qeqb_spec (- (x1 - x0) * (y1 - y0) + (x1 - x0) * (y3 - y2)) 0) as [E|E]; [rewrite Hden in E; easy|]. cbn zeta.
  set (s := (- (y1 - y0) * (x0 - x0) + (x1 - x0) * (y0 - y2)) / _). set (t := ((x1 - x0) * (y0 - y2) - (y3 - y2) * (x0 - x0)) / _).
  assert (Es : s == d0 / (d0 - d1)). { unfold s. rewrite Hden. unfold d0, d1 in *. field. split; [exact Hd|exact Hw]. }
  assert (Et : t == d0 / (d0 - d1)). { unfold t. rewrite Hden. unfold d0, d1 in *. field. split; [exact Hd|exact Hw]. }
  assert (B : 0 <= d0 / (d0 - d1) <= 1).
  { destruct (Qlt_le_dec d0 0).
    - assert (0 < d1) by (destruct (Qlt_le_dec 0 d1); [auto|exfalso; nra]).
      assert (E1 : d0 / (d0 - d1) == (- d0) / (d1 - d0)) by (field; split; [intro; lra|exact Hd]). rewrite E1. split; [apply Qle_shift_div_l; lra|apply Qle_shift_div_r; lra].
    - assert (d1 < 0) by (destruct (Qlt_le_dec d1 0); [auto|exfalso; nra]). split; [apply Qle_shift_div_l; lra|apply Qle_shift_div_r; lra]. }
  replace (Qle_bool 0 s && Qle_bool s 1 && Qle_bool 0 t && Qle_bool t 1) with true.
  - rewrite Et. reflexivity.
  - symmetry. rewrite !andb_true_iff, !Qle_bool_iff, Es, Et. tauto.
Qed.

Theorem C62_difference : forall f g, pl_sorted f -> pl_sorted g -> compatible f g -> no_sign_change (pl_minus f g).
Proof.
  intros f g Hf Hg Hc a b Hn. assert (Hne : f <> [] \/ g <> []).
  { destruct f; [destruct g|]; [|right; discriminate|left; discriminate]. destruct Hn as (f1 & f2 & E). cbn in E. destruct f1; discriminate. }
  unfold pl_minus in Hn. rewrite apply_map in Hn by auto. apply map_neighbours in Hn as (u & v & Hn & -> & ->). cbn [snd].
  destruct (Qlt_le_dec ((pl_eval f u - pl_eval g u) * (pl_eval f v - pl_eval g v)) 0) as [Hneg|]; [|auto]. exfalso.
  destruct (merged_spec f g) as (M1 & M2 & M3). destruct (q_neighbours _ _ _ M1 Hn) as [Huv Hgap]. destruct (neighbours_In _ _ _ Hn) as [Iu Iv].
  (* the values of the breakpoints around [u] and [v] *)
  set (B := map (fun x => (x, pl_eval f x - pl_eval g x)) (base_values f g)). assert (HB : pl_sorted B) by (apply (map_sorted (fun x => pl_eval f x - pl_eval g x)), base_sorted).
  assert (HBin : forall r, In r B -> exists w, In w (merged f g) /\ w = fst r).
  { intros r Hr. apply in_map_iff in Hr as (w & <- & Hw). exists w. split; [unfold merged; apply insert_all_old; exact Hw|reflexivity]. }
  assert (Hhull : forall x, In x (merged f g) -> in_hull B x).
  { intros x Hx. destruct (M3 x Hx) as [(p & Hp & A1) (q & Hq & A2)]. destruct (base_has f g p Hp) as (w1 & W1 & E1). destruct (base_has f g q Hq) as (w2 & W2 & E2).
    split; [exists (w1, pl_eval f w1 - pl_eval g w1)|exists (w2, pl_eval f w2 - pl_eval g w2)]; (split; [apply in_map_iff; eauto|cbn [fst]; lra]). }
  destruct (segment_around B u v HB (proj1 (Hhull u Iu)) (proj2 (Hhull v Iv)) Huv) as (f1 & p & q & f2 & E & Hpu & Hqv).
  { intros r Hr. destruct (HBin r Hr) as (w & Hw & Ew). destruct (Hgap w Hw); [left|right]; rewrite <- Ew; auto. }
  assert (Hpq : neighbours p q B) by (exists f1, f2; exact E). apply map_neighbours in Hpq as (x0 & x1 & Hx & -> & ->). cbn [fst snd] in *.
  destruct (q_neighbours _ _ _ (base_sorted f g) Hx) as [H01 Hgap']. destruct (neighbours_In _ _ _ Hx) as [I0 I1].
  assert (Hb : forall x, In x (base_values f g) -> covers f x /\ covers g x).
  { intros y Hy. apply (compatible_covers f g y Hc). destruct (base_In f g y Hy) as (r & Hr & <-). apply hull_In; auto. }
  assert (Hg' : forall r, In r (f ++ g) -> fst r <= x0 \/ x1 <= fst r).
  { intros r Hr. destruct (base_has f g r Hr) as (w & Hw & Ew). destruct (Hgap' w Hw); [left|right]; lra. }
  assert (L : forall z, x0 <= z <= x1 -> pl_eval f z - pl_eval g z == lerp z x0 (pl_eval f x0 - pl_eval g x0) x1 (pl_eval f x1 - pl_eval g x1)).
  { intros z Hz. rewrite (affine_cover f x0 x1 z), (affine_cover g x0 x1 z); auto; try (apply Hb; auto); try (intros r Hr; apply Hg', in_app_iff; auto). unfold lerp. field. intro. lra. }
  rewrite (L u), (L v) in Hneg by lra. destruct (sign_root _ _ _ _ _ _ H01 Hpu Huv Hqv Hneg) as (N & R1 & R2).
  rewrite <- intersection_root in R1, R2 by auto.
  destruct (intersections_has f g x0 x1 (base_values f g) Hx []) as (z & Hz & Ez); [intro E0; lra|].
  destruct (insert_all_new (intersections f g (base_values f g) []) (base_values f g) z Hz) as (w & Hw & Ew).
  destruct (Hgap w Hw); lra.
Qed.

(** ... so that distances between functions are areas. *)
Theorem C62_distance : forall f g x, pl_sorted f -> pl_sorted g -> compatible f g ->
  pl_eval (pl_abs (pl_minus f g)) x == Qabs (pl_eval f x - pl_eval g x) /\ pl_integral (pl_minus f g) == area (pl_minus f g).
Proof.
  intros f g x Hf Hg Hc. destruct (C39_sum f g x Hf Hg Hc) as (_ & S2 & _ & E). split.
  - rewrite C62_abs by (auto; apply C62_difference; auto). rewrite E. reflexivity.
  - apply C62_integral; [exact S2|apply C62_difference; auto].
Qed.

(** FINDING: a sum, or adding a scalar, may introduce a change of sign inside a
    segment: the absolute value and the integral are wrong for the result. *)
Theorem C62_sum_refuted : exists f g x, pl_sorted f /\ pl_sorted g /\ no_sign_change f /\ no_sign_change g /\ same_hull f g /\
  ~ pl_eval (pl_abs (pl_plus f g)) x == Qabs (pl_eval f x + pl_eval g x) /\ pl_integral (pl_plus f g) == 0 /\ ~ pl_eval (pl_plus f g) x == 0.
Proof.
  exists [(0, 0); (4, 4)], [(0, -2 # 1); (4, -2 # 1)], 1.
  split; [repeat constructor|]. split; [repeat constructor|].
  assert (G : forall p q a b, @neighbours (Q * Q) p q [a; b] -> p = a /\ q = b).
  { intros p q a b (f1 & f2 & E). destruct f1 as [|? [|? [|? f1]]]; [|discriminate|discriminate|discriminate]. injection E as -> -> _. auto. }
  split; [intros p q H; apply G in H as [-> ->]; vm_compute; discriminate|]. split; [intros p q H; apply G in H as [-> ->]; vm_compute; discriminate|].
  split.
  { intro x. split; intros [(p & Hp & A) (q & Hq & B)]; (assert (0 <= fst p) by (destruct Hp as [<-|[<-|[]]]; cbn; lra)); (assert (fst q <= 4) by (destruct Hq as [<-|[<-|[]]]; cbn; lra)).
    - split; [exists (0, -2 # 1)|exists (4, -2 # 1)]; (split; [simpl; auto|cbn [fst]; lra]).
    - split; [exists (0, 0)|exists (4, 4)]; (split; [simpl; auto|cbn [fst]; lra]). }
  split; [vm_compute; discriminate|]. split; [vm_compute; reflexivity|]. vm_compute. discriminate.
Qed.

Theorem C62_scalar_refuted : exists f lambda x, pl_sorted f /\ no_sign_change f /\ in_hull f x /\
  ~ pl_eval (pl_abs (pl_minus_scalar f lambda)) x == Qabs (pl_eval f x - lambda) /\ pl_integral (pl_minus_scalar f lambda) == 0.
Proof.
  exists [(0, 0); (4, 4)], 2, 1. split; [repeat constructor|]. split.
  - intros p q (f1 & f2 & E). destruct f1 as [|? [|? [|? f1]]]; [|discriminate|discriminate|discriminate]. injection E as <- <- _. vm_compute. discriminate.
  - split; [split; [exists (0, 0)|exists (4, 4)]; (split; [simpl; auto|cbn; lra])|]. split; [vm_compute; discriminate|vm_compute; reflexivity].
Qed.

Example C62_example : pl_integral (pl_minus [(0, 0); (4, 4)] [(0, 2); (4, 2)]) == 4 /\ area (pl_minus [(0, 0); (4, 4)] [(0, 2); (4, 2)]) == 4.
Proof. split; vm_compute; reflexivity. Qed.

Print Assumptions C39_eval.
Print Assumptions C39_constructor.
Print Assumptions C39_sum.
Print Assumptions C39_sum_refuted.
Print Assumptions C39_scalar.
Print Assumptions C39_division_by_zero.
Print Assumptions C39_equality.
Print Assumptions C39_equality_refuted.
Print Assumptions C39_max.
Print Assumptions C62_abs.
Print Assumptions C62_integral.
Print Assumptions C62_difference.
Print Assumptions C62_distance.
Print Assumptions C62_sum_refuted.
Print Assumptions C62_scalar_refuted.
