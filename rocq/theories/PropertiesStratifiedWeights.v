(** * Property C145: weights of vertices and filtrations of stratified graphs. *)
From Coq Require Import List Arith Bool ZArith Lia Permutation Sorted.
From Verif Require Import Base BaseFacts Simplex SimplexFacts SpecComplex Complex ComplexFacts FiltrationFacts History SubcomplexFacts
  PropertiesComplex RipsFacts EnumerateFacts FloydFacts BarycentricFacts StratifiedGraph PropertiesStratified.
Import ListNotations.
Local Open Scope nat_scope.

(** ** the comparisons of absolute weights *)

(** what the comparisons are meant to be *)
Definition abs_order (s t : simplex) : bool :=
  if (Z.abs (data s) =? Z.abs (data t))%Z then data_cmp s t else (Z.abs (data s) <? Z.abs (data t))%Z.
Definition abs_order_reverse (s t : simplex) : bool :=
  if (Z.abs (data s) =? Z.abs (data t))%Z then data_cmp_greater s t else (Z.abs (data t) <? Z.abs (data s))%Z.

Lemma abs_order_swo : swo abs_order.
Proof.
  destruct data_cmp_swo as [A B]. split; unfold abs_order.
  - intros x y. rewrite (Z.eqb_sym (Z.abs (data y))). destruct (Z.eqb_spec (Z.abs (data x)) (Z.abs (data y))); [apply A|]. rewrite Z.ltb_lt, Z.ltb_ge. lia.
  - intros x y z.
    destruct (Z.eqb_spec (Z.abs (data y)) (Z.abs (data x))), (Z.eqb_spec (Z.abs (data z)) (Z.abs (data y))), (Z.eqb_spec (Z.abs (data z)) (Z.abs (data x)));
      try lia; rewrite ?Z.ltb_ge; try lia. apply B.
Qed.
Lemma abs_order_reverse_swo : swo abs_order_reverse.
Proof.
  destruct data_cmp_greater_swo as [A B]. split; unfold abs_order_reverse.
  - intros x y. rewrite (Z.eqb_sym (Z.abs (data y))). destruct (Z.eqb_spec (Z.abs (data x)) (Z.abs (data y))); [apply A|]. rewrite Z.ltb_lt, Z.ltb_ge. lia.
  - intros x y z.
    destruct (Z.eqb_spec (Z.abs (data y)) (Z.abs (data x))), (Z.eqb_spec (Z.abs (data z)) (Z.abs (data y))), (Z.eqb_spec (Z.abs (data z)) (Z.abs (data x)));
      try lia; rewrite ?Z.ltb_ge; try lia. apply B.
Qed.

Lemma cpp_sort_ext_in {A} (f g : A -> A -> bool) : forall l, (forall x y, In x l -> In y l -> f x y = g x y) -> cpp_sort f l = cpp_sort g l.
Proof.
  induction l as [|a l IH]; intro H; [reflexivity|]. cbn [cpp_sort]. rewrite IH by (intros; apply H; simpl; auto).
  assert (G : forall m, (forall x, In x m -> In x l) -> insert_sorted f a m = insert_sorted g a m).
  { induction m as [|b m IHm]; intro Hm; [reflexivity|]. cbn [insert_sorted]. rewrite (H b a (or_intror (Hm b (or_introl eq_refl))) (or_introl eq_refl)). rewrite IHm by (intros; apply Hm; simpl; auto). reflexivity. }
  apply G. intros x Hx. apply cpp_sort_In in Hx. exact Hx.
Qed.

(** simplices with the same absolute weight have the same weight and dimension *)
Definition separated (L : list simplex) : Prop :=
  forall s t, In s L -> In t L -> Z.abs (data s) = Z.abs (data t) -> data s = data t /\ length (verts s) = length (verts t).

Theorem C145_absolute : forall K, separated (by_index K) ->
  (forall r, Permutation (by_index (applyFiltration K Absolute r)) (by_index K)) /\
  (forall i j s t, i < j -> nth_error (by_index (applyFiltration K Absolute false)) i = Some s ->
     nth_error (by_index (applyFiltration K Absolute false)) j = Some t -> (Z.abs (data s) <= Z.abs (data t))%Z) /\
  (forall i j s t, i < j -> nth_error (by_index (applyFiltration K Absolute true)) i = Some s ->
     nth_error (by_index (applyFiltration K Absolute true)) j = Some t -> (Z.abs (data t) <= Z.abs (data s))%Z).
Proof.
  intros K HS. refine (conj _ (conj _ _)).
  - intros [|]; apply cpp_sort_perm.
  - cbn [applyFiltration k_sort by_index]. rewrite (cpp_sort_ext_in absolute_cmp abs_order).
    + apply (sorted_by_value abs_order (fun s => Z.abs (data s))); [apply abs_order_swo|]. intros s t. unfold abs_order.
      destruct (Z.eqb_spec (Z.abs (data t)) (Z.abs (data s))); [lia|]. rewrite Z.ltb_ge. lia.
    + intros s t Hs Ht. unfold absolute_cmp, abs_order. destruct (Z.eqb_spec (Z.abs (data s)) (Z.abs (data t))) as [E|E].
      * destruct (HS s t Hs Ht E) as [E1 E2]. unfold data_cmp, sdim. rewrite E1, E2, Z.ltb_irrefl, Z.ltb_irrefl, Z.eqb_refl, Nat.eqb_refl, Nat.ltb_irrefl. reflexivity.
      * destruct (Z.ltb_spec (Z.abs (data s)) (Z.abs (data t))); reflexivity.
  - cbn [applyFiltration k_sort by_index]. rewrite (cpp_sort_ext_in absolute_cmp_reverse abs_order_reverse).
    + intros i j s t Hij Hi Hj. apply Z.opp_le_mono.
      apply (sorted_by_value abs_order_reverse (fun s => - Z.abs (data s))%Z (by_index K) abs_order_reverse_swo) with (i := i) (j := j); auto.
      clear. intros s t. unfold abs_order_reverse. destruct (Z.eqb_spec (Z.abs (data t)) (Z.abs (data s))); [lia|]. rewrite Z.ltb_ge. lia.
    + intros s t Hs Ht. unfold absolute_cmp_reverse, abs_order_reverse. destruct (Z.eqb_spec (Z.abs (data s)) (Z.abs (data t))) as [E|E].
      * destruct (HS s t Hs Ht E) as [E1 E2]. unfold data_cmp_greater, sdim. rewrite E1, E2, Z.ltb_irrefl, Z.ltb_irrefl, Z.eqb_refl, Nat.eqb_refl, Nat.ltb_irrefl. reflexivity.
      * destruct (Z.ltb_spec (Z.abs (data t)) (Z.abs (data s))); reflexivity.
Qed.

(** Unknown names of filtrations are accepted silently; the order is not changed. *)
Theorem C145_names : forall K r, map data (by_index (applyFiltration K OtherFiltration r)) = map data (by_index K) /\
  map verts (by_index (applyFiltration K OtherFiltration r)) = map verts (by_index K).
Proof. intros K r. split; reflexivity. Qed.

Definition absolute_graph : complex := mk [PushBack [0] 0; PushBack [1] 0; PushBack [2] 0; PushBack [0; 1] (-5); PushBack [1; 2] 3; PushBack [0; 2] (-4)].
Example C145_absolute_example :
  separated (by_index absolute_graph) /\
  map data (by_index (applyFiltration absolute_graph Absolute false)) = [0; 0; 0; 3; -4; -5]%Z /\
  map data (by_index (applyFiltration absolute_graph Absolute true)) = [-5; -4; 3; 0; 0; 0]%Z.
Proof.
  split; [|split; reflexivity]. intros s t Hs Ht. cbn in Hs, Ht.
  repeat (destruct Hs as [<-|Hs]); try destruct Hs; repeat (destruct Ht as [<-|Ht]); try destruct Ht; cbn; intro E; try lia; auto.
Qed.

(** the comparisons are no strict weak orderings: an edge and a larger vertex with the
    same weight precede each other, and so do simplices of different dimension with
    opposite weights *)
Theorem C145_comparison_refuted :
  (forall u v x w, u < v -> v < x ->
     absolute_cmp (Simplex [v; u] w) (Simplex [x] w) = true /\ absolute_cmp (Simplex [x] w) (Simplex [v; u] w) = true /\
     absolute_cmp_reverse (Simplex [v; u] w) (Simplex [x] w) = true /\ absolute_cmp_reverse (Simplex [x] w) (Simplex [v; u] w) = true) /\
  (forall s t, (data s = - data t)%Z -> (0 < data s)%Z -> length (verts s) < length (verts t) -> verts s <> [] ->
     absolute_cmp s t = true /\ absolute_cmp t s = true).
Proof.
  split.
  - intros u v x w Huv Hvx. assert (E : (v <? x) = true) by (apply Nat.ltb_lt; auto).
    unfold absolute_cmp, absolute_cmp_reverse, s_ltb. cbn [data verts sdim length]. unfold sdim. cbn [verts length Nat.sub].
    rewrite !Z.ltb_irrefl, Z.eqb_refl. change (0 <? 1) with true. change (1 <? 0) with false. cbn [lex_ltb]. rewrite E. auto.
  - intros s t H Hp Hl Hn. unfold absolute_cmp. replace (Z.abs (data t)) with (Z.abs (data s)) by lia. rewrite Z.ltb_irrefl, Z.eqb_refl.
    assert (E : (data t <? data s)%Z = true) by (apply Z.ltb_lt; lia). assert (E2 : (data s <? data t)%Z = false) by (apply Z.ltb_ge; lia).
    assert (E3 : (sdim s <? sdim t) = true). { apply Nat.ltb_lt. unfold sdim. destruct (verts s); [easy|]. cbn [length] in *. lia. }
    rewrite E, E2, E3. auto.
Qed.

(** ** extremal weights *)
Definition edge (s : simplex) : Prop := length (verts s) = 2.
Definition extreme (name : filtration_name) (reverse : bool) (L : list simplex) (w : Z) : Prop :=
  (exists e, In e L /\ edge e /\ data e = w) /\
  forall e, In e L -> edge e ->
    match name, reverse with
    | Standard, false => (w <= data e)%Z
    | Standard, true => (data e <= w)%Z
    | Absolute, false => (Z.abs w <= Z.abs (data e))%Z
    | Absolute, true => (Z.abs (data e) <= Z.abs w)%Z
    | OtherFiltration, _ => False
    end.

Lemma edge_dim s : (sdim s =? 1) = true <-> edge s.
Proof. unfold sdim, edge. rewrite Nat.eqb_eq. lia. Qed.

Lemma extremes_spec lowest big name : name <> OtherFiltration -> forall K,
  (forall e, In e (by_index K) -> edge e -> (lowest < data e < big)%Z) -> (exists e, In e (by_index K) /\ edge e) ->
  extreme name false (by_index K) (fst (extremes lowest big name K)) /\ extreme name true (by_index K) (snd (extremes lowest big name K)).
Proof.
  intros Hname K HB (e0 & He0 & Hd0).
  assert (G : forall l seen st, (forall e, In e (seen ++ l) -> edge e -> (lowest < data e < big)%Z) ->
    ((forall e, In e seen -> ~ edge e) /\ st = (big, lowest) \/ extreme name false seen (fst st) /\ extreme name true seen (snd st)) ->
    let st' := fold_left (extreme_step lowest big name) l st in
    (forall e, In e (seen ++ l) -> ~ edge e) /\ st' = (big, lowest) \/ extreme name false (seen ++ l) (fst st') /\ extreme name true (seen ++ l) (snd st')).
  { clear K HB e0 He0 Hd0. induction l as [|s l IH]; intros seen st HB H; cbn [fold_left]; [rewrite app_nil_r; exact H|].
    replace (seen ++ s :: l) with ((seen ++ [s]) ++ l) in * by (rewrite <- app_assoc; reflexivity).
    apply IH; [exact HB|]. unfold extreme_step. destruct (sdim s =? 1) eqn:Es; cbn [negb].
    - apply edge_dim in Es. right. assert (Bs : (lowest < data s < big)%Z) by (apply HB; [apply in_or_app; left; apply in_or_app; right; simpl; auto|exact Es]).
      destruct H as [[Hn ->]|[[(e1 & I1 & D1 & W1) M1] [(e2 & I2 & D2 & W2) M2]]].
      + cbn [fst snd].
        assert (Q : forall e, In e (seen ++ [s]) -> edge e -> e = s).
        { intros e He De. apply in_app_or in He. destruct He as [He|[<-|[]]]; [exfalso; apply (Hn e He De)|reflexivity]. }
        assert (V : forall name r, name <> OtherFiltration -> extreme name r (seen ++ [s]) (data s)).
        { intros nm r Hnm. split; [exists s; split; [apply in_or_app; simpl; auto|auto]|]. intros e He De. rewrite (Q e He De). destruct nm, r; try lia; apply Hnm; reflexivity. }
        destruct name; [| |contradiction].
        * cbn [fst snd]. rewrite Z.min_r, Z.max_r by lia. split; apply V; discriminate.
        * cbn [fst snd]. rewrite !Z.eqb_refl. unfold min_abs, max_abs. rewrite Z.ltb_irrefl. split; apply V; discriminate.
      + assert (B1 : (lowest < data e1 < big)%Z) by (apply HB; [apply in_or_app; left; apply in_or_app; left; exact I1|exact D1]).
        assert (B2 : (lowest < data e2 < big)%Z) by (apply HB; [apply in_or_app; left; apply in_or_app; left; exact I2|exact D2]).
        assert (Old : forall e, In e seen -> In e (seen ++ [s])) by (intros; apply in_or_app; auto).
        assert (New : In s (seen ++ [s])) by (apply in_or_app; simpl; auto).
        destruct name; [| |contradiction]; cbn [fst snd].
        * split; split.
          -- destruct (Z.min_spec (fst st) (data s)) as [[_ ->]|[_ ->]]; [exists e1|exists s]; auto.
          -- intros e He De. apply in_app_or in He. destruct He as [He|[<-|[]]]; [specialize (M1 e He De); cbn in M1; lia|lia].
          -- destruct (Z.max_spec (snd st) (data s)) as [[_ ->]|[_ ->]]; [exists s|exists e2]; auto.
          -- intros e He De. apply in_app_or in He. destruct He as [He|[<-|[]]]; [specialize (M2 e He De); cbn in M2; lia|lia].
        * destruct (Z.eqb_spec (fst st) big) as [C|_]; [lia|]. destruct (Z.eqb_spec (snd st) lowest) as [C|_]; [lia|].
          unfold min_abs, max_abs. split.
          -- destruct (Z.ltb_spec (Z.abs (fst st)) (Z.abs (data s))); (split; [first [exists e1; solve [auto]|exists s; solve [auto]]|]);
               intros e He De; apply in_app_or in He; destruct He as [He|[<-|[]]]; try (specialize (M1 e He De); cbn in M1); lia.
          -- destruct (Z.ltb_spec (Z.abs (data s)) (Z.abs (snd st))); (split; [first [exists e2; solve [auto]|exists s; solve [auto]]|]);
               intros e He De; apply in_app_or in He; destruct He as [He|[<-|[]]]; try (specialize (M2 e He De); cbn in M2); lia.
    - assert (Ns : ~ edge s) by (intro C; apply edge_dim in C; congruence).
      destruct H as [[Hn ->]|H]; [left; split; [|reflexivity]; intros e He; apply in_app_or in He; destruct He as [He|[<-|[]]]; auto|right].
      assert (V : forall r w, extreme name r seen w -> extreme name r (seen ++ [s]) w).
      { intros r w [(e & I & D & W) M]. split; [exists e; split; [apply in_or_app; auto|auto]|]. intros x Hx Dx. apply in_app_or in Hx. destruct Hx as [Hx|[<-|[]]]; [apply M; auto|contradiction]. }
      split; apply V; tauto. }
  destruct (G (by_index K) [] (big, lowest)) as [[C _]|H]; [exact HB|left; split; [intros e []|reflexivity]| |exact H].
  exfalso. apply (C e0 He0 Hd0).
Qed.

(** ** the map of weights *)
Definition touches (v : nat) (s : simplex) : bool := (length (verts s) =? 2) && existsb (Nat.eqb v) (verts s).

Lemma find_insert m u w v : w_find v (w_insert m u w) = match w_find v m with Some x => Some x | None => if u =? v then Some w else None end.
Proof.
  unfold w_insert. destruct (w_find u m) eqn:E.
  - destruct (w_find v m) eqn:F; [reflexivity|]. destruct (Nat.eqb_spec u v); [subst; congruence|reflexivity].
  - unfold w_find at 1. cbn [find fst]. destruct (Nat.eqb_spec u v) as [->|N]; [rewrite E; reflexivity|].
    fold (w_find v m). destruct (w_find v m); reflexivity.
Qed.

Definition chosen (strategy : strategy_name) (value : Z) (s : simplex) : Z := match strategy with Local => data s | _ => value end.

Lemma weights_spec strategy value : strategy <> OtherStrategy -> forall l m,
  exists m', foldM (weight_step strategy value) l m = Ok m' /\
    forall v, w_find v m' = match w_find v m with Some x => Some x | None =>
      match find (touches v) l with Some s => Some (chosen strategy value s) | None => None end end.
Proof.
  intro Hs. induction l as [|s l IH]; intro m.
  - exists m. split; [reflexivity|]. intro v. cbn [find]. destruct (w_find v m); reflexivity.
  - cbn [foldM]. unfold weight_step at 1. unfold sdim. destruct (verts s) as [|a [|b [|c r]]] eqn:Ev.
    1,2,4: cbn [length Nat.sub Nat.eqb negb bind]; destruct (IH m) as (m' & E & H); exists m'; split; [exact E|]; intro v; rewrite (H v); cbn [find]; unfold touches at 2; rewrite Ev; reflexivity.
    cbn [length Nat.sub Nat.eqb negb]. unfold get_. cbn [nth_error bind].
    assert (Ew : match strategy with Global => Ok value | Local => Ok (data s) | OtherStrategy => Throw RuntimeError end = Ok (chosen strategy value s)) by (destruct strategy; [reflexivity|reflexivity|contradiction]).
    rewrite Ew. cbn [bind]. destruct (IH (w_insert (w_insert m a (chosen strategy value s)) b (chosen strategy value s))) as (m' & E & H).
    exists m'. split; [exact E|]. intro v. rewrite (H v), !find_insert. cbn [find]. unfold touches at 2. rewrite Ev. cbn [length Nat.eqb andb existsb].
    destruct (w_find v m); [reflexivity|]. rewrite (Nat.eqb_sym v a), (Nat.eqb_sym v b), orb_false_r. destruct (a =? v); [reflexivity|]. destruct (b =? v); reflexivity.
Qed.

(** ** the weights of the vertices *)
Definition new_weight (strategy : strategy_name) (value : Z) (l : list simplex) (v : nat) : option Z :=
  match find (touches v) l with Some e => Some (chosen strategy value e) | None => None end.
Definition weighted (f : nat -> option Z) (s : simplex) : simplex :=
  match verts s with [v] => match f v with Some w => Simplex [v] w | None => s end | _ => s end.

Lemma weighted_verts f s : verts (weighted f s) = verts s.
Proof. unfold weighted. destruct (verts s) as [|v [|u l]] eqn:E; auto. destruct (f v); auto. Qed.

Lemma set_step_ok m f a b s L : kwf L -> by_index L = a ++ s :: b ->
  (forall v, w_find v m = f v) -> verts s <> [] -> (forall v, verts s = [v] -> f v <> None) ->
  exists L', set_step m L (length a) = Ok L' /\ kwf L' /\ by_index L' = a ++ weighted f s :: b.
Proof.
  intros HL HI Hm Hn Hf. assert (En : nth_error (by_index L) (length a) = Some s).
  { rewrite HI, nth_error_app2, Nat.sub_diag by lia. reflexivity. }
  unfold set_step, get_. rewrite En. cbn [bind]. unfold sdim, weighted. destruct (verts s) as [|v [|u r]] eqn:Ev; [easy| |].
  - cbn [length Nat.sub Nat.eqb nth_error bind]. rewrite Hm. destruct (f v) as [w|] eqn:Fv; [|exfalso; apply (Hf v eq_refl Fv)].
    assert (EK : k_replace L (length a) (set_data s w) = (Complex (upd (by_index L) (length a) (set_data s w)) (dim_replace s (set_data s w) (by_dim L)), Ok true)).
    { unfold k_replace. rewrite En. assert (Eq : s_eqb s (set_data s w) = true) by (apply s_eqb_eq; reflexivity). rewrite Eq. cbn [negb andb].
      unfold s_dimension. cbn [set_data verts]. rewrite Ev. reflexivity. }
    pose proof (replace_kwf L (length a) (set_data s w) HL) as HK. rewrite EK in HK |- *. cbn [bind fst] in *. eexists. split; [reflexivity|]. split.
    + apply HK. apply (kwf_good L HL s). eapply nth_error_In; eauto.
    + cbn [by_index]. rewrite HI.
      assert (U : forall (a : list simplex) x y b, upd (a ++ x :: b) (length a) y = a ++ y :: b).
      { clear. induction a as [|z a IH]; intros x y b; cbn [app length upd]; [reflexivity|]. rewrite IH. reflexivity. }
      rewrite U. unfold set_data. rewrite Ev. reflexivity.
  - cbn [length Nat.sub Nat.eqb]. eexists. split; [reflexivity|]. auto.
Qed.

Lemma set_loop m f K : kwf K -> (forall v, w_find v m = f v) -> forall n, n <= length (by_index K) ->
  (forall s v, In s (firstn n (by_index K)) -> verts s = [v] -> f v <> None) ->
  exists L, foldM (set_step m) (seq 0 n) K = Ok L /\ kwf L /\ by_index L = map (weighted f) (firstn n (by_index K)) ++ skipn n (by_index K).
Proof.
  intros HK Hm. set (l := by_index K). induction n as [|n IH]; intros Hn Hf.
  - exists K. cbn. auto.
  - assert (Hin : forall s, In s (firstn n l) -> In s (firstn (S n) l)).
    { intros s H. rewrite <- (firstn_skipn n (firstn (S n) l)). apply in_or_app. left. rewrite firstn_firstn. replace (Nat.min n (S n)) with n by lia. exact H. }
    destruct IH as (L & E & HL & HI); [lia|intros s v Hs; apply Hf; auto|].
    destruct (nth_error l n) as [s|] eqn:Es; [|apply nth_error_None in Es; lia].
    assert (S1 : skipn n l = s :: skipn (S n) l).
    { clear - Es. revert n Es. induction l as [|a l IH]; intros [|n] Es; cbn in *; try discriminate; [injection Es as <-; reflexivity|]. apply IH. exact Es. }
    assert (S2 : firstn (S n) l = firstn n l ++ [s]).
    { clear - Es. revert n Es. induction l as [|a l IH]; intros [|n] Es; cbn [nth_error firstn app] in *; try discriminate; [injection Es as <-; reflexivity|]. f_equal. apply IH. exact Es. }
    rewrite S1 in HI. destruct (set_step_ok m f _ _ s L HL HI) as (L' & E' & HL' & HI'); auto.
    + apply (kwf_good K HK s). eapply nth_error_In; exact Es.
    + intros v Hv. apply (Hf s v); [rewrite S2; apply in_or_app; simpl; auto|exact Hv].
    + rewrite map_length, firstn_length, Nat.min_l in E' by lia. exists L'. rewrite seq_S, foldM_app. rewrite E. cbn [bind foldM Nat.add]. rewrite E'. cbn [bind]. refine (conj eq_refl (conj HL' _)).
      rewrite HI', S2, map_app, <- app_assoc. reflexivity.
Qed.

(** [e] is the first edge of the vertex [v] *)
Definition first_edge (L : list simplex) (v : nat) (e : simplex) : Prop :=
  exists a b, L = a ++ e :: b /\ edge e /\ In v (verts e) /\ forall t, In t a -> edge t -> ~ In v (verts t).

Lemma touches_spec v s : touches v s = true <-> edge s /\ In v (verts s).
Proof.
  unfold touches, edge. rewrite andb_true_iff, Nat.eqb_eq, existsb_exists. split; intros [A B]; split; auto.
  - destruct B as (x & Hx & E). apply Nat.eqb_eq in E. subst. exact Hx.
  - exists v. split; [exact B|apply Nat.eqb_refl].
Qed.
Lemma find_first v : forall l e, find (touches v) l = Some e -> first_edge l v e.
Proof.
  induction l as [|s l IH]; intros e H; cbn [find] in H; [discriminate|]. destruct (touches v s) eqn:E.
  - injection H as <-. apply touches_spec in E. exists [], l. repeat split; try apply E. intros t [].
  - destruct (IH e H) as (a & b & -> & De & Ve & Hf). exists (s :: a), b. repeat split; auto.
    intros t [<-|Ht] Dt Vt; [|apply (Hf t Ht Dt Vt)]. assert (touches v s = true) by (apply touches_spec; auto). congruence.
Qed.

Lemma weights_kwf lowest big K name strategy reverse : kwf K ->
  name <> OtherFiltration -> strategy <> OtherStrategy ->
  (forall e, In e (by_index K) -> edge e -> (lowest < data e < big)%Z) ->
  (forall v, In [v] (map verts (by_index K)) -> exists e, In e (by_index K) /\ edge e /\ In v (verts e)) ->
  exists L, assignVertexWeights lowest big K name strategy reverse = Ok L /\ kwf L /\
    map verts (by_index L) = map verts (by_index K) /\
    forall k s t, nth_error (by_index K) k = Some s -> nth_error (by_index L) k = Some t ->
      (length (verts s) <> 1 -> t = s) /\
      (forall v, verts s = [v] ->
         match strategy with
         | Global => extreme name reverse (by_index K) (data t)
         | Local => exists e, first_edge (by_index K) v e /\ data t = data e
         | OtherStrategy => False
         end).
Proof.
  intros HK Hname Hstrat HB HV. unfold assignVertexWeights.
  set (value := if reverse then snd (extremes lowest big name K) else fst (extremes lowest big name K)).
  destruct (weights_spec strategy value Hstrat (by_index K) []) as (m & Em & Hm). rewrite Em. cbn [bind].
  set (f := new_weight strategy value (by_index K)).
  assert (Hf : forall v, w_find v m = f v) by (intro v; rewrite Hm; reflexivity).
  assert (Hfind : forall v, In [v] (map verts (by_index K)) -> exists e, find (touches v) (by_index K) = Some e).
  { intros v Hv. destruct (HV v Hv) as (e & He & De & Ve). destruct (find (touches v) (by_index K)) eqn:Q; [eauto|].
    exfalso. assert (T : touches v e = true) by (apply touches_spec; auto). rewrite (find_none _ _ Q e He) in T. discriminate. }
  destruct (set_loop m f K HK Hf (length (by_index K)) (le_n _)) as (L & E & HL & HI).
  { intros s v Hs Hv. rewrite firstn_all in Hs. destruct (Hfind v) as (e & Q); [rewrite <- Hv; apply in_map; exact Hs|]. unfold f, new_weight. rewrite Q. discriminate. }
  rewrite firstn_all, skipn_all, app_nil_r in HI. exists L. refine (conj E (conj HL (conj _ _))).
  - rewrite HI, map_map. apply map_ext. intro s. apply weighted_verts.
  - intros k s t Hs Ht. rewrite HI, nth_error_map, Hs in Ht. cbn in Ht. injection Ht as <-. split.
    + intro Hl. unfold weighted. destruct (verts s) as [|v [|u r]]; auto. cbn in Hl. lia.
    + intros v Hv. unfold weighted. rewrite Hv. destruct (Hfind v) as (e & Q); [rewrite <- Hv; apply in_map; eapply nth_error_In; eauto|].
      unfold f, new_weight. rewrite Q. cbn [data]. destruct strategy; cbn [chosen]; [| |contradiction].
      * destruct (extremes_spec lowest big name Hname K HB) as [X1 X2].
        { apply find_some in Q. destruct Q as [Q1 Q2]. apply touches_spec in Q2. exists e. tauto. }
        unfold value. destruct reverse; assumption.
      * exists e. split; [apply find_first; exact Q|reflexivity].
Qed.

(** ** C145: every vertex gets the extremal weight of all edges, or the weight of its
    first edge; other simplices are kept *)
Theorem C145_weights : forall lowest big K name strategy reverse, reachable K ->
  name <> OtherFiltration -> strategy <> OtherStrategy ->
  (forall e, In e (by_index K) -> edge e -> (lowest < data e < big)%Z) ->
  (forall v, In [v] (map verts (by_index K)) -> exists e, In e (by_index K) /\ edge e /\ In v (verts e)) ->
  exists L, assignVertexWeights lowest big K name strategy reverse = Ok L /\
    map verts (by_index L) = map verts (by_index K) /\
    forall k s t, nth_error (by_index K) k = Some s -> nth_error (by_index L) k = Some t ->
      (length (verts s) <> 1 -> t = s) /\
      (forall v, verts s = [v] ->
         match strategy with
         | Global => extreme name reverse (by_index K) (data t)
         | Local => exists e, first_edge (by_index K) v e /\ data t = data e
         | OtherStrategy => False
         end).
Proof.
  intros lowest big K name strategy reverse HR Hn Hs HB HV.
  destruct (weights_kwf lowest big K name strategy reverse (reachable_kwf K HR) Hn Hs HB HV) as (L & E & _ & H1 & H2). exists L. auto.
Qed.

Lemma first_bad {A} (bad : A -> bool) : forall l, (exists s, In s l /\ bad s = true) ->
  exists a s b, l = a ++ s :: b /\ bad s = true /\ forall t, In t a -> bad t = false.
Proof.
  induction l as [|t l IH]; intro H; [destruct H as (s & [] & _)|]. destruct (bad t) eqn:E; [exists [], t, l; repeat split; auto; intros x []|].
  destruct H as (s & [<-|Hs] & Bs); [congruence|]. destruct (IH (ex_intro _ s (conj Hs Bs))) as (a & x & b & -> & Bx & Ha).
  exists (t :: a), x, b. repeat split; auto. intros y [<-|Hy]; auto.
Qed.

(** an isolated vertex ends the assignment *)
Theorem C145_isolated : forall lowest big K name strategy reverse v, reachable K -> strategy <> OtherStrategy ->
  In [v] (map verts (by_index K)) -> (forall e, In e (by_index K) -> edge e -> ~ In v (verts e)) ->
  assignVertexWeights lowest big K name strategy reverse = Throw OutOfRange.
Proof.
  intros lowest big K name strategy reverse v HR Hs Hv Hiso. pose proof (reachable_kwf K HR) as HK. unfold assignVertexWeights.
  set (value := if reverse then snd (extremes lowest big name K) else fst (extremes lowest big name K)).
  destruct (weights_spec strategy value Hs (by_index K) []) as (m & Em & Hm). rewrite Em. cbn [bind].
  set (f := new_weight strategy value (by_index K)).
  assert (Hf : forall v, w_find v m = f v) by (intro x; rewrite Hm; reflexivity).
  set (bad := fun s => match verts s with [x] => match f x with Some _ => false | None => true end | _ => false end).
  assert (Hbad : exists s, In s (by_index K) /\ bad s = true).
  { apply in_map_iff in Hv. destruct Hv as (s & Es & Is). exists s. split; [exact Is|]. unfold bad. rewrite Es. unfold f, new_weight.
    destruct (find (touches v) (by_index K)) as [e|] eqn:Q; [|reflexivity]. exfalso. apply find_some in Q. destruct Q as [Q1 Q2]. apply touches_spec in Q2. apply (Hiso e Q1); tauto. }
  assert (Sp : exists a s b, by_index K = a ++ s :: b /\ bad s = true /\ forall t, In t a -> bad t = false).
  { apply first_bad. exact Hbad. }
  destruct Sp as (a & s & b & El & Bs & Ha).
  assert (F1 : firstn (length a) (by_index K) = a) by (rewrite El, firstn_app, firstn_all, Nat.sub_diag, app_nil_r; reflexivity).
  assert (F2 : skipn (length a) (by_index K) = s :: b) by (rewrite El, skipn_app, skipn_all, Nat.sub_diag; reflexivity).
  destruct (set_loop m f K HK Hf (length a)) as (L & E & HL & HI).
  { rewrite El, app_length. lia. }
  { rewrite F1. intros t x Ht Ex Q. specialize (Ha t Ht). unfold bad in Ha. rewrite Ex, Q in Ha. discriminate. }
  rewrite F1, F2 in HI. rewrite El at 1. rewrite app_length. cbn [length]. rewrite seq_app, foldM_app, E. cbn [bind seq foldM Nat.add].
  assert (St : set_step m L (length a) = Throw OutOfRange).
  { unfold set_step, get_. rewrite HI, nth_error_app2; rewrite map_length; [|lia]. rewrite Nat.sub_diag. cbn [nth_error bind].
    unfold bad in Bs. destruct (verts s) as [|x [|y r]] eqn:Ev; try discriminate. unfold sdim. rewrite Ev. cbn [length Nat.sub Nat.eqb nth_error bind]. rewrite Hf. destruct (f x); [discriminate|reflexivity]. }
  rewrite St. reflexivity.
Qed.

(** an unknown strategy is an error, unless there are no edges *)
Theorem C145_unknown : forall lowest big K name reverse, reachable K -> (exists e, In e (by_index K) /\ edge e) ->
  assignVertexWeights lowest big K name OtherStrategy reverse = Throw RuntimeError.
Proof.
  intros lowest big K name reverse _ (e & He & De). unfold assignVertexWeights.
  generalize (if reverse then snd (extremes lowest big name K) else fst (extremes lowest big name K)). intro value.
  assert (G : forall m, foldM (weight_step OtherStrategy value) (by_index K) m = Throw RuntimeError); [|rewrite G; reflexivity].
  induction (by_index K) as [|s l IH]; intro m; [destruct He|]. cbn [foldM].
  unfold weight_step at 1, sdim. destruct (verts s) as [|a [|b [|c r]]] eqn:Ev; cbn [length Nat.sub Nat.eqb negb get_ nth_error bind]; try reflexivity;
    (destruct He as [<-|He]; [unfold edge in De; rewrite Ev in De; cbn in De; lia|apply IH; exact He]).
Qed.

(** ** C145: the whole preparation of a graph, for the filtration by weights *)
Theorem C145_standard : forall lowest big K strategy reverse, reachable K -> strategy <> OtherStrategy ->
  (forall s, In s (by_index K) -> length (verts s) <= 2) ->
  (forall e, In e (by_index K) -> edge e -> (lowest < data e < big)%Z) ->
  (forall v, In [v] (map verts (by_index K)) -> exists e, In e (by_index K) /\ edge e /\ In v (verts e)) ->
  exists L, assignVertexWeights lowest big (applyFiltration K Standard reverse) Standard strategy reverse = Ok L /\
    let M := by_index (applyFiltration L Standard reverse) in
    Permutation (map verts M) (map verts (by_index K)) /\ filtration_order M /\
    (forall e, edge e -> (In e M <-> In e (by_index K))) /\
    forall i j s t, i < j -> nth_error M i = Some s -> nth_error M j = Some t ->
      if reverse then (data t <= data s)%Z else (data s <= data t)%Z.
Proof.
  intros lowest big K strategy reverse HR Hs HG HB HV. pose proof (reachable_kwf K HR) as HK.
  set (K1 := applyFiltration K Standard reverse).
  assert (P1 : Permutation (by_index K1) (by_index K)) by (unfold K1; destruct reverse; apply cpp_sort_perm).
  assert (HK1 : kwf K1) by (unfold K1; destruct reverse; apply sort_kwf; exact HK).
  assert (I1 : forall s, In s (by_index K1) <-> In s (by_index K)) by (intro s; split; apply Permutation_in; [|apply Permutation_sym]; exact P1).
  assert (Sorted1 : forall i j s t, i < j -> nth_error (by_index K1) i = Some s -> nth_error (by_index K1) j = Some t -> if reverse then (data t <= data s)%Z else (data s <= data t)%Z).
  { unfold K1. destruct reverse.
    - intros i j s t Hij Hi Hj. apply Z.opp_le_mono.
      apply (sorted_by_value data_cmp_greater (fun s => - data s)%Z (by_index K) data_cmp_greater_swo) with (i := i) (j := j); auto.
      clear. intros s t. unfold data_cmp_greater. destruct (Z.eqb_spec (data t) (data s)); [lia|]. rewrite Z.ltb_ge. lia.
    - apply (sorted_by_value data_cmp (fun s => data s) (by_index K) data_cmp_swo). intros s t. unfold data_cmp.
      destruct (Z.eqb_spec (data t) (data s)); [lia|]. rewrite Z.ltb_ge. lia. }
  destruct (weights_kwf lowest big K1 Standard strategy reverse HK1 ltac:(discriminate) Hs) as (L & E & HL & HV1 & HW).
  { intros e He. apply HB, I1, He. }
  { intros v Hv. destruct (HV v) as (e & He & D); [eapply Permutation_in; [apply Permutation_map; exact P1|exact Hv]|]. exists e. split; [apply I1; exact He|exact D]. }
  assert (Origin : forall t, In t (by_index L) -> exists k s, nth_error (by_index K1) k = Some s /\ nth_error (by_index L) k = Some t /\ verts s = verts t).
  { intros t Ht. apply In_nth_error in Ht. destruct Ht as (k & Hk). pose proof (map_nth_error verts _ _ Hk) as Q. rewrite HV1, nth_error_map in Q.
    destruct (nth_error (by_index K1) k) as [s|] eqn:Ek; [|discriminate]. cbn in Q. injection Q as Q. exists k, s. auto. }
  assert (Edges : forall e, edge e -> (In e (by_index L) <-> In e (by_index K1))).
  { intros e De. split; intro H.
    - destruct (Origin e H) as (k & s & Hk & Hk' & Hv). destruct (HW k s e Hk Hk') as [Q _]. rewrite Q by (rewrite Hv; unfold edge in De; lia). eapply nth_error_In; eauto.
    - apply In_nth_error in H. destruct H as (k & Hk). pose proof (map_nth_error verts _ _ Hk) as Q. rewrite <- HV1, nth_error_map in Q.
      destruct (nth_error (by_index L) k) as [t|] eqn:Ek; [|discriminate]. destruct (HW k e t Hk Ek) as [Q2 _]. rewrite <- Q2 by (unfold edge in De; lia). eapply nth_error_In; eauto. }
  assert (Rel : forall s t, In s (by_index L) -> In t (by_index L) -> subset (verts t) (verts s) -> if reverse then (data s <= data t)%Z else (data t <= data s)%Z).
  { intros s t Hs' Ht Hsub. destruct (Origin s Hs') as (k & s0 & Hk & Hk' & Hvs). destruct (Origin t Ht) as (j & t0 & Hj & Hj' & Hvt).
    destruct (kwf_good L HL s Hs') as [Ws Ns]. destruct (kwf_good L HL t Ht) as [Wt Nt].
    assert (Ls : length (verts s) <= 2) by (rewrite <- Hvs; apply HG, I1; eapply nth_error_In; eauto).
    pose proof (subset_length _ _ Wt Hsub) as LL.
    assert (Same : verts t = verts s -> s = t).
    { intro Q. symmetry. apply (same_image verts (by_index L)); auto. apply kwf_nodup, HL. }
    destruct (verts t) as [|a [|b r]] eqn:Et; [easy| |].
    - destruct (verts s) as [|x [|y q]] eqn:Es; [easy| |].
      + destruct (Hsub a ltac:(simpl; auto)) as [<-|[]]. rewrite (Same eq_refl). destruct reverse; lia.
      + assert (De : edge s) by (unfold edge; rewrite Es; cbn [length] in *; lia).
        assert (Is : In s (by_index K1)) by (apply Edges; auto).
        assert (Va : In a (verts s)) by (rewrite Es; apply Hsub; simpl; auto).
        destruct (HW j t0 t Hj Hj') as [_ Q]. specialize (Q a Hvt). destruct strategy; [| |contradiction].
        * destruct Q as [_ Q]. specialize (Q s Is De). destruct reverse; exact Q.
        * destruct Q as (e & (l1 & l2 & El & De' & Ve & Hfirst) & ->). apply In_nth_error in Is. destruct Is as (i & Hi).
          assert (Ne : nth_error (by_index K1) (length l1) = Some e) by (rewrite El, nth_error_app2, Nat.sub_diag by lia; reflexivity).
          destruct (Nat.lt_trichotomy (length l1) i) as [C|[C|C]].
          -- specialize (Sorted1 _ _ _ _ C Ne Hi). destruct reverse; exact Sorted1.
          -- subst i. rewrite Ne in Hi. injection Hi as <-. destruct reverse; lia.
          -- exfalso. rewrite El, nth_error_app1 in Hi by auto. apply nth_error_In in Hi. apply (Hfirst s Hi De Va).
    - assert (Q : verts s = a :: b :: r).
      { destruct r as [|z r]; [|cbn [length] in LL; lia]. destruct (verts s) as [|x [|y [|z q]]] eqn:Es; cbn [length] in LL, Ls; try lia.
        pose proof (Hsub a ltac:(simpl; auto)) as Q1. pose proof (Hsub b ltac:(simpl; auto)) as Q2. cbn in Q1, Q2.
        unfold wf in Wt, Ws. rewrite Et in Wt. rewrite Es in Ws. apply StronglySorted_inv in Wt. apply StronglySorted_inv in Ws. destruct Wt as [_ Wt]. destruct Ws as [_ Ws].
        apply Forall_inv in Wt. apply Forall_inv in Ws. assert (a = x /\ b = y) as [-> ->] by (clear - Q1 Q2 Wt Ws; intuition lia). reflexivity. }
      rewrite (Same (eq_sym Q)). destruct reverse; lia. }
  exists L. split; [exact E|]. intro M.
  assert (PM : Permutation M (by_index L)) by (unfold M; destruct reverse; apply cpp_sort_perm).
  refine (conj _ (conj _ (conj _ _))).
  - apply (Permutation_trans (Permutation_map verts PM)). rewrite HV1. apply Permutation_map. exact P1.
  - unfold M. destruct reverse.
    + apply filtration_data_greater; [exact HL|]. intros s t Hs' Ht Hsub. apply (Rel s t Hs' Ht Hsub).
    + apply filtration_data; [exact HL|]. intros s t Hs' Ht Hsub. apply (Rel s t Hs' Ht Hsub).
  - intros e De. rewrite <- I1, <- Edges by auto. split; apply Permutation_in; [|apply Permutation_sym]; exact PM.
  - unfold M. destruct reverse.
    + intros i j s t Hij Hi Hj. apply Z.opp_le_mono.
      apply (sorted_by_value data_cmp_greater (fun s => - data s)%Z (by_index L) data_cmp_greater_swo) with (i := i) (j := j); auto.
      clear. intros s t. unfold data_cmp_greater. destruct (Z.eqb_spec (data t) (data s)); [lia|]. rewrite Z.ltb_ge. lia.
    + apply (sorted_by_value data_cmp (fun s => data s) (by_index L) data_cmp_swo). intros s t. unfold data_cmp.
      destruct (Z.eqb_spec (data t) (data s)); [lia|]. rewrite Z.ltb_ge. lia.
Qed.

(** ** the smallest absolute weight *)
Theorem C145_minimum : forall big K, (forall e, In e (by_index K) -> edge e -> (Z.abs (data e) <= big)%Z) ->
  (forall e, In e (by_index K) -> edge e -> (getMinimumAbsoluteWeight big K <= Z.abs (data e))%Z) /\
  ((exists e, In e (by_index K) /\ edge e) -> exists e, In e (by_index K) /\ edge e /\ getMinimumAbsoluteWeight big K = Z.abs (data e)) /\
  ((forall e, In e (by_index K) -> ~ edge e) -> getMinimumAbsoluteWeight big K = big).
Proof.
  intros big K HB. unfold getMinimumAbsoluteWeight.
  assert (G : forall l r, let m := fold_left (fun r s => if sdim s =? 1 then Z.min r (Z.abs (data s)) else r) l r in
    (m <= r)%Z /\ (forall e, In e l -> edge e -> (m <= Z.abs (data e))%Z) /\ (m = r \/ exists e, In e l /\ edge e /\ m = Z.abs (data e))).
  { clear. induction l as [|s l IH]; intro r; cbn [fold_left]; [repeat split; auto; try lia; intros e []|].
    destruct (sdim s =? 1) eqn:Es.
    - destruct (IH (Z.min r (Z.abs (data s)))) as (A & B & C). split; [lia|]. split.
      + intros e [<-|He] De; [lia|auto].
      + destruct C as [C|(e & He & De & C)]; [|right; exists e; simpl; auto]. destruct (Z.min_spec r (Z.abs (data s))) as [[_ Q]|[_ Q]]; [left; congruence|right].
        exists s. split; [simpl; auto|]. split; [apply edge_dim; exact Es|congruence].
    - destruct (IH r) as (A & B & C). split; [exact A|]. split.
      + intros e [<-|He] De; [apply edge_dim in De; congruence|auto].
      + destruct C as [C|(e & He & De & C)]; [left; exact C|right; exists e; simpl; auto]. }
  destruct (G (by_index K) big) as (A & B & C). refine (conj B (conj _ _)).
  - intros (e & He & De). destruct C as [C|C]; [|exact C]. exists e. refine (conj He (conj De _)). specialize (B e He De). specialize (HB e He De). lia.
  - intro Hn. destruct C as [C|(e & He & De & _)]; [exact C|]. exfalso. apply (Hn e He De).
Qed.

(** a path with weights 1 and 2 *)
Definition path_graph : complex := mk [PushBack [0] 0; PushBack [1] 0; PushBack [2] 0; PushBack [1; 2] 2; PushBack [0; 1] 1].
Example C145_example :
  (let* L := assignVertexWeights (-99) 99 (applyFiltration path_graph Standard false) Standard Local false in Ok (map (fun s => (verts s, data s)) (by_index (applyFiltration L Standard false)))) =
  Ok [([0], 1%Z); ([1], 1%Z); ([1; 0], 1%Z); ([2], 2%Z); ([2; 1], 2%Z)] /\
  (let* L := assignVertexWeights (-99) 99 (applyFiltration path_graph Standard true) Standard Global true in Ok (map (fun s => (verts s, data s)) (by_index (applyFiltration L Standard true)))) =
  Ok [([0], 2%Z); ([1], 2%Z); ([2], 2%Z); ([2; 1], 2%Z); ([1; 0], 1%Z)] /\
  getMinimumAbsoluteWeight 99 path_graph = 1%Z /\
  assignVertexWeights (-99) 99 (mk [PushBack [0] 0]) Standard Local false = Throw OutOfRange.
Proof. repeat split; reflexivity. Qed.

(** the tool itself sorts such sequences: weights are assigned and the complex is
    sorted again with a comparison for which an edge and a vertex precede each other *)
Theorem C145_absolute_weights_refuted : exists L s t,
  assignVertexWeights (-99) 99 (applyFiltration path_graph Absolute false) Absolute Global false = Ok L /\
  In s (by_index L) /\ In t (by_index L) /\ absolute_cmp s t = true /\ absolute_cmp t s = true.
Proof.
  eexists. exists (Simplex [1; 0] 1), (Simplex [2] 1). split; [reflexivity|]. cbn [by_index]. repeat split; try reflexivity; cbn; auto 10.
Qed.

Print Assumptions C145_absolute.
Print Assumptions C145_comparison_refuted.
Print Assumptions C145_weights.
Print Assumptions C145_isolated.
Print Assumptions C145_unknown.
Print Assumptions C145_standard.
Print Assumptions C145_minimum.
Print Assumptions C145_absolute_weights_refuted.
