(** * Signatures of persistence diagrams. *)
From Coq Require Import Reals List Arith Bool ZArith Lia Lra Permutation Sorted.
From Verif Require Import Base BaseFacts PropertiesWitness MakeSignature.
Import ListNotations.
Local Open Scope R_scope.

(** ** specification *)
(** the order of data, [None] being infinite *)
Definition xle (a b : xreal) : Prop :=
  match b with None => True | Some y => match a with None => False | Some x => x <= y end end.
(** the persistence of a point is [v] *)
Definition persistence_of (p : xpoint) (v : xreal) : Prop :=
  (forall y, snd p = Some y -> v = Some (Rabs (y - fst p))) /\ (snd p = None -> v = None).
(** the distance of two points is [v]; two points that are not destroyed differ in their creation only *)
Definition distance_of (p q : xpoint) (v : xreal) : Prop :=
  (forall y z, snd p = Some y -> snd q = Some z -> v = Some (Rmax (Rabs (fst p - fst q)) (Rabs (y - z)))) /\
  (snd p = None -> snd q = None -> v = Some (Rabs (fst p - fst q))) /\
  ((snd p = None <-> snd q <> None) -> v = None).
(** the entry for a pair of points: the smallest one of their distance and their persistence *)
Definition entry_of (p q : xpoint) (v : xreal) : Prop :=
  forall d a b, distance_of p q d -> persistence_of p a -> persistence_of q b ->
    (v = d \/ v = a \/ v = b) /\ xle v d /\ xle v a /\ xle v b.
(** pairs of positions *)
Definition pairs_of (n : nat) : list (nat * nat) :=
  filter (fun ij => (fst ij <? snd ij)%nat) (list_prod (seq 0 n) (seq 0 n)).
(** [s] is the signature of [D] *)
Definition signature_of (D : list xpoint) (s : list xreal) : Prop :=
  StronglySorted (fun a b => xle b a) s /\
  exists f : nat -> nat -> xreal,
    (forall i j p q, (i < j)%nat -> nth_error D i = Some p -> nth_error D j = Some q -> entry_of p q (f i j)) /\
    Permutation s (map (fun ij => f (fst ij) (snd ij)) (pairs_of (length D))).
(** the points with persistence of at least [t], in their order *)
Inductive persistent_points (t : R) : list xpoint -> list xpoint -> Prop :=
| PNil : persistent_points t [] []
| PKeep p v D E : persistence_of p v -> xle (Some t) v -> persistent_points t D E -> persistent_points t (p :: D) (p :: E)
| PDrop p v D E : persistence_of p v -> ~ xle (Some t) v -> persistent_points t D E -> persistent_points t (p :: D) E.
Definition filtered (t : R) (D E : list xpoint) : Prop :=
  (t = 0 -> E = D) /\ (t <> 0 -> persistent_points t D E).
(** [x] is a coordinate of a point *)
Definition coordinate (D : list xpoint) (x : R) : Prop :=
  exists p, In p D /\ (fst p = x \/ snd p = Some x).
Definition all_finite (D : list xpoint) : Prop := forall p, In p D -> snd p <> None.
Definition extremes (D : list xpoint) (lo hi : R) : Prop :=
  coordinate D lo /\ coordinate D hi /\ forall x, coordinate D x -> lo <= x <= hi.
Definition moved (lo hi : R) (p q : xpoint) : Prop :=
  fst q = (fst p - lo) / (hi - lo) /\ forall y, snd p = Some y -> snd q = Some ((y - lo) / (hi - lo)).
(** the smallest coordinate becomes zero, the largest becomes one; nothing happens if there is only one *)
Definition normalized (D E : list xpoint) : Prop :=
  forall lo hi, extremes D lo hi -> (lo = hi -> E = D) /\ (lo < hi -> Forall2 (moved lo hi) D E).
(** the first [keep] entries, extended by zeros *)
Definition kept (keep : nat) (s l : list xreal) : Prop :=
  (keep = 0%nat -> l = s) /\
  (keep <> 0%nat -> length l = keep /\ forall i, (i < keep)%nat -> nth i l None = if (i <? length s)%nat then nth i s None else Some 0).

(** ** auxiliary statements *)
Lemma xltb_spec a b : xltb a b = true <-> ~ xle b a.
Proof.
  destruct a as [x|], b as [y|]; cbn; try (destruct (Rlt_dec x y)); split; intro H; try discriminate; auto; try lra; exfalso; try lra; tauto.
Qed.
Lemma xltb_false a b : xltb a b = false <-> xle b a.
Proof.
  destruct a as [x|], b as [y|]; cbn; try (destruct (Rlt_dec x y)); split; intro H; try discriminate; auto; try lra; tauto.
Qed.
Lemma xle_total a b : xle a b \/ xle b a.
Proof. destruct a as [x|], b as [y|]; cbn; auto. lra. Qed.
Lemma xle_refl a : xle a a.
Proof. destruct a; cbn; auto. lra. Qed.
Lemma xle_trans a b c : xle a b -> xle b c -> xle a c.
Proof. destruct a, b, c; cbn; auto; try tauto. lra. Qed.
Lemma xle_antisym a b : xle a b -> xle b a -> a = b.
Proof. destruct a, b; cbn; try tauto. intros. f_equal. lra. Qed.

Lemma xmin_spec a b : (xmin a b = a \/ xmin a b = b) /\ xle (xmin a b) a /\ xle (xmin a b) b.
Proof.
  unfold xmin. destruct (xltb b a) eqn:E.
  - apply xltb_spec in E. destruct (xle_total a b); [contradiction|]. auto using xle_refl.
  - apply xltb_false in E. auto using xle_refl.
Qed.
Lemma xmin_comm a b : xmin a b = xmin b a.
Proof.
  destruct (xmin_spec a b) as (A & B & C), (xmin_spec b a) as (A' & B' & C').
  destruct A as [A|A], A' as [A'|A']; rewrite A, A' in *; auto using xle_antisym.
Qed.

Lemma abs_difference_spec a b : abs_difference a b = Rabs (a - b).
Proof. unfold abs_difference. destruct (Rle_dec b a); [rewrite Rabs_pos_eq; lra|rewrite Rabs_left; lra]. Qed.
Lemma abs_difference_comm a b : abs_difference a b = abs_difference b a.
Proof. rewrite !abs_difference_spec. apply Rabs_minus_sym. Qed.

Lemma persistence_value p v : persistence_of p v <-> v = abs_persistence p.
Proof.
  unfold persistence_of, abs_persistence. destruct (snd p) as [y|]; split.
  - intros [H _]. apply H. reflexivity.
  - intros ->. split; [intros z E; injection E as <-; reflexivity|discriminate].
  - intros [_ H]. apply H. reflexivity.
  - intros ->. split; [discriminate|reflexivity].
Qed.
Lemma distance_value p q v : distance_of p q v <-> v = xdistance p q.
Proof.
  unfold distance_of, xdistance. rewrite !abs_difference_spec. destruct (snd p) as [y|], (snd q) as [z|]; split.
  - intros (H & _). rewrite abs_difference_spec. apply H; reflexivity.
  - intros ->. rewrite abs_difference_spec. refine (conj _ (conj _ _)); try discriminate.
    + intros a b E1 E2. injection E1 as <-. injection E2 as <-. reflexivity.
    + intros [H1 H2]. discriminate H2. discriminate.
  - intros (_ & _ & H). apply H. split; [discriminate|]. intro N. exfalso. apply N. reflexivity.
  - intros ->. refine (conj _ (conj _ _)); try discriminate. reflexivity.
  - intros (_ & _ & H). apply H. split; [discriminate|reflexivity].
  - intros ->. refine (conj _ (conj _ _)); try discriminate. reflexivity.
  - intros (_ & H & _). apply H; reflexivity.
  - intros ->. refine (conj _ (conj _ _)); try discriminate. + reflexivity. + intros [H1 H2]. exfalso. apply (H1 eq_refl eq_refl).
Qed.
Lemma entry_influence p q : entry_of p q (influence p q).
Proof.
  intros d a b Hd Ha Hb. apply distance_value in Hd. apply persistence_value in Ha, Hb. subst d a b. unfold influence.
  set (d := xdistance p q). set (a := abs_persistence p). set (b := abs_persistence q).
  destruct (xmin_spec d (xmin a b)) as (A & B & C), (xmin_spec a b) as (A' & B' & C').
  refine (conj _ (conj B (conj (xle_trans _ _ _ C B') (xle_trans _ _ _ C C')))).
  destruct A as [A|A]; [left; exact A|]. rewrite A. destruct A' as [A'|A']; rewrite A'; auto.
Qed.
Lemma entry_unique p q v : entry_of p q v -> v = influence p q.
Proof.
  intro H. pose proof (entry_influence p q) as G.
  destruct (H _ _ _ (proj2 (distance_value p q _) eq_refl) (proj2 (persistence_value p _) eq_refl) (proj2 (persistence_value q _) eq_refl)) as (A & B & C & D).
  destruct (G _ _ _ (proj2 (distance_value p q _) eq_refl) (proj2 (persistence_value p _) eq_refl) (proj2 (persistence_value q _) eq_refl)) as (A' & B' & C' & D').
  apply xle_antisym.
  - destruct A' as [->|[->| ->]]; assumption.
  - destruct A as [->|[->| ->]]; assumption.
Qed.
Lemma influence_comm p q : influence p q = influence q p.
Proof.
  unfold influence. rewrite (xmin_comm (abs_persistence p)). f_equal. unfold xdistance.
  rewrite (abs_difference_comm (fst p)). destruct (snd p), (snd q); auto. rewrite (abs_difference_comm r). reflexivity.
Qed.

Lemma swo_xgtb : swo xgtb.
Proof.
  split.
  - unfold xgtb. intros x y H. apply xltb_spec in H. apply xltb_false. destruct (xle_total x y); tauto.
  - unfold xgtb. intros x y z H1 H2. apply xltb_false in H1, H2. apply xltb_false. eapply xle_trans; eauto.
Qed.

Lemma sort_descending l : StronglySorted (fun a b => xle b a) (cpp_sort xgtb l).
Proof.
  eapply StronglySorted_impl; [|apply (cpp_sort_sorted _ l swo_xgtb)]. intros a b _ _ H. apply (proj1 (xltb_false a b)). exact H.
Qed.

Lemma descending_unique l m : StronglySorted (fun a b => xle b a) l -> StronglySorted (fun a b => xle b a) m ->
  Permutation l m -> l = m.
Proof.
  revert m. induction l as [|x l IH]; intros m Hl Hm P.
  - apply Permutation_nil in P. congruence.
  - destruct m as [|y m]; [apply Permutation_sym, Permutation_nil in P; discriminate|].
    apply StronglySorted_inv in Hl. apply StronglySorted_inv in Hm. destruct Hl as [Sl Fl], Hm as [Sm Fm].
    assert (E : x = y).
    { rewrite Forall_forall in Fl, Fm. apply xle_antisym.
      - assert (I : In x (y :: m)) by (eapply Permutation_in; [exact P|left; reflexivity]). destruct I as [->|I]; [apply xle_refl|auto].
      - assert (I : In y (x :: l)) by (eapply Permutation_in; [apply Permutation_sym; exact P|left; reflexivity]). destruct I as [->|I]; [apply xle_refl|auto]. }
    subst y. f_equal. apply IH; auto. eapply Permutation_cons_inv; exact P.
Qed.

Definition dpoint : xpoint := (0, None).

Lemma influences_rows D : influences D =
  flat_map (fun i => map (fun j => influence (nth i D dpoint) (nth j D dpoint)) (seq (S i) (length D - S i))) (seq 0 (length D)).
Proof.
  induction D as [|p D IH]; [reflexivity|]. cbn [influences length seq flat_map]. f_equal.
  - cbn [nth]. replace (S (length D) - 1)%nat with (length D) by lia. rewrite <- seq_shift, map_map. cbn [nth].
    clear IH. induction D as [|q D IH] using rev_ind; [reflexivity|].
    rewrite app_length. cbn [length]. rewrite Nat.add_1_r, seq_S, !map_app. cbn [map Nat.add]. rewrite app_nth2, Nat.sub_diag by lia. cbn [nth].
    f_equal. rewrite IH. apply map_ext_in. intros i Hi. apply in_seq in Hi. rewrite app_nth1 by lia. reflexivity.
  - rewrite IH, <- seq_shift. rewrite (flat_map_concat_map _ (map S _)), map_map, <- flat_map_concat_map. apply flat_map_ext. intro i.
    replace (S (length D) - S (S i))%nat with (length D - S i)%nat by lia. rewrite <- (seq_shift _ (S i)), map_map. reflexivity.
Qed.

Lemma filter_above i n : filter (fun j => (i <? j)%nat) (seq 0 n) = seq (S i) (n - S i).
Proof.
  induction n as [|n IH]; [reflexivity|]. rewrite seq_S, filter_app, IH. cbn [filter Nat.add].
  destruct (Nat.ltb_spec i n).
  - replace (S n - S i)%nat with (S (n - S i)) by lia. rewrite seq_S. repeat f_equal. lia.
  - rewrite app_nil_r. replace (S n - S i)%nat with 0%nat by lia. replace (n - S i)%nat with 0%nat by lia. reflexivity.
Qed.

Lemma pairs_rows n : pairs_of n = flat_map (fun i => map (fun j => (i, j)) (seq (S i) (n - S i))) (seq 0 n).
Proof.
  unfold pairs_of. generalize (seq 0 n) at 1 3 as l. induction l as [|i l IH]; [reflexivity|].
  cbn [list_prod flat_map]. rewrite filter_app, IH. f_equal.
  rewrite <- filter_above. generalize (seq 0 n) as m. induction m as [|j m IHm]; [reflexivity|]. cbn [map filter fst snd].
  destruct (i <? j)%nat; cbn [map]; rewrite IHm; reflexivity.
Qed.

Lemma influences_pairs D : influences D = map (fun ij => influence (nth (fst ij) D dpoint) (nth (snd ij) D dpoint)) (pairs_of (length D)).
Proof.
  rewrite influences_rows, pairs_rows, !flat_map_concat_map, concat_map, map_map. f_equal. apply map_ext. intro i.
  rewrite map_map. reflexivity.
Qed.

Lemma in_pairs n i j : In (i, j) (pairs_of n) <-> (i < j < n)%nat.
Proof.
  unfold pairs_of. rewrite filter_In, in_prod_iff, !in_seq. cbn [fst snd]. rewrite Nat.ltb_lt. lia.
Qed.

Lemma sort_signature D s : signature_of D s <-> s = cpp_sort xgtb (influences D).
Proof.
  split.
  - intros [S (f & Hf & P)]. apply descending_unique; [exact S|apply sort_descending|].
    rewrite P, cpp_sort_perm, influences_pairs. erewrite map_ext_in; [reflexivity|]. intros [i j] I. apply in_pairs in I. cbn [fst snd].
    apply entry_unique. apply (Hf i j); [lia| |]; apply nth_error_nth'; lia.
  - intros ->. split; [apply sort_descending|]. exists (fun i j => influence (nth i D dpoint) (nth j D dpoint)). split.
    + intros i j p q _ Ei Ej. rewrite (nth_error_nth _ _ _ Ei), (nth_error_nth _ _ _ Ej). apply entry_influence.
    + rewrite cpp_sort_perm, influences_pairs. reflexivity.
Qed.

Lemma reserve_small capacity n : (n <> 0)%nat -> (Z.of_nat n * Z.of_nat n <= 2 * capacity < 2 ^ 64)%Z -> (capacity <? reserve_argument n)%Z = false.
Proof.
  intros Hn H. apply Z.ltb_ge. unfold reserve_argument. rewrite Z.mod_small by nia.
  apply Z.div_le_upper_bound; lia.
Qed.

Lemma resize_kept keep s : kept keep s (if (keep =? 0)%nat then s else resize keep s).
Proof.
  split; intro H.
  - subst. reflexivity.
  - destruct (Nat.eqb_spec keep 0) as [E|_]; [contradiction|]. unfold resize. split.
    + rewrite app_length, firstn_length, repeat_length. lia.
    + intros i Hi. destruct (Nat.ltb_spec i (length s)) as [L|L].
      * rewrite app_nth1 by (rewrite firstn_length; lia). clear -Hi. revert keep i Hi. induction s as [|a s IH]; intros [|k] [|i] Hi; cbn; auto; try lia.
        apply IH. lia.
      * rewrite app_nth2 by (rewrite firstn_length; lia). apply (nth_error_nth (repeat (Some 0) _)). rewrite firstn_length.
        rewrite nth_error_repeat by lia. reflexivity.
Qed.

Lemma filter_spec t D : filtered t D (if Req_EM_T t 0 then D else filterDiagram t true D).
Proof.
  split; intro H; destruct (Req_EM_T t 0) as [E|E]; try contradiction; auto.
  induction D as [|p D IH]; [constructor|]. unfold filterDiagram in *. cbn [filter].
  destruct (xltb (abs_persistence p) (Some t)) eqn:L; cbn [negb].
  - apply xltb_spec in L. eapply PDrop; [apply persistence_value; reflexivity|exact L|exact IH].
  - apply xltb_false in L. eapply PKeep; [apply persistence_value; reflexivity|exact L|exact IH].
Qed.

Lemma persistent_unique t D E F : persistent_points t D E -> persistent_points t D F -> E = F.
Proof.
  intro H. revert F. induction H; intros F G; inversion G; subst; auto.
  - f_equal. auto.
  - exfalso. match goal with A : persistence_of p _, B : persistence_of p _ |- _ => apply persistence_value in A; apply persistence_value in B; subst end. contradiction.
  - exfalso. match goal with A : persistence_of p _, B : persistence_of p _ |- _ => apply persistence_value in A; apply persistence_value in B; subst end. contradiction.
Qed.
Lemma filtered_unique t D E F : filtered t D E -> filtered t D F -> E = F.
Proof.
  intros [A B] [A' B']. destruct (Req_EM_T t 0) as [E0|E0]; [rewrite A, A' by exact E0; reflexivity|].
  eapply persistent_unique; eauto.
Qed.

Lemma betti_finite D : xbetti D = 0%nat <-> all_finite D.
Proof.
  unfold xbetti, all_finite. induction D as [|[x [y|]] D IH]; cbn [filter length snd].
  - split; [intros _ ? []|reflexivity].
  - rewrite IH. split.
    + intros H p [<-|I]; [discriminate|apply H; exact I].
    + intros H p I. apply H. right. exact I.
  - split; [discriminate|]. intro H. exfalso. apply (H (x, None)); [left; reflexivity|reflexivity].
Qed.

Lemma range_fold D : forall a b, all_finite D ->
  let st := fold_left (fun st p => (Rmin (fst st) (Rmin (fst p) (finite (snd p))), Rmax (snd st) (Rmax (fst p) (finite (snd p))))) D (a, b) in
  (fst st = a \/ coordinate D (fst st)) /\ (snd st = b \/ coordinate D (snd st)) /\ fst st <= a /\ b <= snd st /\
  forall x, coordinate D x -> fst st <= x <= snd st.
Proof.
  induction D as [|[x y] D IH]; intros a b F st.
  - unfold st. cbn [fold_left fst snd]. refine (conj (or_introl eq_refl) (conj (or_introl eq_refl) (conj (Rle_refl _) (conj (Rle_refl _) _)))). intros z (p & [] & _).
  - unfold st. cbn [fold_left fst snd]. destruct y as [y|]; [|exfalso; apply (F (x, None)); [left; reflexivity|reflexivity]].
    cbn [finite]. destruct (IH (Rmin a (Rmin x y)) (Rmax b (Rmax x y))) as (A & B & C & E & G); [intros p I; apply F; right; exact I|].
    cbn zeta in A, B, C, E, G. match type of C with fst ?f <= _ => set (s := f) in * end. clearbody s. clear IH.
    assert (X : coordinate ((x, Some y) :: D) x) by (exists (x, Some y); split; [left; reflexivity|left; reflexivity]).
    assert (Y : coordinate ((x, Some y) :: D) y) by (exists (x, Some y); split; [left; reflexivity|right; reflexivity]).
    assert (N : forall z, coordinate D z -> coordinate ((x, Some y) :: D) z) by (intros z (p & I & H); exists p; split; [right; exact I|exact H]).
    pose proof (Rmin_l a (Rmin x y)). pose proof (Rmin_r a (Rmin x y)). pose proof (Rmin_l x y). pose proof (Rmin_r x y).
    pose proof (Rmax_l b (Rmax x y)). pose proof (Rmax_r b (Rmax x y)). pose proof (Rmax_l x y). pose proof (Rmax_r x y).
    refine (conj _ (conj _ (conj _ (conj _ _)))); try lra.
    + destruct A as [A|A]; [|right; auto]. rewrite A. unfold Rmin at 1 3. destruct (Rle_dec a (Rmin x y)); [left; reflexivity|right]. unfold Rmin. destruct (Rle_dec x y); assumption.
    + destruct B as [B|B]; [|right; auto]. rewrite B. unfold Rmax at 1 3. destruct (Rle_dec b (Rmax x y)); [right|left; reflexivity]. unfold Rmax. destruct (Rle_dec x y); assumption.
    + intros z (p & [<-|I] & H'); cbn [fst snd] in *.
      * destruct H' as [<-|H']; [lra|]. injection H' as <-. lra.
      * apply G. exists p. split; assumption.
Qed.

Lemma range_extremes big lowest D : D <> [] -> all_finite D -> (forall x, coordinate D x -> lowest <= x <= big) ->
  extremes D (fst (coordinate_range big lowest D)) (snd (coordinate_range big lowest D)).
Proof.
  intros Hne F B. destruct (range_fold D big lowest F) as (A & C & E & G & H). cbn zeta in A, C, E, G, H. fold (coordinate_range big lowest D) in *.
  set (r := coordinate_range big lowest D) in *. clearbody r.
  destruct D as [|p D]; [contradiction|]. assert (X : coordinate (p :: D) (fst p)) by (exists p; split; [left; reflexivity|left; reflexivity]).
  pose proof (H _ X). pose proof (B _ X). unfold extremes. refine (conj _ (conj _ H)).
  - destruct A as [A|A]; [|exact A]. replace (fst r) with (fst p) by lra. exact X.
  - destruct C as [C|C]; [|exact C]. replace (snd r) with (fst p) by lra. exact X.
Qed.
Lemma extremes_unique D lo hi lo' hi' : extremes D lo hi -> extremes D lo' hi' -> lo = lo' /\ hi = hi'.
Proof.
  intros (A & B & C) (A' & B' & C'). pose proof (C _ A'). pose proof (C _ B'). pose proof (C' _ A). pose proof (C' _ B). lra.
Qed.
Lemma extremes_order D lo hi : extremes D lo hi -> lo <= hi.
Proof. intros (A & B & C). apply C in A. lra. Qed.

Lemma Forall2_map_r {A B} (P : A -> B -> Prop) (f : A -> B) l : (forall x, In x l -> P x (f x)) -> Forall2 P l (map f l).
Proof. induction l as [|x l IH]; intro H; [constructor|]. cbn [map]. constructor; [apply H; left; reflexivity|apply IH; intros; apply H; right; assumption]. Qed.

Lemma normalize_spec big lowest D : D <> [] -> all_finite D -> (forall x, coordinate D x -> lowest <= x <= big) ->
  exists E, normalizeDiagram big lowest D = Ok E /\ normalized D E /\ length E = length D.
Proof.
  intros Hne F B. pose proof (range_extremes big lowest D Hne F B) as X. unfold normalizeDiagram.
  rewrite (proj2 (betti_finite D) F). cbn [Nat.eqb]. cbn zeta. set (lo := fst _) in *. set (hi := snd (coordinate_range _ _ _)) in *. clearbody lo hi.
  destruct (Req_EM_T lo hi) as [E|E].
  - exists D. refine (conj eq_refl (conj _ eq_refl)). intros lo' hi' X'. destruct (extremes_unique _ _ _ _ _ X X') as [<- <-]. split; [reflexivity|lra].
  - eexists. refine (conj eq_refl (conj _ (map_length _ _))). intros lo' hi' X'. destruct (extremes_unique _ _ _ _ _ X X') as [<- <-].
    split; [contradiction|]. intros _. apply Forall2_map_r. intros p I. split; [reflexivity|]. cbn [fst snd]. intros y ->. reflexivity.
Qed.

(** ** C155 *)
(** what is required of a diagram *)
Definition suitable (capacity : Z) (lowest big threshold : R) (normalize : bool) (D : list xpoint) : Prop :=
  forall E, filtered threshold D E -> E <> [] /\ (Z.of_nat (length E) * Z.of_nat (length E) <= 2 * capacity)%Z /\
    (normalize = true -> all_finite E /\ forall x, coordinate E x -> lowest <= x <= big).
(** the line of a diagram *)
Definition line_of (threshold : R) (normalize : bool) (keep : nat) (D : list xpoint) (l : list xreal) : Prop :=
  exists E F s, filtered threshold D E /\ (if normalize then normalized E F else F = E) /\ signature_of F s /\ kept keep s l.

Theorem C155_signatures : forall big lowest capacity threshold normalize keep files,
  (2 * capacity < 2 ^ 64)%Z -> (forall D, In D files -> suitable capacity lowest big threshold normalize D) ->
  exists lines, signatures big lowest capacity threshold normalize keep files = Ok lines /\
    Forall2 (line_of threshold normalize keep) files lines.
Proof.
  intros big lowest capacity threshold normalize keep files Hc Hs.
  set (filt := fun D => if Req_EM_T threshold 0 then D else filterDiagram threshold true D).
  set (prep := fun D => match prepare big lowest threshold normalize D with Ok E => E | _ => [] end).
  assert (HP : forall D, In D files -> prepare big lowest threshold normalize D = Ok (prep D) /\ prep D <> [] /\
    length (prep D) = length (filt D) /\ (if normalize then normalized (filt D) (prep D) else prep D = filt D)).
  { intros D I. destruct (Hs D I (filt D) (filter_spec threshold D)) as (A & B & C).
    assert (HX : exists E, prepare big lowest threshold normalize D = Ok E /\ length E = length (filt D) /\ (if normalize then normalized (filt D) E else E = filt D)).
    { unfold prepare. fold (filt D). destruct normalize.
      - destruct (C eq_refl) as [C1 C2]. destruct (normalize_spec big lowest (filt D) A C1 C2) as (E & E1 & E2 & E3). exists E. auto.
      - exists (filt D). auto. }
    destruct HX as (E & E1 & E2 & E3). unfold prep. rewrite E1. refine (conj eq_refl (conj _ (conj E2 E3))).
    destruct E; [|discriminate]. destruct (filt D); [contradiction|discriminate]. }
  unfold signatures. rewrite (foldM_collect _ prep) by (intros D I; apply HP; exact I). cbn [bind app].
  set (line := fun E => (if (keep =? 0)%nat then cpp_sort xgtb (influences E) else resize keep (cpp_sort xgtb (influences E)))).
  rewrite (foldM_collect _ line).
  2:{ intros E I. apply in_map_iff in I. destruct I as (D & <- & I). destruct (HP D I) as (_ & A & B & _).
      destruct (Hs D I (filt D) (filter_spec threshold D)) as (_ & C & _). unfold signature_line, makeSignature.
      rewrite reserve_small; [reflexivity| |rewrite B; split; lia]. destruct (prep D); [contradiction|discriminate]. }
  eexists. split; [reflexivity|]. cbn [app]. rewrite map_map. apply Forall2_map_r. intros D I.
  exists (filt D), (prep D), (cpp_sort xgtb (influences (prep D))). refine (conj (filter_spec threshold D) (conj _ (conj _ (resize_kept _ _)))).
  - apply HP. exact I.
  - apply sort_signature. reflexivity.
Qed.

(** the signature is unique, and the order of the points is irrelevant *)
Lemma influences_perm D E : Permutation D E -> Permutation (influences D) (influences E).
Proof.
  induction 1 as [|p D E P IH|p q D|D E F P1 IH1 P2 IH2]; cbn [influences].
  - constructor.
  - apply Permutation_app; [apply Permutation_map; exact P|exact IH].
  - cbn [map]. rewrite (influence_comm q p). cbn [app]. constructor. rewrite !app_assoc. apply Permutation_app_tail. apply Permutation_app_comm.
  - eapply perm_trans; eauto.
Qed.

Theorem C155_order : forall D E s t, Permutation D E -> signature_of D s -> signature_of E t -> s = t.
Proof.
  intros D E s t P Hs Ht. apply sort_signature in Hs, Ht. subst. apply descending_unique; try apply sort_descending.
  rewrite !cpp_sort_perm. apply influences_perm. exact P.
Qed.

(** the signature has one entry for every pair *)
Lemma influences_length D : (2 * length (influences D) = length D * (length D - 1))%nat.
Proof.
  induction D as [|p D IH]; [reflexivity|]. cbn [influences length]. rewrite app_length, map_length, Nat.mul_add_distr_l, IH.
  destruct (length D) as [|n]; cbn; lia.
Qed.
Theorem C155_length : forall D s, signature_of D s -> (2 * length s = length D * (length D - 1))%nat.
Proof. intros D s H. apply sort_signature in H. subst. rewrite cpp_sort_length. apply influences_length. Qed.

(** normalization divides all entries of the signature by the range, and they are at most one *)
Definition xscale (r : R) (a : xreal) : xreal := match a with Some x => Some (x / r) | None => None end.
Lemma xscale_le r a b : 0 < r -> (xle (xscale r a) (xscale r b) <-> xle a b).
Proof.
  intro Hr. destruct a as [x|], b as [y|]; cbn; try tauto. split; intro H.
  - apply (Rmult_le_reg_r (/ r)); [apply Rinv_0_lt_compat; exact Hr|exact H].
  - apply Rmult_le_compat_r; [left; apply Rinv_0_lt_compat; exact Hr|exact H].
Qed.
Lemma Rabs_scale r x : 0 < r -> Rabs (x / r) = Rabs x / r.
Proof. intro Hr. unfold Rdiv. rewrite Rabs_mult, (Rabs_pos_eq (/ r)); [reflexivity|left; apply Rinv_0_lt_compat; exact Hr]. Qed.
Lemma Rmax_scale r x y : 0 < r -> Rmax (x / r) (y / r) = Rmax x y / r.
Proof. intro Hr. unfold Rdiv. rewrite !(Rmult_comm _ (/ r)). apply RmaxRmult. left. apply Rinv_0_lt_compat. exact Hr. Qed.

Lemma influence_scale lo hi p q p' q' : lo < hi -> snd p <> None -> snd q <> None -> moved lo hi p p' -> moved lo hi q q' ->
  influence p' q' = xscale (hi - lo) (influence p q).
Proof.
  intros H Hp Hq (A & B) (A' & B'). destruct p as [x [y|]], q as [u [v|]]; try contradiction; cbn [fst snd] in *; try (exfalso; congruence). specialize (B y eq_refl). specialize (B' v eq_refl).
  destruct p' as [x' y'], q' as [u' v']. cbn [fst snd] in *. subst. unfold influence.
  assert (M : forall a b, xmin (xscale (hi - lo) a) (xscale (hi - lo) b) = xscale (hi - lo) (xmin a b)).
  { intros a b. unfold xmin. assert (E : xltb (xscale (hi - lo) b) (xscale (hi - lo) a) = xltb b a).
    { apply eq_true_iff_eq. rewrite !xltb_spec, xscale_le by lra. reflexivity. }
    rewrite E. destruct (xltb b a); reflexivity. }
  rewrite <- !M. f_equal; [|f_equal].
  - unfold xdistance. cbn [fst snd xscale]. rewrite !abs_difference_spec. f_equal. rewrite <- Rmax_scale by lra. rewrite <- !Rabs_scale by lra.
    f_equal; f_equal; field; lra.
  - unfold abs_persistence. cbn [fst snd xscale]. f_equal. rewrite <- Rabs_scale by lra. f_equal. field; lra.
  - unfold abs_persistence. cbn [fst snd xscale]. f_equal. rewrite <- Rabs_scale by lra. f_equal. field; lra.
Qed.

Lemma influences_scale lo hi D E : lo < hi -> all_finite D -> Forall2 (moved lo hi) D E -> influences E = map (xscale (hi - lo)) (influences D).
Proof.
  intros H F M. induction M as [|p q D E Mp M IH]; [reflexivity|]. cbn [influences]. rewrite map_app, IH by (intros x I; apply F; right; exact I).
  f_equal. rewrite map_map. clear IH. assert (Fp : snd p <> None) by (apply F; left; reflexivity).
  assert (G : all_finite D) by (intros x I; apply F; right; exact I). clear F.
  induction M as [|p2 q2 D E Mp2 M IH]; [reflexivity|]. cbn [map]. f_equal.
  - apply (influence_scale lo hi); auto. apply G. left. reflexivity.
  - apply IH. intros x I. apply G. right. exact I.
Qed.

Lemma sorted_scale r l : 0 < r -> StronglySorted (fun a b => xle b a) l -> StronglySorted (fun a b => xle b a) (map (xscale r) l).
Proof.
  intros Hr. induction 1 as [|a l S IH F]; [constructor|]. cbn [map]. constructor; [exact IH|].
  rewrite Forall_forall in *. intros x I. apply in_map_iff in I. destruct I as (b & <- & I). apply xscale_le; auto.
Qed.

Theorem C155_normalized : forall D E lo hi s t, all_finite D -> extremes D lo hi -> lo < hi -> normalized D E ->
  signature_of D s -> signature_of E t ->
  t = map (xscale (hi - lo)) s /\ forall a, In a t -> xle (Some 0) a /\ xle a (Some 1).
Proof.
  intros D E lo hi s t F X L N Hs Ht. destruct (N lo hi X) as [_ M]. specialize (M L).
  apply sort_signature in Hs, Ht. pose proof (influences_scale lo hi D E L F M) as EI.
  assert (Et : t = map (xscale (hi - lo)) s).
  { subst. apply descending_unique.
    - apply sort_descending.
    - apply sorted_scale; [lra|apply sort_descending].
    - rewrite cpp_sort_perm, EI. apply Permutation_map. symmetry. apply cpp_sort_perm. }
  refine (conj Et _). intros a Ia. rewrite Et in Ia. apply in_map_iff in Ia. destruct Ia as (b & <- & Ib). subst s.
  apply (proj1 (cpp_sort_In xgtb b _)) in Ib. rewrite influences_pairs in Ib. apply in_map_iff in Ib. destruct Ib as ([i j] & <- & I). apply in_pairs in I. cbn [fst snd].
  assert (Ip : In (nth i D dpoint) D) by (apply nth_In; lia). assert (Iq : In (nth j D dpoint) D) by (apply nth_In; lia).
  set (p := nth i D dpoint) in *. set (q := nth j D dpoint) in *. clearbody p q. destruct X as (_ & _ & X).
  assert (HB : forall p, In p D -> exists v, abs_persistence p = Some v /\ 0 <= v <= hi - lo).
  { intros r Ir. pose proof (F r Ir) as Fr. destruct r as [x [y|]]; [|exfalso; apply Fr; reflexivity]. exists (Rabs (y - x)). split; [reflexivity|].
    assert (Hx : lo <= x <= hi) by (apply X; exists (x, Some y); split; [exact Ir|left; reflexivity]).
    assert (Hy : lo <= y <= hi) by (apply X; exists (x, Some y); split; [exact Ir|right; reflexivity]).
    split; [apply Rabs_pos|]. unfold Rabs. destruct (Rcase_abs (y - x)); lra. }
  destruct (HB p Ip) as (v & Ev & Bv), (HB q Iq) as (w & Ew & Bw).
  destruct (entry_influence p q _ _ _ (proj2 (distance_value p q _) eq_refl) (proj2 (persistence_value p _) eq_refl) (proj2 (persistence_value q _) eq_refl)) as (A & B & C & G).
  rewrite Ev in *. rewrite Ew in *. destruct (influence p q) as [z|]; [|destruct C].
  cbn [xscale xle] in *. assert (Z0 : 0 <= z).
  { destruct A as [A|[A|A]]; [|injection A; lra|injection A; lra]. unfold xdistance in A. rewrite !abs_difference_spec in A.
    pose proof (Rabs_pos (fst p - fst q)). destruct (snd p), (snd q); try discriminate; injection A as ->; [|lra].
    eapply Rle_trans; [|apply Rmax_l]. lra. }
  split.
  - apply Rmult_le_pos; [exact Z0|left; apply Rinv_0_lt_compat; lra].
  - apply (Rmult_le_reg_r (hi - lo)); [lra|]. unfold Rdiv. rewrite Rmult_assoc, Rinv_l by lra. lra.
Qed.

(** with the other sense of the filter, points with persistence of at most the threshold are kept *)
Inductive small_points (t : R) : list xpoint -> list xpoint -> Prop :=
| SNil : small_points t [] []
| SKeep p v D E : persistence_of p v -> xle v (Some t) -> small_points t D E -> small_points t (p :: D) (p :: E)
| SDrop p v D E : persistence_of p v -> ~ xle v (Some t) -> small_points t D E -> small_points t (p :: D) E.
Theorem C155_filter : forall t D, persistent_points t D (filterDiagram t true D) /\ small_points t D (filterDiagram t false D).
Proof.
  intros t D. split.
  - induction D as [|p D IH]; [constructor|]. unfold filterDiagram in *. cbn [filter].
    destruct (xltb (abs_persistence p) (Some t)) eqn:L; cbn [negb].
    + apply xltb_spec in L. eapply PDrop; [apply persistence_value; reflexivity|exact L|exact IH].
    + apply xltb_false in L. eapply PKeep; [apply persistence_value; reflexivity|exact L|exact IH].
  - induction D as [|p D IH]; [constructor|]. unfold filterDiagram in *. cbn [filter]. unfold xgtb at 1.
    destruct (xltb (Some t) (abs_persistence p)) eqn:L; cbn [negb].
    + apply xltb_spec in L. eapply SDrop; [apply persistence_value; reflexivity|exact L|exact IH].
    + apply xltb_false in L. eapply SKeep; [apply persistence_value; reflexivity|exact L|exact IH].
Qed.

(** Diagrams that have points without destruction cannot be normalized. *)
Theorem C155_unpaired : forall big lowest D, ~ all_finite D -> normalizeDiagram big lowest D = Throw RuntimeError.
Proof.
  intros big lowest D H. unfold normalizeDiagram. destruct (Nat.eqb_spec (xbetti D) 0) as [E|E]; [|reflexivity].
  exfalso. apply H, betti_finite. exact E.
Qed.

(** The memory that is requested for an empty diagram is computed from -1: no signature is written
    if a diagram has no points, for example because the filter has removed all of them. *)
Theorem C155_empty_refuted : forall capacity, (capacity < 2 ^ 63 - 1)%Z ->
  makeSignature capacity [] = Throw LengthError /\
  forall big lowest keep, signatures big lowest capacity 1 false keep [[(0, Some (1/2))]] = Throw LengthError.
Proof.
  intros capacity H. assert (E : makeSignature capacity [] = Throw LengthError).
  { unfold makeSignature. replace (capacity <? reserve_argument (length (@nil xpoint)))%Z with true; [reflexivity|].
    symmetry. apply Z.ltb_lt. exact H. }
  split; [exact E|]. intros big lowest keep. unfold signatures, prepare. cbn [foldM].
  destruct (Req_EM_T 1 0) as [N|N]; [lra|]. unfold filterDiagram. cbn [filter abs_persistence snd fst xltb].
  destruct (Rlt_dec (Rabs (1 / 2 - 0)) 1) as [L|L]; [|exfalso; apply L; rewrite Rabs_pos_eq; lra].
  cbn [negb bind app foldM]. unfold signature_line. rewrite E. reflexivity.
Qed.

(** three points, one of which is far from the others: distance 1 between the first two, and the
    persistence of the third *)
Example C155_example : forall s, signature_of [(0, Some 4); (1, Some 4); (0, None)] s -> s = [Some 4; Some 3; Some 1].
Proof.
  intros s H. eapply C155_order; [reflexivity|exact H|]. split.
  - repeat constructor; cbn; lra.
  - exists (fun i j => match i, j with 0%nat, 1%nat => Some 1 | 0%nat, 2%nat => Some 4 | _, _ => Some 3 end). split.
    + intros i j p q Hij Ei Ej d a b Hd Ha Hb. apply distance_value in Hd. apply persistence_value in Ha, Hb. subst.
      destruct i as [|[|[|i]]], j as [|[|[|j]]]; try lia; cbn in Ei, Ej; try discriminate; try (destruct i; discriminate); try (destruct j; discriminate);
      injection Ei as <-; injection Ej as <-; unfold xdistance, abs_persistence; rewrite ?abs_difference_spec; cbn [fst snd];
      rewrite ?abs_difference_spec; unfold Rabs; repeat destruct (Rcase_abs _); cbn [xle]; try (exfalso; lra);
      refine (conj _ (conj _ (conj _ _))); auto; try lra;
      try (unfold Rmax; destruct (Rle_dec _ _); lra);
      try (left; f_equal; unfold Rmax; destruct (Rle_dec _ _); lra);
      try (right; left; f_equal; lra); try (right; right; f_equal; lra).
    + change (pairs_of (length [(0, Some 4); (1, Some 4); (0, None)])) with [(0, 1); (0, 2); (1, 2)]%nat. cbn [map fst snd].
      apply Permutation_sym, (Permutation_cons_append [Some 4; Some 3] (Some 1)).
Qed.

Print Assumptions C155_signatures.
Print Assumptions C155_order.
Print Assumptions C155_length.
Print Assumptions C155_normalized.
Print Assumptions C155_filter.
Print Assumptions C155_unpaired.
Print Assumptions C155_empty_refuted.
