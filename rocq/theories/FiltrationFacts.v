(** * Filtrations and the boundary matrix of a complex. *)

From Coq Require Import List Arith Lia Bool Permutation Sorted ZArith.
From Verif Require Import Base BaseFacts Simplex SimplexFacts SpecMatrix Matrix DualFacts RepFacts
  SpecComplex Complex ComplexFacts ClosureFacts WeightFacts.
Import ListNotations.

(** a proper face is lexicographically smaller *)
Lemma lex_subset a b : StronglySorted gt a -> StronglySorted gt b -> subset a b ->
  a = b \/ lex_ltb a b = true.
Proof.
  intros Ha Hb. revert b Hb. induction Ha as [|x a Ha IH Hx]; intros b Hb Hs.
  - destruct b; simpl; auto.
  - destruct b as [|y b]; [exfalso; apply (Hs x); simpl; auto|].
    inversion Hb as [|y' b' Hb' Hy]; subst. rewrite Forall_forall in Hx, Hy. simpl.
    destruct (Hs x (or_introl eq_refl)) as [->|Hxb].
    + rewrite Nat.ltb_irrefl. destruct (IH b Hb') as [->|H]; auto.
      intros v Hv. destruct (Hs v (or_intror Hv)) as [->|]; auto. apply Hx in Hv. lia.
    + apply Hy in Hxb. right. destruct (Nat.ltb_spec x y); auto. lia.
Qed.

Lemma proper_face_lex t s : wf t -> wf s -> proper_face t s -> s_ltb t s = true.
Proof.
  intros Ht Hs [H1 H2]. destruct (lex_subset _ _ Ht Hs H1) as [E|E]; auto.
  exfalso. apply H2. rewrite E. intro; auto.
Qed.

Lemma proper_face_dim t s : good t -> good s -> proper_face t s -> sdim t < sdim s.
Proof.
  intros [Ht Hn] [Hs Hm] [H1 H2]. unfold sdim.
  assert (length (verts t) < length (verts s)).
  { destruct (subset_dec (verts s) (verts t)) as [C|(v & Hv & Hnv)]; [easy|].
    assert (length (v :: verts t) <= length (verts s)); [|simpl in *; lia].
    apply NoDup_incl_length.
    - constructor; auto. apply SSgt_NoDup; auto.
    - intros u [<-|Hu]; auto. }
  destruct (verts t); simpl in *; [easy|lia].
Qed.

Lemma s_ltb_swo : swo s_ltb.
Proof.
  destruct lex_swo as [A B]. split; unfold s_ltb.
  - intros x y. apply A.
  - intros x y z. apply B.
Qed.

Lemma data_cmp_swo : swo data_cmp.
Proof.
  destruct s_ltb_swo as [A B]. split; unfold data_cmp.
  - intros x y. rewrite (Z.eqb_sym (data y)), (Nat.eqb_sym (sdim y)).
    destruct (Z.eqb_spec (data x) (data y)); [destruct (Nat.eqb_spec (sdim x) (sdim y))|].
    + apply A.
    + rewrite Nat.ltb_lt, Nat.ltb_ge. lia.
    + rewrite Z.ltb_lt, Z.ltb_ge. lia.
  - intros x y z.
    destruct (Z.eqb_spec (data y) (data x)), (Z.eqb_spec (data z) (data y)), (Z.eqb_spec (data z) (data x));
      try lia; rewrite ?Z.ltb_ge; try lia.
    destruct (Nat.eqb_spec (sdim y) (sdim x)), (Nat.eqb_spec (sdim z) (sdim y)), (Nat.eqb_spec (sdim z) (sdim x));
      try lia; rewrite ?Nat.ltb_ge; try lia. apply B.
Qed.

Lemma data_cmp_greater_swo : swo data_cmp_greater.
Proof.
  destruct s_ltb_swo as [A B]. split; unfold data_cmp_greater.
  - intros x y. rewrite (Z.eqb_sym (data y)), (Nat.eqb_sym (sdim y)).
    destruct (Z.eqb_spec (data x) (data y)); [destruct (Nat.eqb_spec (sdim x) (sdim y))|].
    + apply A.
    + rewrite Nat.ltb_lt, Nat.ltb_ge. lia.
    + rewrite Z.ltb_lt, Z.ltb_ge. lia.
  - intros x y z.
    destruct (Z.eqb_spec (data y) (data x)), (Z.eqb_spec (data z) (data y)), (Z.eqb_spec (data z) (data x));
      try lia; rewrite ?Z.ltb_ge; try lia.
    destruct (Nat.eqb_spec (sdim y) (sdim x)), (Nat.eqb_spec (sdim z) (sdim y)), (Nat.eqb_spec (sdim z) (sdim x));
      try lia; rewrite ?Nat.ltb_ge; try lia. apply B.
Qed.

Lemma lower_star_swo lo w : swo (lower_star_cmp lo w).
Proof.
  destruct s_ltb_swo as [A B]. split; unfold lower_star_cmp.
  - intros x y.
    destruct (Z.ltb_spec (maximumValue lo w x) (maximumValue lo w y)),
      (Z.ltb_spec (maximumValue lo w y) (maximumValue lo w x)),
      (Z.eqb_spec (maximumValue lo w x) (maximumValue lo w y)),
      (Z.eqb_spec (maximumValue lo w y) (maximumValue lo w x)); try lia; auto; discriminate.
  - intros x y z.
    generalize (maximumValue lo w x) (maximumValue lo w y) (maximumValue lo w z) (B x y z). clear. intros a b c HB.
    destruct (Z.ltb_spec b a), (Z.eqb_spec b a), (Z.ltb_spec c b), (Z.eqb_spec c b), (Z.ltb_spec c a), (Z.eqb_spec c a);
      try lia; auto; discriminate.
Qed.

Lemma upper_star_swo hi w : swo (upper_star_cmp hi w).
Proof.
  destruct s_ltb_swo as [A B]. split; unfold upper_star_cmp.
  - intros x y.
    destruct (Z.ltb_spec (minimumValue hi w x) (minimumValue hi w y)),
      (Z.ltb_spec (minimumValue hi w y) (minimumValue hi w x)),
      (Z.eqb_spec (minimumValue hi w x) (minimumValue hi w y)),
      (Z.eqb_spec (minimumValue hi w y) (minimumValue hi w x)); try lia; auto; discriminate.
  - intros x y z.
    generalize (minimumValue hi w x) (minimumValue hi w y) (minimumValue hi w z) (B x y z). clear. intros a b c HB.
    destruct (Z.ltb_spec a b), (Z.eqb_spec b a), (Z.ltb_spec b c), (Z.eqb_spec c b), (Z.ltb_spec a c), (Z.eqb_spec c a);
      try lia; auto; discriminate.
Qed.

Lemma fold_max_spec {A} (f : A -> Z) l m0 :
  let m := fold_left (fun m v => Z.max m (f v)) l m0 in
  (m0 <= m)%Z /\ (forall v, In v l -> (f v <= m)%Z) /\ (m = m0 \/ exists v, In v l /\ f v = m).
Proof.
  revert m0. induction l as [|a l IH]; intro m0; simpl.
  - refine (conj _ (conj _ (or_introl eq_refl))); [lia|easy].
  - destruct (IH (Z.max m0 (f a))) as (A1 & A2 & A3). repeat split; try lia.
    + intros v [<-|Hv]; auto; try lia.
    + destruct A3 as [A3|(v & Hv & A3)]; [|right; exists v; auto].
      rewrite A3. destruct (Z.max_spec m0 (f a)) as [[_ ->]|[_ ->]]; auto. right. exists a; auto.
Qed.

Lemma fold_min_spec {A} (f : A -> Z) l m0 :
  let m := fold_left (fun m v => Z.min m (f v)) l m0 in
  (m <= m0)%Z /\ (forall v, In v l -> (m <= f v)%Z) /\ (m = m0 \/ exists v, In v l /\ f v = m).
Proof.
  revert m0. induction l as [|a l IH]; intro m0; simpl.
  - refine (conj _ (conj _ (or_introl eq_refl))); [lia|easy].
  - destruct (IH (Z.min m0 (f a))) as (A1 & A2 & A3). repeat split; try lia.
    + intros v [<-|Hv]; auto; try lia.
    + destruct A3 as [A3|(v & Hv & A3)]; [|right; exists v; auto].
      rewrite A3. destruct (Z.min_spec m0 (f a)) as [[_ ->]|[_ ->]]; auto. right. exists a; auto.
Qed.

Lemma maximumValue_max lo w s : verts s <> [] -> (forall v, In v (verts s) -> (lo <= nth v w 0)%Z) ->
  is_max_over (fun v => nth v w 0%Z) (verts s) (maximumValue lo w s).
Proof.
  intros Hn Hlo. destruct (fold_max_spec (fun v => nth v w 0%Z) (verts s) lo) as (A1 & A2 & A3).
  fold (maximumValue lo w s) in *. split; auto. destruct A3 as [A3|A3]; auto.
  destruct (verts s) as [|v l]; [easy|]. exists v. split; [simpl; auto|].
  specialize (A2 v (or_introl eq_refl)). specialize (Hlo v (or_introl eq_refl)). simpl in *. lia.
Qed.

Lemma minimumValue_min hi w s : verts s <> [] -> (forall v, In v (verts s) -> (nth v w 0 <= hi)%Z) ->
  is_min_over (fun v => nth v w 0%Z) (verts s) (minimumValue hi w s).
Proof.
  intros Hn Hlo. destruct (fold_min_spec (fun v => nth v w 0%Z) (verts s) hi) as (A1 & A2 & A3).
  fold (minimumValue hi w s) in *. split; auto. destruct A3 as [A3|A3]; auto.
  destruct (verts s) as [|v l]; [easy|]. exists v. split; [simpl; auto|].
  specialize (A2 v (or_introl eq_refl)). specialize (Hlo v (or_introl eq_refl)). simpl in *. lia.
Qed.

Lemma maximumValue_mono lo w s t : subset (verts t) (verts s) -> (maximumValue lo w t <= maximumValue lo w s)%Z.
Proof.
  intro H. destruct (fold_max_spec (fun v => nth v w 0%Z) (verts t) lo) as (A1 & A2 & A3).
  destruct (fold_max_spec (fun v => nth v w 0%Z) (verts s) lo) as (B1 & B2 & B3).
  fold (maximumValue lo w t) in *. fold (maximumValue lo w s) in *.
  destruct A3 as [->|(v & Hv & <-)]; auto.
Qed.

Lemma minimumValue_mono hi w s t : subset (verts t) (verts s) -> (minimumValue hi w s <= minimumValue hi w t)%Z.
Proof.
  intro H. destruct (fold_min_spec (fun v => nth v w 0%Z) (verts t) hi) as (A1 & A2 & A3).
  destruct (fold_min_spec (fun v => nth v w 0%Z) (verts s) hi) as (B1 & B2 & B3).
  fold (minimumValue hi w t) in *. fold (minimumValue hi w s) in *.
  destruct A3 as [->|(v & Hv & <-)]; auto.
Qed.

(** a comparison that puts faces first yields a filtration order *)
Lemma sort_filtration cmp L : swo cmp ->
  (forall s t, In s L -> In t L -> proper_face t s -> cmp t s = true) ->
  filtration_order (cpp_sort cmp L).
Proof.
  intros Hc Hf i j s t Hs Ht Hp.
  assert (Hs' : In s L) by (apply (cpp_sort_In cmp); eapply nth_error_In; eauto).
  assert (Ht' : In t L) by (apply (cpp_sort_In cmp); eapply nth_error_In; eauto).
  destruct (Nat.lt_trichotomy i j) as [H|[->|H]]; auto; exfalso.
  - pose proof (StronglySorted_nth _ _ _ _ _ _ (cpp_sort_sorted cmp L Hc) H Hs Ht) as X. simpl in X.
    rewrite Hf in X; auto; discriminate.
  - rewrite Hs in Ht. injection Ht as <-. destruct Hp as [_ H]. apply H. intro; auto.
Qed.

Lemma filtration_default K : kwf K -> filtration_order (by_index (k_sort_default K)).
Proof.
  intro HK. apply sort_filtration; [apply s_ltb_swo|].
  intros s t Hs Ht Hp. apply proper_face_lex; auto; apply (kwf_good K HK); auto.
Qed.

Lemma filtration_data K : kwf K -> monotone (by_index K) -> filtration_order (by_index (k_sort data_cmp K)).
Proof.
  intros HK HM. apply sort_filtration; [apply data_cmp_swo|].
  intros s t Hs Ht Hp. pose proof (HM s t Hs Ht (proj1 Hp)) as Hd. unfold data_cmp.
  pose proof (proper_face_dim t s (kwf_good K HK t Ht) (kwf_good K HK s Hs) Hp) as Hl.
  destruct (Z.eqb_spec (data t) (data s)).
  - destruct (Nat.eqb_spec (sdim t) (sdim s)); [lia|]. apply Nat.ltb_lt; auto.
  - apply Z.ltb_lt. lia.
Qed.

Definition antitone (L : list simplex) : Prop :=
  forall s t, In s L -> In t L -> subset (verts t) (verts s) -> (data s <= data t)%Z.

Lemma filtration_data_greater K : kwf K -> antitone (by_index K) ->
  filtration_order (by_index (k_sort data_cmp_greater K)).
Proof.
  intros HK HM. apply sort_filtration; [apply data_cmp_greater_swo|].
  intros s t Hs Ht Hp. pose proof (HM s t Hs Ht (proj1 Hp)) as Hd. unfold data_cmp_greater.
  pose proof (proper_face_dim t s (kwf_good K HK t Ht) (kwf_good K HK s Hs) Hp) as Hl.
  destruct (Z.eqb_spec (data t) (data s)).
  - destruct (Nat.eqb_spec (sdim t) (sdim s)); [lia|]. apply Nat.ltb_lt; auto.
  - apply Z.ltb_lt. lia.
Qed.

Lemma filtration_lower lo w K : kwf K -> filtration_order (by_index (k_sort (lower_star_cmp lo w) K)).
Proof.
  intro HK. apply sort_filtration; [apply lower_star_swo|].
  intros s t Hs Ht Hp. unfold lower_star_cmp.
  pose proof (maximumValue_mono lo w s t (proj1 Hp)).
  rewrite (proper_face_lex t s); auto; try apply (kwf_good K HK); auto.
  destruct (Z.ltb_spec (maximumValue lo w t) (maximumValue lo w s)); auto.
  destruct (Z.eqb_spec (maximumValue lo w t) (maximumValue lo w s)); auto. lia.
Qed.

Lemma filtration_upper hi w K : kwf K -> filtration_order (by_index (k_sort (upper_star_cmp hi w) K)).
Proof.
  intro HK. apply sort_filtration; [apply upper_star_swo|].
  intros s t Hs Ht Hp. unfold upper_star_cmp.
  pose proof (minimumValue_mono hi w s t (proj1 Hp)).
  rewrite (proper_face_lex t s); auto; try apply (kwf_good K HK); auto.
  destruct (Z.ltb_spec (minimumValue hi w s) (minimumValue hi w t)); auto.
  destruct (Z.eqb_spec (minimumValue hi w t) (minimumValue hi w s)); auto. lia.
Qed.

Lemma sorted_by_value cmp (val : simplex -> Z) L : swo cmp ->
  (forall s t, cmp t s = false -> (val s <= val t)%Z) ->
  forall i j s t, i < j -> nth_error (cpp_sort cmp L) i = Some s -> nth_error (cpp_sort cmp L) j = Some t ->
  (val s <= val t)%Z.
Proof.
  intros Hc Hv i j s t Hij Hs Ht. apply Hv.
  exact (StronglySorted_nth _ _ _ _ _ _ (cpp_sort_sorted cmp L Hc) Hij Hs Ht).
Qed.

(** ** boundary matrices *)
Section BoundaryMatrix.
  Variables (K : complex) (mx : nat).

  Definition bcol (js : nat * simplex) : list nat :=
    if (mx =? 0) || (fst js <? mx) then cpp_sort Nat.ltb (map (simplex_to_index K) (boundary (snd js))) else [].
  Definition enum (L : list simplex) := combine (seq 0 (length L)) L.

  Lemma at_app {A} (l1 : list A) x l2 : at_ (l1 ++ x :: l2) (length l1) = Ok x.
  Proof. unfold at_. rewrite nth_error_app2, Nat.sub_diag; auto. Qed.

  Lemma upd_app {A} (l1 : list A) x l2 y : upd (l1 ++ x :: l2) (length l1) y = l1 ++ y :: l2.
  Proof. induction l1; simpl; auto. rewrite IHl1; auto. Qed.

  Lemma matrix_loop l c d : length c = length d -> (forall s, In s l -> good s) ->
    foldM (matrix_step K mx) (combine (seq (length c) (length l)) l)
      (Matrix (c ++ repeat [] (length l)) (d ++ repeat 0 (length l)) false)
    = Ok (Matrix (c ++ map bcol (combine (seq (length c) (length l)) l)) (d ++ map sdim l) false).
  Proof.
    revert c d. induction l as [|s l IH]; intros c d Hl Hg; [reflexivity|].
    cbn [length repeat seq combine foldM map].
    assert (Hs : good s) by (apply Hg; simpl; auto).
    assert (Hlen : length (boundary s) - 1 = sdim s).
    { destruct Hs as [Hw Hn]. unfold sdim. destruct (Nat.leb_spec (s_size s) 1).
      - rewrite boundary_small by auto. unfold s_size in *. simpl. lia.
      - rewrite boundary_length by lia. auto. }
    assert (Hstep : matrix_step K mx (Matrix (c ++ [] :: repeat [] (length l)) (d ++ 0 :: repeat 0 (length l)) false)
                      (length c, s)
                    = Ok (Matrix ((c ++ [bcol (length c, s)]) ++ repeat [] (length l))
                                 ((d ++ [sdim s]) ++ repeat 0 (length l)) false)).
    { unfold matrix_step, bcol. cbn [fst snd]. destruct ((mx =? 0) || (length c <? mx)).
      - unfold setColumn. cbn [cols dims dualized].
        rewrite (at_app c). cbn [bind]. rewrite Hl at 1. rewrite (at_app d). cbn [bind].
        rewrite map_length, Hlen, upd_app. rewrite Hl at 1. rewrite upd_app, <- !app_assoc. auto.
      - rewrite (good_dimension s Hs). simpl. unfold setDimension. cbn [cols dims dualized].
        rewrite Hl, at_app. simpl. unfold with_dims. cbn [cols dims dualized].
        rewrite upd_app, <- !app_assoc. auto. }
    rewrite Hstep. cbn [bind].
    specialize (IH (c ++ [bcol (length c, s)]) (d ++ [sdim s])).
    rewrite !app_length in IH. simpl in IH. rewrite Nat.add_1_r in IH. rewrite IH.
    - rewrite <- !app_assoc. auto.
    - lia.
    - intros; apply Hg; simpl; auto.
  Qed.

  Lemma matrix_value : kwf K ->
    makeBoundaryMatrix K mx = Ok (Matrix (map bcol (enum (by_index K))) (map sdim (by_index K)) false).
  Proof.
    intro HK. unfold makeBoundaryMatrix, setNumColumns, resize, empty_matrix, k_size, enum. simpl.
    rewrite !firstn_nil, !Nat.sub_0_r. simpl.
    apply (matrix_loop (by_index K) [] []); auto. apply (kwf_good K HK).
  Qed.

  Lemma enum_nth L j : nth_error (enum L) j = option_map (fun s => (j, s)) (nth_error L j).
  Proof.
    assert (H : forall k, nth_error (combine (seq k (length L)) L) j = option_map (fun s => (k + j, s)) (nth_error L j)).
    { clear. revert j. induction L as [|s L IH]; intros [|j] k; simpl; auto.
      - rewrite Nat.add_0_r; auto.
      - rewrite IH. rewrite Nat.add_succ_r. auto. }
    apply (H 0).
  Qed.

  Lemma bcol_nth j s : nth_error (by_index K) j = Some s ->
    nth_error (map bcol (enum (by_index K))) j = Some (bcol (j, s)).
  Proof. intro H. rewrite nth_error_map, enum_nth, H. auto. Qed.

  Lemma enum_length L : length (enum L) = length L.
  Proof. unfold enum. rewrite combine_length, seq_length. lia. Qed.
End BoundaryMatrix.

Lemma odd_filter {A} (p : A -> bool) l :
  fold_right (fun k acc => xorb (p k) acc) false l = Nat.odd (length (filter p l)).
Proof.
  induction l as [|a l IH]; auto. cbn [fold_right filter]. rewrite IH. destruct (p a); cbn [length].
  - rewrite Nat.odd_succ, <- Nat.negb_odd. destruct (Nat.odd _); auto.
  - destruct (Nat.odd _); auto.
Qed.

Lemma boundary_verts_eq s t : verts s = verts t -> boundary s = boundary t.
Proof. intro E. unfold boundary, s_size, boundary_face. rewrite E. auto. Qed.

Section Valid.
  Variable K : complex.
  Hypothesis (HK : kwf K) (HC : closed (by_index K)) (HF : filtration_order (by_index K)).

  Let C := map (bcol K 0) (enum (by_index K)).

  Lemma face_index s f : In s (by_index K) -> In f (boundary s) ->
    exists t, nth_error (by_index K) (simplex_to_index K f) = Some t /\ verts t = verts f.
  Proof.
    intros Hs Hf. assert (H : k_contains K f = true).
    { apply contains_In. apply (proj2 (closedB_closed K HK) HC s); auto. }
    unfold simplex_to_index. destruct (k_find K f) as [i|] eqn:E.
    - apply find_pos_spec; auto.
    - apply find_pos_none in E. congruence.
  Qed.

  Lemma col_spec j s : nth_error (by_index K) j = Some s ->
    nth j C [] = cpp_sort Nat.ltb (map (simplex_to_index K) (boundary s)).
  Proof.
    intro H. unfold C. pose proof (bcol_nth K 0 j s H) as E.
    apply nth_error_nth with (d := []) in E. rewrite E. reflexivity.
  Qed.

  Lemma C_length : length C = length (by_index K).
  Proof. unfold C. rewrite map_length. apply enum_length. Qed.

  Lemma entry_C r j : entry C r j = true <->
    exists s f, nth_error (by_index K) j = Some s /\ In f (boundary s) /\ simplex_to_index K f = r.
  Proof.
    unfold entry. rewrite existsb_exists. split.
    - intros (x & Hx & E). apply Nat.eqb_eq in E. subst x.
      destruct (nth_error (by_index K) j) as [s|] eqn:Hs.
      + rewrite (col_spec j s Hs), cpp_sort_In, in_map_iff in Hx. destruct Hx as (f & E & Hf). eauto.
      + apply nth_error_None in Hs. rewrite nth_overflow in Hx by (rewrite C_length; auto). easy.
    - intros (s & f & Hs & Hf & <-). exists (simplex_to_index K f).
      rewrite (col_spec j s Hs), cpp_sort_In, Nat.eqb_refl. split; auto. apply in_map; auto.
  Qed.

  Lemma face_indices_NoDup s : In s (by_index K) -> NoDup (map (simplex_to_index K) (boundary s)).
  Proof.
    intro Hs. pose proof (boundary_NoDup s (proj1 (kwf_good K HK s Hs))) as Hn.
    assert (Hl : forall f, In f (boundary s) -> In f (boundary s)) by auto.
    revert Hn Hl. generalize (boundary s) at 1 2 4 as l.
    induction l as [|f l IH]; intros Hn Hl; simpl in *; [constructor|].
    inversion Hn as [|x y Hni Hn']; subst. constructor; auto.
    intro Hin. apply in_map_iff in Hin. destruct Hin as (g & E & Hg). apply Hni.
    destruct (face_index s f Hs) as (t & Ht & Hv); auto.
    destruct (face_index s g Hs) as (u & Hu & Hw); auto.
    rewrite E in Hu. rewrite Ht in Hu. injection Hu as <-. rewrite <- Hv, Hw. apply in_map; auto.
  Qed.

  (** This does not depend on the order of the simplices. *)
  Theorem matrix_unordered :
    length (map sdim (by_index K)) = length C /\ sorted_cols C /\
    (forall j r, entry C r j = true -> exists s t, nth_error (by_index K) j = Some s /\
       nth_error (by_index K) r = Some t /\ proper_face t s /\
       S (nth r (map sdim (by_index K)) 0) = nth j (map sdim (by_index K)) 0) /\
    (forall j r, sum_cols C (nth j C []) r = false).
  Proof.
    refine (conj _ (conj _ (conj _ _))).
    - rewrite map_length, C_length. auto.
    - intros c Hc. unfold C in Hc. apply in_map_iff in Hc. destruct Hc as ((j & s) & <- & Hin).
      apply In_nth_error in Hin. destruct Hin as (k & Hk). rewrite enum_nth in Hk.
      destruct (nth_error (by_index K) k) as [s'|] eqn:E; [|discriminate]. simpl in Hk. injection Hk as -> ->.
      unfold bcol. simpl. apply cpp_sort_strict. apply face_indices_NoDup. eapply nth_error_In; eauto.
    - intros j r H. apply entry_C in H. destruct H as (s & f & Hs & Hf & <-).
      assert (Hin : In s (by_index K)) by (eapply nth_error_In; eauto).
      destruct (face_index s f Hin Hf) as (t & Ht & Hv).
      pose proof (boundary_proper s f (proj1 (kwf_good K HK s Hin)) Hf) as Hp.
      exists s, t. refine (conj Hs (conj Ht (conj _ _))).
      + unfold proper_face. rewrite Hv. auto.
      + rewrite (nth_error_nth _ _ 0 (map_nth_error sdim _ _ Hs)).
        rewrite (nth_error_nth _ _ 0 (map_nth_error sdim _ _ Ht)).
        pose proof (boundary_sdim s f (proj1 (kwf_good K HK s Hin)) Hf) as Hd.
        unfold sdim in *. rewrite Hv. auto.
    - intros j r. destruct (nth_error (by_index K) j) as [s|] eqn:Hs.
      2:{ apply nth_error_None in Hs. rewrite nth_overflow by (rewrite C_length; auto). auto. }
      assert (Hin : In s (by_index K)) by (eapply nth_error_In; eauto).
      assert (Hgs : good s) by (apply (kwf_good K HK); auto).
      unfold sum_cols. rewrite (odd_filter (fun k => entry C r k)), (col_spec j s Hs).
      rewrite (Permutation_length (filter_perm _ _ _ (cpp_sort_perm Nat.ltb (map (simplex_to_index K) (boundary s))))).
      rewrite filter_map_length.
      assert (Hent : forall f, In f (boundary s) ->
        (entry C r (simplex_to_index K f) = true <->
         exists g, nth_error (by_index K) r = Some g /\ In (verts g) (map verts (boundary f)))).
      { intros f Hf. destruct (face_index s f Hin Hf) as (t & Ht & Hv). rewrite entry_C.
        rewrite (boundary_verts_eq f t) by auto.
        assert (Hint : In t (by_index K)) by (eapply nth_error_In; eauto).
        split.
        - intros (t' & h & Ht' & Hh & E). rewrite Ht in Ht'. injection Ht' as <-.
          destruct (face_index t h Hint Hh) as (g & Hg & Hvg). exists g. rewrite <- E. split; auto.
          rewrite Hvg. apply in_map; auto.
        - intros (g & Hg & Hin'). apply in_map_iff in Hin'. destruct Hin' as (h & Eh & Hh).
          exists t, h. split; auto. split; auto.
          destruct (face_index t h Hint Hh) as (g' & Hg' & Hvg').
          eapply (nth_error_verts_inj K); eauto. congruence. }
      destruct (nth_error (by_index K) r) as [g|] eqn:Hg.
      2:{ rewrite (filter_ext_in _ (fun _ => false)).
          - clear. induction (boundary s); auto.
          - intros f Hf. destruct (entry C r (simplex_to_index K f)) eqn:E; auto.
            apply Hent in E; auto. destruct E as (? & ? & _). discriminate. }
      assert (Hgg : good g) by (apply (kwf_good K HK); eapply nth_error_In; eauto).
      rewrite (filter_ext_in _ (fun f => existsb (s_eqb g) (boundary f))).
      2:{ intros f Hf. apply eq_true_iff_eq. rewrite Hent by auto. rewrite existsb_seqb. split.
          - intros (g' & [= <-] & H); auto.
          - intro H. eauto. }
      destruct (filter (fun f => existsb (s_eqb g) (boundary f)) (boundary s)) as [|f l] eqn:E; auto.
      assert (Hff : In f (f :: l)) by (simpl; auto). rewrite <- E in Hff. apply filter_In in Hff.
      destruct Hff as [Hf Hex]. apply existsb_seqb in Hex. rewrite <- E.
      assert (Hwf : wf f) by (eapply boundary_wf; eauto).
      pose proof (boundary_size s f (proj1 Hgs) Hf) as Hsz.
      pose proof Hf as Hf0. apply in_boundary in Hf0. destruct Hf0 as (H2 & a & Ha & Ef).
      destruct (Nat.leb_spec (s_size f) 1) as [Hle|Hgt].
      { rewrite boundary_small in Hex by auto. easy. }
      apply in_boundary_iff_set in Hex; auto; [|apply Hgg].
      destruct Hex as (b & Hb & Hu). rewrite Ef in Hb, Hu. apply boundary_face_In in Hb.
      assert (X : length (filter (fun f => existsb (s_eqb g) (boundary f)) (boundary s)) = 2).
      { apply (boundary_two s g a b); auto; try tauto; [apply Hgs|apply Hgg|lia|apply not_eq_sym; tauto|].
        intro u. rewrite Hu, boundary_face_In. tauto. }
      rewrite X. auto.
  Qed.

  Theorem matrix_valid : valid_boundary C (map sdim (by_index K)).
  Proof.
    destruct matrix_unordered as (H1 & H2 & H3 & H4). refine (conj H1 (conj H2 (conj _ H4))).
    intros j r H. destruct (H3 j r H) as (s & t & Hs & Ht & Hp & Hd). split; auto.
    apply (HF j r s t); auto.
  Qed.
End Valid.
