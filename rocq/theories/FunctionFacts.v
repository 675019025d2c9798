(** * Loading functions. *)
From Coq Require Import List Arith Bool ZArith Lia Permutation Sorted.
From Verif Require Import Base BaseFacts Matrix SpecMatrix ReductionFacts DualFacts RepFacts ComplexFacts FiltrationFacts UnionFind UnionFindFacts Function.
Import ListNotations.

Section Stable.
  Variable W : nat -> Z.
  Definition later (i j : nat) : Prop := (W i < W j)%Z \/ (W i = W j /\ i < j).

  Lemma insert_stable x l : (forall y, In y l -> x < y) -> StronglySorted later l ->
    StronglySorted later (insert_sorted (fun i j => (W i <? W j)%Z) x l).
  Proof.
    intro Hx. induction 1 as [|y l Hl IH Hy]; simpl; [repeat constructor|].
    destruct (Z.ltb_spec (W y) (W x)) as [Hlt|Hge].
    - constructor; [apply IH; intros z Hz; apply Hx; simpl; auto|]. rewrite Forall_forall in *.
      intros z Hz. assert (Hz' : z = x \/ In z l).
      { clear - Hz. induction l as [|a l IH]; simpl in *; [intuition|]. destruct (W a <? W x)%Z; simpl in *; intuition. }
      destruct Hz' as [->|Hz']; [left; auto|auto].
    - constructor; [constructor; auto|]. rewrite Forall_forall in *. intros z [<-|Hz].
      + unfold later. specialize (Hx y). simpl in Hx. assert (x < y) by auto. lia.
      + specialize (Hy z Hz). assert (x < z) by (apply Hx; simpl; auto). unfold later in *. lia.
  Qed.

  Lemma sort_stable l : StronglySorted lt l -> StronglySorted later (cpp_sort (fun i j => (W i <? W j)%Z) l).
  Proof.
    induction 1 as [|x l Hl IH Hx]; simpl; [constructor|]. apply insert_stable; auto.
    intros y Hy. apply cpp_sort_In in Hy. rewrite Forall_forall in Hx. auto.
  Qed.

  Lemma later_position l a b i j : StronglySorted later l -> nth_error l i = Some a -> nth_error l j = Some b ->
    later a b -> i < j.
  Proof.
    intros Hs Hi Hj Hab. destruct (Nat.lt_trichotomy i j) as [|[->|Hji]]; auto; exfalso.
    - rewrite Hi in Hj. injection Hj as ->. unfold later in Hab. lia.
    - assert (Hba : later b a).
      { clear Hab. revert i j Hi Hj Hji. induction Hs as [|x l Hl IH Hx]; intros i j Hi Hj Hji; [destruct i; discriminate|].
        destruct i as [|i]; [lia|]. simpl in Hi. destruct j as [|j]; simpl in Hj.
        - injection Hj as ->. rewrite Forall_forall in Hx. apply Hx. eapply nth_error_In; eauto.
        - apply (IH i j); auto; lia. }
      unfold later in *. lia.
  Qed.
End Stable.

(** weights *)
Lemma fun_weight_ok values i : i < 2 * length values - 1 -> fun_weight values i = Ok (weight_value values i).
Proof.
  intro Hi. unfold weight_value, fun_weight, at_.
  destruct (Nat.ltb_spec i (length values)) as [H|H].
  - destruct (nth_error values i) eqn:E; auto. apply nth_error_None in E. lia.
  - destruct (nth_error values (i - length values)) eqn:E; [|apply nth_error_None in E; lia]. simpl.
    destruct (nth_error values (i - length values + 1)) eqn:E2; [|apply nth_error_None in E2; lia]. auto.
Qed.

Lemma weight_vertex values i : i < length values -> weight_value values i = nth i values 0%Z.
Proof.
  intro H. unfold weight_value, fun_weight, at_. destruct (Nat.ltb_spec i (length values)); [|lia].
  destruct (nth_error values i) eqn:E; [|apply nth_error_None in E; lia]. symmetry. apply nth_error_nth; auto.
Qed.

Lemma weight_edge values k : S k < length values ->
  weight_value values (length values + k) = Z.max (nth k values 0%Z) (nth (S k) values 0%Z).
Proof.
  intro H. unfold weight_value, fun_weight, at_. destruct (Nat.ltb_spec (length values + k) (length values)); [lia|].
  replace (length values + k - length values) with k by lia. replace (k + 1) with (S k) by lia.
  destruct (nth_error values k) eqn:E; [|apply nth_error_None in E; lia].
  destruct (nth_error values (S k)) eqn:E2; [|apply nth_error_None in E2; lia].
  rewrite (nth_error_nth _ _ 0%Z E), (nth_error_nth _ _ 0%Z E2). reflexivity.
Qed.

Lemma check_loop values l : (forall i, In i l -> i < 2 * length values - 1) ->
  foldM (fun (_ : unit) i => let* _ := fun_weight values i in Ok tt) l tt = Ok tt.
Proof.
  induction l as [|i l IH]; intro H; simpl; auto. rewrite fun_weight_ok by (apply H; simpl; auto). simpl.
  apply IH. intros; apply H; simpl; auto.
Qed.

Section Load.
  Variable values : list Z.
  Hypothesis Hne : values <> [].
  Let n := length values.
  Let N := 2 * n - 1.
  Let W := weight_value values.
  Definition ind : list nat := cpp_sort (fun i j => (W i <? W j)%Z) (seq 0 N).

  Lemma n_pos : 0 < n.
  Proof. unfold n. destruct values; [easy|simpl; lia]. Qed.

  Lemma ind_perm : Permutation ind (seq 0 N).
  Proof. apply cpp_sort_perm. Qed.
  Lemma ind_In i : In i ind <-> i < N.
  Proof.
    split; intro H.
    - apply (Permutation_in i ind_perm), in_seq in H. lia.
    - apply (Permutation_in i (Permutation_sym ind_perm)), in_seq. lia.
  Qed.
  Lemma ind_NoDup : NoDup ind.
  Proof. eapply Permutation_NoDup; [apply Permutation_sym, ind_perm|apply seq_NoDup]. Qed.
  Lemma ind_length : length ind = N.
  Proof. rewrite (Permutation_length ind_perm), seq_length. auto. Qed.
  Lemma ind_sorted : StronglySorted (later W) ind.
  Proof. apply sort_stable. apply seq_sorted. Qed.

  (** position in the filtration *)
  Definition pos (i : nat) : nat := match position (Nat.eqb i) ind with Some p => p | None => 0 end.

  Lemma pos_spec i : i < N -> nth_error ind (pos i) = Some i.
  Proof.
    intro H. unfold pos. destruct (position (Nat.eqb i) ind) as [p|] eqn:E.
    - apply position_some in E. destruct E as (a & E1 & E2 & _). apply Nat.eqb_eq in E2. congruence.
    - exfalso. apply ind_In in H. rewrite (position_none _ _) in E. specialize (E i H). rewrite Nat.eqb_refl in E. discriminate.
  Qed.

  Lemma pos_unique i p : nth_error ind p = Some i -> pos i = p.
  Proof.
    intro H. assert (Hi : i < N) by (apply ind_In; eapply nth_error_In; eauto).
    pose proof (pos_spec i Hi) as H'. apply (proj1 (NoDup_nth_error ind) ind_NoDup); [|congruence].
    apply nth_error_lt in H'. auto.
  Qed.

  Lemma edge_after k : S k < n -> pos k < pos (n + k) /\ pos (S k) < pos (n + k).
  Proof.
    intro H. assert (HN : n + k < N) by (unfold N; lia).
    assert (HW : W (n + k) = Z.max (nth k values 0%Z) (nth (S k) values 0%Z)) by (apply weight_edge; auto).
    split; eapply (later_position W ind _ _ _ _ ind_sorted); try (apply pos_spec; unfold N in *; lia).
    - assert (Hv : W k = nth k values 0%Z) by (apply weight_vertex; fold n; lia). unfold later. rewrite HW, Hv. lia.
    - assert (Hv : W (S k) = nth (S k) values 0%Z) by (apply weight_vertex; fold n; lia). unfold later. rewrite HW, Hv. lia.
  Qed.

  Definition colf (i : nat) : list nat := if i <? n then [] else cpp_sort Nat.ltb [pos (i - n); pos (i - n + 1)].
  Definition dimf (i : nat) : nat := if i <? n then 0 else 1.

  Lemma columns_loop l1 l2 m : ind = l1 ++ l2 ->
    (forall v p, v < n -> (parent_of m v = Some p <-> nth_error l1 p = Some v)) ->
    exists m', foldM (function_column n) (combine (seq (length l1) (length l2)) l2)
       (Matrix (map colf l1 ++ repeat [] (length l2)) (map dimf l1 ++ repeat 0 (length l2)) false, m)
     = Ok (Matrix (map colf ind) (map dimf ind) false, m').
  Proof.
    revert l1 m. induction l2 as [|i l2 IH]; intros l1 m E Hm; simpl.
    - exists m. rewrite E, !app_nil_r. auto.
    - assert (Hi : nth_error ind (length l1) = Some i) by (rewrite E, nth_error_app2, Nat.sub_diag by lia; auto).
      assert (HiN : i < N) by (apply ind_In; eapply nth_error_In; eauto).
      assert (El : ind = (l1 ++ [i]) ++ l2) by (rewrite <- app_assoc; auto).
      assert (HL1 : length (map colf l1) = length l1) by apply map_length.
      assert (HL2 : length (map dimf l1) = length l1) by apply map_length.
      assert (Hpre : forall v p, pos v < length l1 -> v < N -> (nth_error l1 p = Some v <-> p = pos v)).
      { intros v p Hp Hv. pose proof (pos_spec v Hv) as Hs. rewrite E, nth_error_app1 in Hs by auto. split; [|congruence].
        intro H. symmetry. apply pos_unique. rewrite E, nth_error_app1; auto. apply nth_error_lt in H. auto. }
      unfold function_column at 1. destruct (Nat.ltb_spec i n) as [Hin|Hin].
      + unfold clearColumn. cbn [fst snd cols].
        replace (at_ (map colf l1 ++ [] :: repeat [] (length l2)) (length l1)) with (Ok (@nil nat)).
        2:{ rewrite <- HL1 at 1. symmetry. apply at_app. }
        cbn [bind]. unfold with_cols. cbn [cols dims dualized].
        assert (EC : upd (map colf l1 ++ [] :: repeat [] (length l2)) (length l1) [] = map colf (l1 ++ [i]) ++ repeat [] (length l2)).
        { rewrite <- HL1 at 1. rewrite upd_app, map_app, <- app_assoc. simpl. unfold colf at 3. 
          destruct (Nat.ltb_spec i n); [auto|lia]. }
        assert (ED : map dimf l1 ++ 0 :: repeat 0 (length l2) = map dimf (l1 ++ [i]) ++ repeat 0 (length l2)).
        { rewrite map_app, <- app_assoc. simpl. unfold dimf at 3. destruct (Nat.ltb_spec i n); [auto|lia]. }
        rewrite EC, ED. destruct (IH (l1 ++ [i]) (set_parent m i (length l1)) El) as (m' & H').
        * intros v p Hv. rewrite parent_of_set. destruct (Nat.eqb_spec v i) as [->|Hvi].
          -- split; [intros [= <-]; rewrite nth_error_app2, Nat.sub_diag by lia; auto|].
             intro H. f_equal. rewrite <- (pos_unique i _ Hi). symmetry. rewrite <- (pos_unique i p); auto.
             rewrite El, nth_error_app1; auto. apply nth_error_lt in H. auto.
          -- rewrite (Hm v p Hv). destruct (le_lt_dec (length l1) p) as [Hp|Hp].
             ++ split; [intro H; apply nth_error_lt in H; lia|]. intro H. rewrite nth_error_app2 in H by auto.
                destruct (p - length l1) as [|q]; simpl in H; [congruence|destruct q; discriminate].
             ++ rewrite nth_error_app1 by auto. tauto.
        * exists m'. rewrite app_length in H'. simpl in H'. rewrite Nat.add_1_r in H'. exact H'.
      + assert (Hk : S (i - n) < n) by (unfold N in HiN; lia).
        assert (Hik : n + (i - n) = i) by lia.
        destruct (edge_after (i - n) Hk) as [P1 P2]. rewrite Hik, (pos_unique i _ Hi) in P1, P2.
        replace (i - n + 1) with (S (i - n)) in * by lia. cbn [fst snd].
        assert (M1 : parent_of m (i - n) = Some (pos (i - n))).
        { apply Hm; [lia|]. apply Hpre; auto. unfold N; lia. }
        assert (M2 : parent_of m (S (i - n)) = Some (pos (S (i - n)))).
        { apply Hm; [lia|]. apply Hpre; auto. unfold N; lia. }
        rewrite M1, M2. cbn [bind]. unfold setColumn. cbn [cols dims dualized].
        replace (at_ (map colf l1 ++ [] :: repeat [] (length l2)) (length l1)) with (Ok (@nil nat)).
        2:{ rewrite <- HL1 at 1. symmetry. apply at_app. }
        cbn [bind].
        replace (at_ (map dimf l1 ++ 0 :: repeat 0 (length l2)) (length l1)) with (Ok 0).
        2:{ rewrite <- HL2 at 1. symmetry. apply at_app. }
        cbn [bind].
        assert (EC : upd (map colf l1 ++ [] :: repeat [] (length l2)) (length l1) (cpp_sort Nat.ltb [pos (i - n); pos (S (i - n))])
                   = map colf (l1 ++ [i]) ++ repeat [] (length l2)).
        { rewrite <- HL1 at 1. rewrite upd_app, map_app, <- app_assoc. simpl app. cbn [map]. unfold colf at 3.
          destruct (Nat.ltb_spec i n); [lia|]. replace (i - n + 1) with (S (i - n)) by lia. auto. }
        assert (ED : upd (map dimf l1 ++ 0 :: repeat 0 (length l2)) (length l1) (length [pos (i - n); pos (S (i - n))] - 1)
                   = map dimf (l1 ++ [i]) ++ repeat 0 (length l2)).
        { rewrite <- HL2 at 1. rewrite upd_app, map_app, <- app_assoc. simpl. unfold dimf at 3. destruct (Nat.ltb_spec i n); [lia|auto]. }
        rewrite EC, ED. destruct (IH (l1 ++ [i]) m El) as (m' & H').
        * intros v p Hv. rewrite (Hm v p Hv). destruct (le_lt_dec (length l1) p) as [Hp|Hp].
          -- split; [intro H; apply nth_error_lt in H; lia|]. intro H. rewrite nth_error_app2 in H by auto.
             destruct (p - length l1) as [|q]; simpl in H; [|destruct q; discriminate]. injection H as ->. lia.
          -- rewrite nth_error_app1 by auto. tauto.
        * exists m'. rewrite app_length in H'. simpl in H'. rewrite Nat.add_1_r in H'. exact H'.
  Qed.

  Lemma extend_loop i k acc : i + k = n - 1 ->
    acc = values ++ map (fun e => W (n + e)) (seq 0 i) ->
    foldM push_max (seq i k) acc = Ok (values ++ map (fun e => W (n + e)) (seq 0 (n - 1))).
  Proof.
    revert i acc. induction k as [|k IH]; intros i acc Hik ->; simpl.
    - replace i with (n - 1) by lia. auto.
    - unfold push_max at 1, at_.
      assert (H1 : i < length values) by (fold n; lia). assert (H2 : i + 1 < length values) by (fold n; lia).
      rewrite !nth_error_app1 by auto.
      destruct (nth_error values i) eqn:E1; [|apply nth_error_None in E1; lia].
      destruct (nth_error values (i + 1)) eqn:E2; [|apply nth_error_None in E2; lia]. cbn [bind].
      apply IH; [lia|]. rewrite <- app_assoc. f_equal. rewrite seq_S, map_app. simpl. f_equal. f_equal.
      unfold W, n. rewrite (weight_edge values i) by lia.
      rewrite (nth_error_nth _ _ 0%Z E1). replace (S i) with (i + 1) by lia. rewrite (nth_error_nth _ _ 0%Z E2). auto.
  Qed.

  Lemma ext_nth i : i < N -> nth_error (values ++ map (fun e => W (n + e)) (seq 0 (n - 1))) i = Some (W i).
  Proof.
    intro Hi. destruct (le_lt_dec n i) as [H|H].
    - rewrite nth_error_app2 by auto. fold n. rewrite nth_error_map.
      assert (Hs : nth_error (seq 0 (n - 1)) (i - n) = Some (i - n)).
      { rewrite (nth_error_nth' (seq 0 (n - 1)) 0) by (rewrite seq_length; unfold N in Hi; lia).
        rewrite seq_nth by (unfold N in Hi; lia). auto. }
      rewrite Hs. simpl. replace (n + (i - n)) with i by lia. auto.
    - rewrite nth_error_app1 by auto. unfold W. rewrite weight_vertex by auto. apply nth_error_nth'; auto.
  Qed.

  Lemma permute_loop l acc : (forall i, In i l -> i < N) ->
    foldM (fun acc i => let* w := at_ (values ++ map (fun e => W (n + e)) (seq 0 (n - 1))) i in Ok (acc ++ [w])) l acc
    = Ok (acc ++ map W l).
  Proof.
    revert acc. induction l as [|i l IH]; intros acc H; simpl; [rewrite app_nil_r; auto|].
    unfold at_ at 1. rewrite ext_nth by (apply H; simpl; auto). cbn [bind]. rewrite IH by (intros; apply H; simpl; auto).
    rewrite <- app_assoc. auto.
  Qed.

  Theorem load_value :
    loadFunction empty_matrix values = Ok (Matrix (map colf ind) (map dimf ind) false, map W ind).
  Proof.
    assert (E : loadFunction empty_matrix values =
      (let* _ := foldM (fun (_ : unit) i => let* _ := fun_weight values i in Ok tt) (seq 0 N) tt in
       let* st := foldM (function_column n) (combine (seq 0 (length ind)) ind) (setNumColumns empty_matrix (length ind), []) in
       let* ext := foldM push_max (seq 0 (n - 1)) values in
       let* new := foldM (fun acc i => let* w := at_ ext i in Ok (acc ++ [w])) ind [] in
       Ok (fst st, new))).
    { unfold ind, W, N, n. clear - Hne. destruct values; [easy|]. reflexivity. }
    rewrite E, check_loop by (intros i Hi; apply in_seq in Hi; fold n; unfold N in Hi; lia). cbn [bind].
    destruct (columns_loop [] ind []) as (m' & H'); auto.
    { intros v p _. simpl. destruct p; simpl; split; discriminate. }
    replace (setNumColumns empty_matrix (length ind)) with (Matrix (repeat [] (length ind)) (repeat 0 (length ind)) false).
    2:{ unfold setNumColumns, resize, empty_matrix. cbn [cols dims dualized]. rewrite !firstn_nil. simpl length. rewrite !Nat.sub_0_r. auto. }
    simpl in H'. unfold parents in H' |- *. lazymatch type of H' with ?a = ?b =>
      lazymatch goal with |- bind ?c _ = _ => change c with a end end. rewrite H'. cbn [bind].
    rewrite (extend_loop 0 (n - 1) values); [|lia|simpl; rewrite app_nil_r; auto]. cbn [bind].
    rewrite permute_loop by (intros i Hi; apply ind_In; auto). simpl. auto.
  Qed.

  (** the matrix is a filtered boundary matrix *)
  Lemma load_entry r j : entry (map colf ind) r j = true <->
    exists k, S k < n /\ nth_error ind j = Some (n + k) /\ (r = pos k \/ r = pos (S k)).
  Proof.
    unfold entry. rewrite existsb_exists. destruct (nth_error ind j) as [i|] eqn:Ej.
    - assert (Hn : nth j (map colf ind) [] = colf i) by (apply (map_nth_error colf) in Ej; apply (nth_error_nth _ _ [] Ej)).
      rewrite Hn. unfold colf. assert (Hi : i < N) by (apply ind_In; eapply nth_error_In; eauto).
      destruct (Nat.ltb_spec i n) as [H|H].
      + split; [intros (x & [] & _)|]. intros (k & _ & [= ->] & _). lia.
      + split.
        * intros (x & Hx & Er). apply Nat.eqb_eq in Er. subst x. apply cpp_sort_In in Hx.
          exists (i - n). split; [unfold N in Hi; lia|]. split; [f_equal; lia|].
          replace (S (i - n)) with (i - n + 1) by lia. destruct Hx as [<-|[<-|[]]]; auto.
        * intros (k & Hk & [= ->] & Hr). exists r. split; [|apply Nat.eqb_refl]. apply cpp_sort_In.
          replace (n + k - n) with k by lia. replace (k + 1) with (S k) by lia. simpl. intuition.
    - rewrite nth_overflow by (rewrite map_length; apply nth_error_None; auto). split; [intros (x & [] & _)|].
      intros (k & _ & [=] & _).
  Qed.

  Lemma dim_nth_load j i : nth_error ind j = Some i -> nth j (map dimf ind) 0 = dimf i.
  Proof. intro H. apply (map_nth_error dimf) in H. apply (nth_error_nth _ _ 0 H). Qed.

  Lemma load_valid : valid_boundary (map colf ind) (map dimf ind).
  Proof.
    refine (conj _ (conj _ (conj _ _))).
    - rewrite !map_length. auto.
    - intros c Hc. apply in_map_iff in Hc. destruct Hc as (i & <- & Hi). unfold colf.
      destruct (Nat.ltb_spec i n) as [H|H]; [constructor|].
      apply cpp_sort_strict. apply ind_In in Hi. constructor; [|constructor; [easy|constructor]].
      intros [E|[]]. assert (E' : nth_error ind (pos (i - n + 1)) = nth_error ind (pos (i - n))) by congruence.
      rewrite !pos_spec in E' by (unfold N in *; lia). injection E' as E'. lia.
    - intros j r H. apply load_entry in H. destruct H as (k & Hk & Hj & Hr).
      destruct (edge_after k Hk) as [P1 P2]. rewrite (pos_unique _ _ Hj) in P1, P2.
      rewrite (dim_nth_load j _ Hj). unfold dimf at 2. destruct (Nat.ltb_spec (n + k) n); [lia|].
      destruct Hr as [->| ->]; (split; [auto|]); erewrite dim_nth_load by (apply pos_spec; unfold N; lia); unfold dimf;
        [destruct (Nat.ltb_spec k n)|destruct (Nat.ltb_spec (S k) n)]; auto; lia.
    - intros j r. 
      assert (G : forall l, (forall x, In x l -> entry (map colf ind) r x = false) -> sum_cols (map colf ind) l r = false).
      { induction l as [|x l IH]; intro H; simpl; auto. rewrite IH, H by (intros; simpl; auto; apply H; simpl; auto). auto. }
      apply G. intros x Hx. destruct (entry (map colf ind) r x) eqn:E; auto. exfalso.
      assert (Hjx : entry (map colf ind) x j = true) by (unfold entry; apply existsb_exists; exists x; split; auto; apply Nat.eqb_refl).
      apply load_entry in Hjx. destruct Hjx as (k & Hk & _ & Hx').
      apply load_entry in E. destruct E as (k' & Hk' & Hx2 & _).
      destruct Hx' as [->| ->]; rewrite pos_spec in Hx2 by (unfold N; lia); injection Hx2 as Hx2; lia.
  Qed.
End Load.
