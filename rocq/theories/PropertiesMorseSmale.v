(** * Segments of the link of a vertex (C122) *)
From Coq Require Import List Arith ZArith Bool Lia Permutation Relations.
From Verif Require Import Base BaseFacts SpecUnionFind UnionFind UnionFindFacts PropertiesUnionFind Mesh MeshFacts PropertiesMesh MorseSmale.
Import ListNotations.

(** Specification: [b] follows [a] in the cyclic sequence [l] and is a neighbour of it *)
Definition joined (fuel : nat) (m : mesh) (l : list nat) (a b : nat) : Prop :=
  exists i, nth_error l i = Some a /\ nth_error l (S i mod length l) = Some b /\ exists k, link fuel m a = Ok k /\ In b k.
(** [n] is the number of classes of the equivalence relation generated by [R] in [l] *)
Definition classes (R : nat -> nat -> Prop) (l : list nat) (n : nat) : Prop :=
  exists reps, length reps = n /\ NoDup reps /\ incl reps l /\
    forall x, In x l -> exists r, In r reps /\ clos_refl_sym_trans nat R x r /\ forall r', In r' reps -> clos_refl_sym_trans nat R x r' -> r' = r.

Lemma cyclic_In (l : list nat) a b : In (a, b) (cyclic l) <-> exists i, nth_error l i = Some a /\ nth_error l (S i mod length l) = Some b.
Proof.
  split.
  - intro H. apply In_nth_error in H. destruct H as (i & H). exists i. destruct (nth_error l i) as [c|] eqn:E.
    + destruct (cyclic_nth l i c E) as (d & H1 & H2). rewrite H in H1. injection H1 as -> ->. auto.
    + exfalso. apply nth_error_None in E. assert (i < length (cyclic l)) by (apply nth_error_Some; congruence). rewrite cyclic_length in *. lia.
  - intros (i & H1 & H2). destruct (cyclic_nth l i a H1) as (d & H3 & H4). rewrite H2 in H4. injection H4 as <-. eapply nth_error_In; eauto.
Qed.

Section Segments.
  Variables (m : mesh) (F : list (list nat)) (fuel u : nat) (lk : list nat) (ln : nat -> list nat).
  Hypothesis HB : built m F.
  Hypothesis Hu : link fuel m u = Ok lk.
  Hypothesis Hl : forall w, In w lk -> link fuel m w = Ok (ln w).
  Variable l : list nat.
  Hypothesis Hin : incl l lk.

  Let f (p : nat * nat) : bool := if in_dec Nat.eq_dec (snd p) (ln (fst p)) then true else false.
  Let h := map (fun p => UMerge (fst p) (snd p)) (filter f (cyclic l)).

  Lemma steps_run ps uf : incl ps (cyclic l) -> foldM (segment_step fuel m u) ps uf = foldM uf_exec (map (fun p => UMerge (fst p) (snd p)) (filter f ps)) uf.
  Proof.
    destruct (C95_neighbours m F fuel u lk HB Hu) as (_ & d & _ & Hd & _ & _ & He).
    revert uf. induction ps as [|[v w] ps IH]; intros uf Hi; [reflexivity|].
    assert (Hvw : In (v, w) (cyclic l)) by (apply Hi; simpl; auto). apply cyclic_In in Hvw. destruct Hvw as (i & H1 & H2).
    apply nth_error_In in H1, H2. apply Hin in H1, H2.
    cbn [foldM]. unfold segment_step at 1. rewrite (He v (Hd v H1)). destruct (in_dec Nat.eq_dec v lk) as [_|n]; [|contradiction]. cbn [bind].
    destruct (C95_neighbours m F fuel v (ln v) HB (Hl v H1)) as (_ & d' & _ & _ & _ & _ & He').
    rewrite (He' w (Hd w H2)). cbn [bind filter].
    change (f (v, w)) with (if in_dec Nat.eq_dec w (ln v) then true else false).
    destruct (in_dec Nat.eq_dec w (ln v)) as [Y|N].
    - cbn [map foldM fst snd uf_exec]. destruct (uf_merge uf v w) as [uf'| | |]; cbn [bind]; try reflexivity. apply IH. intros p Hp. apply Hi. simpl. auto.
    - cbn [bind]. apply IH. intros p Hp. apply Hi. simpl. auto.
  Qed.

  Lemma merged_h a b : In (a, b) (merged_pairs h) <-> joined fuel m l a b.
  Proof.
    unfold h. assert (G : forall ps, merged_pairs (map (fun p => UMerge (fst p) (snd p)) ps) = ps).
    { induction ps as [|[v w] ps IH]; cbn [map merged_pairs fst snd]; [reflexivity|]. rewrite IH. reflexivity. }
    rewrite G, filter_In, cyclic_In. unfold f. cbn [fst snd]. split.
    - intros [(i & H1 & H2) H3]. exists i. refine (conj H1 (conj H2 _)). exists (ln a). split; [apply Hl, Hin; eapply nth_error_In; eauto|]. destruct (in_dec Nat.eq_dec b (ln a)); [auto|discriminate].
    - intros (i & H1 & H2 & k & H3 & H4). split; [eauto|]. rewrite (Hl a) in H3 by (apply Hin; eapply nth_error_In; eauto). injection H3 as <-. destruct (in_dec Nat.eq_dec b (ln a)); [auto|contradiction].
  Qed.

  Lemma connected_joined a b : connected (merged_pairs h) a b <-> clos_refl_sym_trans nat (joined fuel m l) a b.
  Proof.
    unfold connected. split; induction 1 as [x y H|x|x y _ IH|x y z _ IH1 _ IH2]; try (constructor; assumption).
    - apply rst_step, merged_h, H.
    - eapply rst_trans; eauto.
    - apply rst_step, merged_h, H.
    - eapply rst_trans; eauto.
  Qed.

  Lemma segments_classes order : (forall x, Permutation (order x) x) -> l <> [] -> exists n, segments fuel order m u l = Ok n /\ classes (joined fuel m l) l n.
  Proof.
    intros Ho Hne. destruct (C21_classes l h) as (uf & rep & E & H1 & H2 & _ & _ & _ & H3 & _).
    - intros o v H4 H5. unfold h in H4. apply in_map_iff in H4. destruct H4 as ([a b] & <- & H4). apply filter_In in H4. destruct H4 as [H4 _]. apply cyclic_In in H4. destruct H4 as (i & H6 & H7). cbn in H5. apply nth_error_In in H6, H7. destruct H5 as [<-|[<-|[]]]; assumption.
    - destruct (H3 order Ho) as (uf' & r & E' & Hr & Hr'). exists (length r). split.
      + assert (Es : segments fuel order m u l = let* uf := foldM (segment_step fuel m u) (cyclic l) (uf_init l) in let* (_, roots) := uf_roots order uf in Ok (length roots)).
        { unfold segments. clear - Hne. destruct l; [congruence|reflexivity]. }
        rewrite Es, steps_run by apply incl_refl. fold h. unfold uf_run in E. rewrite E. cbn [bind]. rewrite E'. reflexivity.
      + exists r. refine (conj eq_refl (conj Hr (conj _ _))).
        * intros x Hx. apply Hr' in Hx. tauto.
        * intros x Hx. exists (rep x). destruct (H2 x Hx) as [H4 H5]. split; [apply Hr'; auto|]. split.
          -- apply connected_joined, H1; auto.
          -- intros r' H6 H7. apply Hr' in H6. destruct H6 as [H6 H8]. apply connected_joined in H7. apply H1 in H7; auto. congruence.
  Qed.
End Segments.

Definition value (m : mesh) (w : nat) : Z := match data m w with Ok e => e | _ => 0%Z end.

Lemma filterM_data m g l : (forall w, In w l -> exists e, data m w = Ok e) -> filterM (fun w => let* e := data m w in Ok (g e)) l = Ok (filter (fun w => g (value m w)) l).
Proof.
  induction l as [|w l IH]; intro H; [reflexivity|]. cbn [filterM filter]. unfold value at 1. destruct (H w (or_introl eq_refl)) as (e & He). rewrite He. cbn [bind]. rewrite IH by (intros; apply H; simpl; auto). reflexivity.
Qed.

(** The two numbers are the numbers of segments of the neighbours that are not higher and not lower *)
Theorem C122_segments : forall m F fuel order u lk, built m F -> (forall l, Permutation (order l) l) ->
  link fuel m u = Ok lk -> (forall w, In w lk -> exists k, link fuel m w = Ok k) ->
  let lower := filter (fun w => (value m w <=? value m u)%Z) lk in
  let upper := filter (fun w => (value m u <=? value m w)%Z) lk in
  lower <> [] -> upper <> [] ->
  exists nl nu, contiguousSegments fuel order m u = Ok (nl, nu) /\ classes (joined fuel m lower) lower nl /\ classes (joined fuel m upper) upper nu.
Proof.
  intros m F fuel order u lk HB Ho Hu Hl lower upper Hlo Hup.
  destruct (C95_neighbours m F fuel u lk HB Hu) as (_ & d & Hd & Hd' & _).
  assert (Hln : exists ln, forall w, In w lk -> link fuel m w = Ok (ln w)).
  { exists (fun w => match link fuel m w with Ok k => k | _ => [] end). intros w Hw. destruct (Hl w Hw) as (k & ->). reflexivity. }
  destruct Hln as (ln & Hln).
  assert (I1 : incl lower lk) by (intros x Hx; apply filter_In in Hx; tauto).
  assert (I2 : incl upper lk) by (intros x Hx; apply filter_In in Hx; tauto).
  destruct (segments_classes m F fuel u lk ln HB Hu Hln lower I1 order Ho Hlo) as (nl & E1 & C1).
  destruct (segments_classes m F fuel u lk ln HB Hu Hln upper I2 order Ho Hup) as (nu & E2 & C2).
  exists nl, nu. split; [|auto]. unfold contiguousSegments. rewrite Hd. cbn [bind]. rewrite Hu. cbn [bind].
  assert (V : value m u = d) by (unfold value; rewrite Hd; reflexivity). subst d.
  rewrite (filterM_data m (fun e => (value m u <=? e)%Z) lk Hd'). cbn [bind]. rewrite (filterM_data m (fun e => (e <=? value m u)%Z) lk Hd'). cbn [bind].
  fold lower upper. rewrite E1. cbn [bind]. rewrite E2. reflexivity.
Qed.

(** The classification *)
Theorem C122_kind : forall m F fuel order u lk k n, built m F -> link fuel m u = Ok lk -> classify fuel order m u = Ok (k, n) ->
  contiguousSegments fuel order m u = Ok n /\
  (k = Maximum <-> forall w, In w lk -> (value m w <= value m u)%Z) /\
  (k = Minimum <-> (exists w, In w lk /\ (value m u < value m w)%Z) /\ forall w, In w lk -> (value m u <= value m w)%Z).
Proof.
  intros m F fuel order u lk k n HB Hu H. destruct (C95_neighbours m F fuel u lk HB Hu) as (_ & d & Hd & Hd' & L & U & _).
  unfold classify in H. rewrite L, U in H. cbn [bind] in H. inv_bind H as n' En. injection H as Hk <-. split; [assumption|].
  assert (V : value m u = d) by (unfold value; rewrite Hd; reflexivity). subst d.
  set (hi := filter _ lk) in Hk at 1. set (lo := filter _ lk) in Hk.
  assert (Ehi : forall w, In w hi <-> In w lk /\ (value m u < value m w)%Z).
  { intro w. unfold hi. rewrite filter_In. split; intros [H1 H2]; destruct (Hd' w H1) as (e & He); unfold value in *; rewrite He in *; [split; [auto|lia]|split; [auto|lia]]. }
  assert (Elo : forall w, In w lo <-> In w lk /\ (value m w < value m u)%Z).
  { intro w. unfold lo. rewrite filter_In. split; intros [H1 H2]; destruct (Hd' w H1) as (e & He); unfold value in *; rewrite He in *; [split; [auto|lia]|split; [auto|lia]]. }
  clearbody hi lo. split.
  - rewrite <- Hk. split.
    + intros K w Hw. destruct hi as [|a hi]; [|destruct lo; discriminate]. destruct (Z_lt_le_dec (value m u) (value m w)) as [Q|Q]; [|exact Q]. exfalso. assert (In w []) by (apply Ehi; auto). contradiction.
    + intros K. destruct hi as [|a hi]; [reflexivity|]. exfalso. destruct (proj1 (Ehi a)) as [H1 H2]; [simpl; auto|]. apply K in H1. lia.
  - rewrite <- Hk. split.
    + intro K. destruct hi as [|a hi]; [discriminate|]. destruct lo as [|b lo]; [|discriminate]. split; [exists a; apply Ehi; simpl; auto|].
      intros w Hw. destruct (Z_lt_le_dec (value m w) (value m u)) as [Q|Q]; [|exact Q]. exfalso. assert (In w []) by (apply Elo; auto). contradiction.
    + intros [(w & H1 & H2) K]. destruct hi as [|a hi]; [exfalso; assert (In w []) by (apply Ehi; auto); contradiction|]. destruct lo as [|b lo]; [reflexivity|]. exfalso. destruct (proj1 (Elo b)) as [H3 H4]; [simpl; auto|]. apply K in H3. lia.
Qed.

(** The report contains every vertex, in the order of the hash map *)
Theorem C122_report : forall m fuel order r, morseSmale fuel order m = Ok r -> map fst r = m_vertices order m /\ forall u c, In (u, c) r -> classify fuel order m u = Ok c.
Proof.
  intros m fuel order r. unfold morseSmale. generalize (m_vertices order m) as vs. intro vs.
  assert (G : forall vs acc r, foldM (fun acc u => let* c := classify fuel order m u in Ok (acc ++ [(u, c)])) vs acc = Ok r -> map fst r = map fst acc ++ vs /\ forall u c, In (u, c) r -> In (u, c) acc \/ classify fuel order m u = Ok c).
  { clear. induction vs as [|v vs IH]; intros acc r H; cbn [foldM] in H.
    - injection H as <-. rewrite app_nil_r. auto.
    - destruct (classify fuel order m v) as [c| | |] eqn:E; cbn [bind] in H; try discriminate. apply IH in H. destruct H as [H1 H2]. rewrite H1, map_app. split; [cbn; rewrite <- app_assoc; reflexivity|].
      intros u c' Hu. destruct (H2 u c' Hu) as [H3|H3]; [|auto]. apply in_app_or in H3. destruct H3 as [H3|[H3|[]]]; [auto|]. injection H3 as <- <-. auto. }
  intro H. apply G in H. destruct H as [H1 H2]. split; [exact H1|]. intros u c Hu. destruct (H2 u c Hu) as [[]|?]; assumption.
Qed.

(** Strict extrema: one of the links is empty, and its end is incremented *)
Theorem C122_extremum_refuted : forall m F fuel order u lk, built m F -> link fuel m u = Ok lk -> (forall l, Permutation (order l) l) -> (forall w, In w lk -> exists k, link fuel m w = Ok k) ->
  (forall w, In w lk -> (value m w < value m u)%Z) \/ (forall w, In w lk -> (value m u < value m w)%Z) -> contiguousSegments fuel order m u = UB.
Proof.
  intros m F fuel order u lk HB Hu Ho Hl H.
  destruct (C95_neighbours m F fuel u lk HB Hu) as (_ & d & Hd & Hd' & _).
  assert (Hln : exists ln, forall w, In w lk -> link fuel m w = Ok (ln w)).
  { exists (fun w => match link fuel m w with Ok k => k | _ => [] end). intros w Hw. destruct (Hl w Hw) as (k & ->). reflexivity. }
  destruct Hln as (ln & Hln).
  assert (V : value m u = d) by (unfold value; rewrite Hd; reflexivity). subst d.
  unfold contiguousSegments. rewrite Hd. cbn [bind]. rewrite Hu. cbn [bind].
  rewrite (filterM_data m (fun e => (value m u <=? e)%Z) lk Hd'). cbn [bind]. rewrite (filterM_data m (fun e => (e <=? value m u)%Z) lk Hd'). cbn [bind].
  assert (E : forall (g : nat -> bool), (forall w, In w lk -> g w = false) -> filter g lk = []).
  { intros g Hg. clear - Hg. induction lk as [|a l IH]; [reflexivity|]. cbn [filter]. rewrite Hg by (simpl; auto). apply IH. intros; apply Hg; simpl; auto. }
  destruct H as [H|H].
  - rewrite (E (fun w => (value m u <=? value m w)%Z)) by (intros w Hw; specialize (H w Hw); apply Z.leb_gt; exact H).
    set (lower := filter _ lk). assert (I1 : incl lower lk) by (intros x Hx; apply filter_In in Hx; tauto).
    clearbody lower. destruct lower as [|a lo]; [reflexivity|].
    destruct (segments_classes m F fuel u lk ln HB Hu Hln (a :: lo) I1 order Ho ltac:(discriminate)) as (nl & E1 & _). rewrite E1. reflexivity.
  - rewrite (E (fun w => (value m w <=? value m u)%Z)) by (intros w Hw; specialize (H w Hw); apply Z.leb_gt; exact H). reflexivity.
Qed.

(** A mesh of nine vertices with the values of [vals]: the faces of the third test *)
Definition valued (vals : list Z) (F : list (list nat)) : outcome mesh :=
  let* m := foldM (fun m d => addVertex m 0 0 0 d None) vals m_empty in
  foldM (fun m f => addFace 50 idl m f) F m.
Example C122_example : exists m, valued [5; 1; 5; 1; 3; 1; 5; 1; 5]%Z fan = Ok m /\ link 50 m 4 = Ok [1; 2; 5; 8; 7; 6; 3; 0] /\ classify 50 idl m 4 = Ok (Saddle, (4, 4)).
Proof. eexists. split; [vm_compute; reflexivity|]. split; vm_compute; reflexivity. Qed.
(** horizontal rows of equal values: the whole report *)
Example C122_report_example : exists m, valued [0; 0; 0; 1; 1; 1; 2; 2; 2]%Z fan = Ok m /\ morseSmale 50 idl m = Ok
  [(0, (Minimum, (1, 1))); (1, (Minimum, (2, 1))); (2, (Minimum, (1, 1))); (3, (Saddle, (1, 1))); (4, (Saddle, (1, 1))); (5, (Saddle, (1, 1))); (6, (Maximum, (1, 1))); (7, (Maximum, (1, 2))); (8, (Maximum, (1, 1)))].
Proof. eexists. split; [vm_compute; reflexivity|]. vm_compute; reflexivity. Qed.
(** Regular vertices are reported as saddles: vertex 4 of a grid with ascending values has one
    lower and one upper segment *)
Theorem C122_regular_refuted : exists m, valued [0; 1; 2; 3; 4; 5; 6; 7; 8]%Z fan = Ok m /\ classify 50 idl m 4 = Ok (Saddle, (1, 1)).
Proof. eexists. split; [vm_compute; reflexivity|]. vm_compute; reflexivity. Qed.
(** The test of the project itself increments the end of an empty vector *)
Example C122_test : exists m, valued [0; 1; 0; 1; 2; 1; 0; 1; 0]%Z fan = Ok m /\ classify 50 idl m 4 = UB /\ morseSmale 50 idl m = UB.
Proof. eexists. split; [vm_compute; reflexivity|]. split; vm_compute; reflexivity. Qed.

Print Assumptions C122_segments.
Print Assumptions C122_kind.
Print Assumptions C122_report.
Print Assumptions C122_extremum_refuted.
