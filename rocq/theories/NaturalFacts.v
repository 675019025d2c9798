(** * The permutation algorithms do not look at the elements. *)

From Coq Require Import List Arith Bool Lia.
From Verif Require Import Base BaseFacts TopDown SpecCombine Combine CombineFacts Permute.
Import ListNotations.

Section Natural.
Context {T X Y : Type}.
Variable h : X -> Y.

Definition mo (r : outcome (bool * T * list X)) : outcome (bool * T * list Y) :=
  let* q := r in Ok (fst q, map h (snd q)).
Definition mv (r : outcome (list X)) : outcome (list Y) := let* v := r in Ok (map h v).

Definition natural (f : T -> list X -> outcome (bool * T * list X)) (fy : T -> list Y -> outcome (bool * T * list Y)) : Prop :=
  forall st v, fy st (map h v) = mo (f st v).

Lemma upd_natural v : forall i (x : X), upd (map h v) i (h x) = map h (upd v i x).
Proof. induction v as [|a v IH]; intros [|i] x; cbn [map upd]; auto. rewrite IH. reflexivity. Qed.

Lemma get_natural (v : list X) i : get_ (map h v) i = let* x := get_ v i in Ok (h x).
Proof. unfold get_. rewrite nth_error_map. destruct (nth_error v i); reflexivity. Qed.

Lemma swap_natural i j v : swap_at i j (map h v) = mv (swap_at i j v).
Proof.
  unfold swap_at, mv. rewrite !get_natural. destruct (get_ v i); try reflexivity. cbn [bind]. destruct (get_ v j); try reflexivity. cbn [bind]. rewrite !upd_natural. reflexivity.
Qed.

Lemma rotate_natural a b c (v : list X) : rotate a b c (map h v) = map h (rotate a b c v).
Proof. unfold rotate. rewrite !map_app. repeat rewrite ?firstn_map, ?skipn_map. reflexivity. Qed.

Lemma reverse_natural a b (v : list X) : std_reverse a b (map h v) = map h (std_reverse a b v).
Proof. unfold std_reverse. rewrite !map_app, map_rev. repeat rewrite ?firstn_map, ?skipn_map. reflexivity. Qed.

Lemma swaps_natural (I J : nat -> nat) l : forall v, foldM (fun v i => swap_at (I i) (J i) v) l (map h v) = mv (foldM (fun v i => swap_at (I i) (J i) v) l v).
Proof.
  induction l as [|i l IH]; intro v; cbn [foldM]; [reflexivity|]. rewrite swap_natural. unfold mv at 1. destruct (swap_at (I i) (J i) v); try reflexivity. cbn [bind]. apply IH.
Qed.

Lemma rotate_disc_natural a d1 b d2 v : rotate_discontinuous a d1 b d2 (map h v) = mv (rotate_discontinuous a d1 b d2 v).
Proof.
  unfold rotate_discontinuous. destruct (d1 <=? d2); rewrite swaps_natural; unfold mv;
    match goal with |- context [foldM ?f ?l ?v] => destruct (foldM f l v) end; try reflexivity; cbn [bind]; rewrite rotate_natural; reflexivity.
Qed.

Lemma rotate_disc3_natural a d1 b d2 c d3 v : rotate_discontinuous3 a d1 b d2 c d3 (map h v) = mv (rotate_discontinuous3 a d1 b d2 c d3 v).
Proof.
  unfold rotate_discontinuous3. rewrite rotate_disc_natural. unfold mv at 1. destruct (rotate_discontinuous a d1 b d2 v); try reflexivity. cbn [bind].
  destruct (d1 <=? d2); [apply rotate_disc_natural|]. rewrite rotate_disc_natural. unfold mv at 1.
  destruct (rotate_discontinuous (a + d2) (d1 - d2) c d3 a0); try reflexivity. cbn [bind]. apply rotate_disc_natural.
Qed.

Lemma until_natural r ry k ky : ry = mo r -> natural k ky -> until ry ky = mo (until r k).
Proof.
  intros -> H. unfold until, mo. destruct r as [[[b s] v]| | |]; try reflexivity. cbn [bind fst snd]. destruct b; [reflexivity|]. rewrite H. reflexivity.
Qed.

Lemma swapped_natural i j v k ky : (forall v, ky (map h v) = mo (k v)) -> swapped i j (map h v) ky = mo (swapped i j v k).
Proof. intro H. unfold swapped. rewrite swap_natural. unfold mv. destruct (swap_at i j v); try reflexivity. cbn [bind]. apply H. Qed.

Lemma ok_natural b st v : Ok (b, st, map h v) = mo (Ok (b, st, v)).
Proof. reflexivity. Qed.

Lemma permute3_natural f fy i : natural f fy -> natural (permute3 f i) (permute3 fy i).
Proof.
  intros H st v. unfold permute3.
  repeat first [apply H | apply until_natural; [apply H|intros ? ?] | apply swapped_natural; intros ?].
Qed.

Lemma permute_loop_natural sub suby i d : natural sub suby -> natural (permute_loop sub i d) (permute_loop suby i d).
Proof.
  intros H. unfold permute_loop. generalize (d - 1), (i + 1) at 2 4. intro n. induction n as [|n IH]; intros p st v; [apply H|].
  apply until_natural; [apply H|]. intros s w. cbv zeta. rewrite reverse_natural. apply swapped_natural. intro u. apply IH.
Qed.

Lemma permute__natural f fy n : natural f fy -> forall i, natural (permute_ f n i) (permute_ fy n i).
Proof.
  intros H. induction n as [|n IH]; intro i; [exact H|]. destruct n as [|[|[|n]]].
  - exact H.
  - intros st v. cbn [permute_]. apply until_natural; [apply H|]. intros s w. apply swapped_natural. intro u. apply H.
  - apply permute3_natural. exact H.
  - intros st v. apply permute_loop_natural. apply IH.
Qed.

Lemma permute_natural f fy n i : natural f fy -> natural (permute f n i) (permute fy n i).
Proof.
  intros H. destruct n as [|[|[|[|n]]]]; try exact H; intros st v; unfold permute.
  - apply until_natural; [apply H|]. intros s w. apply swapped_natural. intro u. apply until_natural; [apply H|]. intros s' w'. apply swapped_natural. intro u'. reflexivity.
  - apply until_natural; [apply permute3_natural, H|]. intros s w. apply swapped_natural. intro u. reflexivity.
  - apply until_natural; [apply permute_loop_natural, permute__natural, H|]. intros s w. rewrite reverse_natural. reflexivity.
Qed.

Lemma combine_natural f fy : natural f fy -> forall d1 a b d2 d, natural (combine_discontinuous f d1 a b d2 d) (combine_discontinuous fy d1 a b d2 d).
Proof.
  intro H. induction d1 as [|d1 IH]; intros a b d2 d st v; cbn [combine_discontinuous]; [apply H|]. destruct (d2 =? 0); [apply H|].
  match goal with |- context [(?L d2 b st (map h v))] => set (ly := L) end.
  match goal with |- context [(?L d2 b st v)] => set (lx := L) end.
  assert (HL : forall n i, natural (lx n i) (ly n i)).
  { induction n as [|n IHn]; intros i s w; cbn [lx ly]; [reflexivity|].
    assert (HB : (if d1 =? 0 then fy s (map h w) else combine_discontinuous fy d1 (a + 1) i (S n) (d + 1) s (map h w)) = mo (if d1 =? 0 then f s w else combine_discontinuous f d1 (a + 1) i (S n) (d + 1) s w)) by (destruct (d1 =? 0); [apply H|apply IH]).
    rewrite HB. destruct (if d1 =? 0 then f s w else combine_discontinuous f d1 (a + 1) i (S n) (d + 1) s w) as [[[b0 s0] w0]| | |]; try reflexivity. unfold mo at 1. cbn [bind fst snd]. destruct b0; [reflexivity|].
    rewrite swap_natural. unfold mv. destruct (swap_at a i w0); try reflexivity. cbn [bind]. apply IHn. }
  rewrite HL. unfold mo at 1. destruct (lx d2 b st v) as [[[b0 s0] w0]| | |]; try reflexivity. cbn [bind fst snd]. destruct b0; [reflexivity|].
  rewrite H. unfold mo at 1. destruct (f s0 w0) as [[[b1 s1] w1]| | |]; try reflexivity. cbn [bind fst snd]. destruct b1; [reflexivity|].
  rewrite !rotate_disc_natural. destruct (d =? 0); unfold mv; match goal with |- context [rotate_discontinuous ?p ?q ?r ?s ?u] => destruct (rotate_discontinuous p q r s u) end; reflexivity.
Qed.

Lemma swap_loop_natural body bodyy i n : (forall a b, natural (body a b) (bodyy a b)) -> forall j, natural (swap_loop body i n j) (swap_loop bodyy i n j).
Proof.
  intro H. induction n as [|n IH]; intros j st v; cbn [swap_loop]; [reflexivity|]. apply until_natural; [apply H|]. intros s w. apply swapped_natural. intro u. apply IH.
Qed.

Lemma combine3__natural f fy : natural f fy -> forall d1 a b d2 c d3 d, natural (combine_discontinuous3_ f d1 a b d2 c d3 d) (combine_discontinuous3_ fy d1 a b d2 c d3 d).
Proof.
  intro H. induction d1 as [|d1 IH]; intros a b d2 c d3 d st v; [reflexivity|]. cbn [combine_discontinuous3_]. apply until_natural.
  - destruct (d1 =? 0).
    + apply until_natural; [apply swap_loop_natural; intros; exact H|]. intros s w. apply until_natural; [apply H|]. intros s' w'.
      apply swapped_natural. intro u. apply swapped_natural. intro u'. apply swap_loop_natural. intros. exact H.
    + apply until_natural; [apply swap_loop_natural; intros; apply IH|]. intros s w. apply swap_loop_natural. intros. apply combine_natural, H.
  - intros s w. apply until_natural; [apply H|]. intros s' w'.
    assert (E1 : (if d1 =? 0 then swap_at (b + (d2 - 1)) c (map h w') else Ok (map h w')) = mv (if d1 =? 0 then swap_at (b + (d2 - 1)) c w' else Ok w')) by (destruct (d1 =? 0); [apply swap_natural|reflexivity]).
    rewrite E1. destruct (if d1 =? 0 then swap_at (b + (d2 - 1)) c w' else Ok w') as [z| | |]; try reflexivity. cbn [mv bind].
    assert (E2 : (if d =? 0 then rotate_discontinuous3 a (S d1) b d2 c d3 (map h z) else if 1 <? d2 then rotate_discontinuous3 a (S d1) (b + 1) (d2 - 1) c d3 (map h z) else rotate_discontinuous a (S d1) c d3 (map h z)) =
      mv (if d =? 0 then rotate_discontinuous3 a (S d1) b d2 c d3 z else if 1 <? d2 then rotate_discontinuous3 a (S d1) (b + 1) (d2 - 1) c d3 z else rotate_discontinuous a (S d1) c d3 z)).
    { destruct (d =? 0); [apply rotate_disc3_natural|]. destruct (1 <? d2); [apply rotate_disc3_natural|apply rotate_disc_natural]. }
    rewrite E2. match goal with |- bind (mv ?r) _ = _ => destruct r end; reflexivity.
Qed.

Lemma rev2_natural f fy a n b m : natural f fy -> natural (rev2 f a n b m) (rev2 fy a n b m).
Proof. intro H. unfold rev2. apply permute_natural, permute_natural, H. Qed.
Lemma rev3_natural f fy a n b m c o : natural f fy -> natural (rev3 f a n b m c o) (rev3 fy a n b m c o).
Proof. intro H. unfold rev3. apply permute_natural, rev2_natural, H. Qed.

Lemma rev_loop_natural f fy s a n : natural f fy -> forall i, natural (rev_loop f s a n i) (rev_loop fy s a n i).
Proof.
  intro H. induction n as [|n IH]; intros i st v; cbn [rev_loop]; [reflexivity|]. apply swapped_natural. intro u.
  apply until_natural; [apply combine_natural, rev2_natural, H|]. intros s' w. apply IH.
Qed.

Lemma rev_middle_natural f fy s s2 a n : natural f fy -> forall i, natural (rev_middle_loop f s s2 a n i) (rev_middle_loop fy s s2 a n i).
Proof.
  intro H. induction n as [|n IH]; intros i st v; cbn [rev_middle_loop]; [reflexivity|]. apply swapped_natural. intro u.
  apply until_natural; [unfold combine_discontinuous3; apply combine3__natural, combine_natural, rev3_natural, H|]. intros s' w. apply IH.
Qed.

Lemma reversible_natural f fy s a : natural f fy -> natural (reversible_permutation f s a) (reversible_permutation fy s a).
Proof.
  intros H st v. unfold reversible_permutation. destruct (s <? 3); [apply H|]. apply until_natural; [apply permute_natural, H|]. intros st1 v1. cbv zeta.
  apply until_natural; [apply rev_loop_natural, H|]. intros st2 v2. destruct (2 * (s / 2) =? s); [rewrite rotate_natural; reflexivity|]. destruct (s =? 3).
  - apply swapped_natural. intro u. apply until_natural; [apply H|]. intros st3 v3. apply swapped_natural. intro u3. reflexivity.
  - apply swapped_natural. intro u. apply until_natural; [apply combine_natural, rev2_natural, H|]. intros st3 v3.
    apply until_natural; [apply rev_middle_natural, H|]. intros st4 v4. apply swapped_natural. intro u4.
    apply until_natural; [apply combine_natural, rev2_natural, H|]. intros st5 v5. rewrite !reverse_natural. reflexivity.
Qed.

Lemma bound_natural (g : T -> list Y -> outcome (bool * T)) i k : natural (bound_range (fun st l => g st (map h l)) i k) (bound_range g i k).
Proof. intros st v. unfold bound_range, mo. rewrite skipn_map, firstn_map. destruct (g st (map h (firstn k (skipn i v)))); reflexivity. Qed.

Lemma for_each_permutation_natural (g : T -> list Y -> outcome (bool * T)) k : natural (for_each_permutation (fun st l => g st (map h l)) k) (for_each_permutation g k).
Proof. intros st v. unfold for_each_permutation. rewrite map_length. destruct (length v <? k); [reflexivity|]. apply combine_natural, permute_natural, bound_natural. Qed.

Lemma for_each_circular_natural (g : T -> list Y -> outcome (bool * T)) k : natural (for_each_circular_permutation (fun st l => g st (map h l)) k) (for_each_circular_permutation g k).
Proof.
  intros st v. unfold for_each_circular_permutation. rewrite map_length. destruct (length v <? k); [reflexivity|]. apply combine_natural. intros s w. unfold circular_permutation.
  destruct (k <=? 1); [apply bound_natural|]. apply permute_natural, bound_natural.
Qed.

Lemma for_each_reversible_natural (g : T -> list Y -> outcome (bool * T)) k : natural (for_each_reversible_permutation (fun st l => g st (map h l)) k) (for_each_reversible_permutation g k).
Proof. intros st v. unfold for_each_reversible_permutation. rewrite map_length. destruct (length v <? k); [reflexivity|]. apply combine_natural, reversible_natural, bound_natural. Qed.

Lemma for_each_reversible_circular_natural (g : T -> list Y -> outcome (bool * T)) k :
  natural (for_each_reversible_circular_permutation (fun st l => g st (map h l)) k) (for_each_reversible_circular_permutation g k).
Proof.
  intros st v. unfold for_each_reversible_circular_permutation. rewrite map_length. destruct (length v <? k); [reflexivity|]. apply combine_natural. intros s w.
  unfold reverse_circular_permutation. destruct (k =? 1); [apply bound_natural|]. destruct (k =? 0); [|apply reversible_natural, bound_natural].
  destruct w; [reflexivity|]. apply (bound_natural g 0 k s (x :: w)).
Qed.

Lemma visit_natural (g : T -> list Y -> outcome (bool * T)) l : forall st, visit g (map (map h) l) st = visit (fun st x => g st (map h x)) l st.
Proof. induction l as [|x l IH]; intro st; cbn [map visit]; [reflexivity|]. destruct (g st (map h x)) as [[[|] s]|e| |]; cbn [bind fst snd]; auto. Qed.

(** a result for one vector is a result for all vectors *)
Lemma natural_matches (p : (T -> list X -> outcome (bool * T)) -> T -> list X -> outcome (bool * T * list X)) py (g : T -> list Y -> outcome (bool * T)) v L st :
  natural (p (fun st l => g st (map h l))) py ->
  matches (p (fun st l => g st (map h l)) st v) (visit (fun st l => g st (map h l)) L st) v ->
  matches (py st (map h v)) (visit g (map (map h) L) st) (map h v).
Proof.
  intros H M. rewrite H, visit_natural. destruct (visit (fun st l => g st (map h l)) L st) as [[[|] s]| | |]; cbn [matches] in *.
  - destruct M as (w & ->). exists (map h w). reflexivity.
  - rewrite M. reflexivity.
  - rewrite M. reflexivity.
  - rewrite M. reflexivity.
  - rewrite M. reflexivity.
Qed.
End Natural.
