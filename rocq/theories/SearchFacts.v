(** * Breadth-first search (see [ExtendedHierarchy.v]). *)
From Coq Require Import List Arith Bool ZArith Lia Sorted Permutation Relations.
From Verif Require Import Base BaseFacts Matrix Simplex Complex UnionFind PairingFacts ExtendedHierarchy.
Import ListNotations.

Lemma mem_In x l : existsb (Nat.eqb x) l = true <-> In x l.
Proof. rewrite existsb_exists. split; [intros (y & H & E); apply Nat.eqb_eq in E; subst; exact H|intro H; exists x; split; [exact H|apply Nat.eqb_refl]]. Qed.

Section BFS.
  Variables (n : nat) (adj : list (list nat)) (u : nat).
  Hypothesis Hadj : length adj = n.
  Hypothesis Hlt : forall x y, In y (nth x adj []) -> y < n.
  Hypothesis Hu : u < n.

  Record binv (visited queue : list nat) (lv : nat -> nat) (p : list nat) : Prop := {
    b_nodup : NoDup (visited ++ queue);
    b_lt : forall x, In x (visited ++ queue) -> x < n;
    b_root : In u (visited ++ queue) /\ lv u = 0 /\ nth_error p u = Some u;
    b_tree : forall x, In x (visited ++ queue) -> x <> u ->
      exists y, nth_error p x = Some y /\ In y (visited ++ queue) /\ lv x = S (lv y) /\ In x (nth y adj []);
    b_done : forall x y, In x visited -> In y (nth x adj []) -> In y (visited ++ queue) /\ lv y <= S (lv x);
    b_order : forall x y, In x visited -> In y queue -> lv x <= lv y;
    b_sorted : StronglySorted (fun x y => lv x <= lv y) queue;
    b_spread : forall x y, In x queue -> In y queue -> lv y <= S (lv x);
    b_length : length p = n }.

  Definition level_set (lv : nat -> nat) (y k : nat) : nat -> nat := fun w => if w =? y then k else lv w.
  Lemma level_other lv y k w : w <> y -> level_set lv y k w = lv w.
  Proof. intro H. unfold level_set. destruct (Nat.eqb_spec w y); [contradiction|reflexivity]. Qed.
  Lemma level_same lv y k : level_set lv y k y = k.
  Proof. unfold level_set. rewrite Nat.eqb_refl. reflexivity. Qed.

  Lemma binv_push visited x q lv p y : binv visited (x :: q) lv p -> ~ In y (visited ++ x :: q) -> In y (nth x adj []) ->
    binv visited (x :: q ++ [y]) (level_set lv y (S (lv x))) (upd p y x).
  Proof.
    intros B Hy Hxy. pose proof (Hlt x y Hxy) as Hyn. destruct B as [B1 B2 B3 B4 B5 B6 B7 B8 B9].
    assert (Old : forall w, In w (visited ++ x :: q) -> level_set lv y (S (lv x)) w = lv w) by (intros w Hw; apply level_other; intros ->; contradiction).
    assert (Mem : forall w, In w (visited ++ x :: q ++ [y]) <-> In w (visited ++ x :: q) \/ w = y).
    { intro w. change (x :: q ++ [y]) with ((x :: q) ++ [y]). rewrite app_assoc, in_app_iff. simpl. split; [intros [H|[<-|[]]]; auto|intros [H| ->]; auto]. }
    assert (Px : forall w, w <> y -> nth_error (upd p y x) w = nth_error p w) by (intros w Hw; apply nth_error_upd_neq; congruence).
    assert (InX : In x (visited ++ x :: q)) by (apply in_or_app; simpl; auto).
    assert (InV : forall w, In w visited -> In w (visited ++ x :: q)) by (intros; apply in_or_app; auto).
    assert (InQ : forall w, In w (x :: q) -> In w (visited ++ x :: q)) by (intros; apply in_or_app; auto).
    assert (Hd : forall w, In w (x :: q) -> lv x <= lv w).
    { intros w [<-|Hw]; [lia|]. inversion B7 as [|? ? _ F]; subst. rewrite Forall_forall in F. apply F. exact Hw. }
    assert (MemQ : forall w, In w (x :: q ++ [y]) <-> In w (x :: q) \/ w = y).
    { intro w. change (x :: q ++ [y]) with ((x :: q) ++ [y]). rewrite in_app_iff. simpl. split; [intros [H|[<-|[]]]; auto|intros [H| ->]; auto]. }
    constructor.
    - change (x :: q ++ [y]) with ((x :: q) ++ [y]). rewrite app_assoc. apply NoDup_app_intro; [exact B1|constructor; [intros []|constructor]|]. intros w Hw [<-|[]]. contradiction.
    - intros w Hw. apply Mem in Hw. destruct Hw as [Hw| ->]; auto.
    - destruct B3 as (H1 & H2 & H3). refine (conj (proj2 (Mem u) (or_introl H1)) (conj _ _)); [rewrite Old; assumption|]. rewrite Px; [exact H3|]. intros ->. contradiction.
    - intros w Hw Hwu. apply Mem in Hw. destruct Hw as [Hw| ->].
      + destruct (B4 w Hw Hwu) as (z & H1 & H2 & H3 & H4). exists z. rewrite Px by (intros ->; contradiction). refine (conj H1 (conj _ (conj _ H4))); [apply Mem; auto|rewrite !Old; assumption].
      + exists x. refine (conj _ (conj _ (conj _ Hxy))); [apply nth_error_upd_eq; rewrite B9; exact Hyn|apply Mem; auto|]. rewrite level_same, (Old x InX). reflexivity.
    - intros a b Ha Hb. destruct (B5 a b Ha Hb) as [H1 H2]. split; [apply Mem; auto|rewrite !Old; auto].
    - intros a b Ha Hb. apply MemQ in Hb. rewrite (Old a (InV a Ha)). destruct Hb as [Hb| ->]; [rewrite (Old b (InQ b Hb)); auto|]. rewrite level_same.
      pose proof (B6 a x Ha (or_introl eq_refl)). lia.
    - change (x :: q ++ [y]) with ((x :: q) ++ [y]). assert (G : forall l, (forall w, In w l -> In w (x :: q)) -> StronglySorted (fun a b => lv a <= lv b) l -> StronglySorted (fun a b => level_set lv y (S (lv x)) a <= level_set lv y (S (lv x)) b) (l ++ [y])).
      { induction l as [|a l IH]; intros Hl HS; [constructor; constructor|]. inversion HS as [|? ? HS' HF]; subst. cbn [app]. constructor; [apply IH; [intros; apply Hl; simpl; auto|exact HS']|].
        apply Forall_forall. intros w Hw. apply in_app_or in Hw. rewrite (Old a (InQ a (Hl a (or_introl eq_refl)))). destruct Hw as [Hw|[<-|[]]].
        - rewrite (Old w (InQ w (Hl w (or_intror Hw)))). rewrite Forall_forall in HF. apply HF. exact Hw.
        - rewrite level_same. apply (B8 x a); [simpl; auto|apply Hl; simpl; auto]. }
      apply G; [auto|exact B7].
    - intros a b Ha Hb. apply MemQ in Ha, Hb. destruct Ha as [Ha| ->], Hb as [Hb| ->].
      + rewrite (Old a (InQ a Ha)), (Old b (InQ b Hb)). apply B8; assumption.
      + rewrite level_same, (Old a (InQ a Ha)). specialize (Hd a Ha). lia.
      + rewrite level_same, (Old b (InQ b Hb)). pose proof (B8 x b (or_introl eq_refl) Hb). lia.
      + lia.
    - rewrite upd_length. exact B9.
  Qed.

  Lemma binv_pop visited x q lv p : binv visited (x :: q) lv p -> (forall y, In y (nth x adj []) -> In y (visited ++ x :: q) /\ lv y <= S (lv x)) -> binv (visited ++ [x]) q lv p.
  Proof.
    intros [B1 B2 B3 B4 B5 B6 B7 B8 B9] H. assert (E : (visited ++ [x]) ++ q = visited ++ x :: q) by (rewrite <- app_assoc; reflexivity).
    assert (S0 : StronglySorted (fun x y => lv x <= lv y) q /\ Forall (fun y => lv x <= lv y) q) by (inversion B7; auto). destruct S0 as [S1 S2]. rewrite Forall_forall in S2.
    constructor; rewrite ?E; auto.
    - intros a b Ha Hb. apply in_app_or in Ha. destruct Ha as [Ha|[<-|[]]]; auto.
    - intros a b Ha Hb. apply in_app_or in Ha. destruct Ha as [Ha|[<-|[]]]; [apply B6; simpl; auto|auto].
    - intros a b Ha Hb. apply B8; simpl; auto.
  Qed.

  Lemma bfs_inner x visited : forall l q seen lv p, (forall y, In y l -> In y (nth x adj [])) -> binv visited (x :: q) lv p -> (forall w, In w seen <-> In w (visited ++ x :: q)) ->
    exists q' seen' lv' p', fold_left (bfs_visit x) l (q, seen, p) = (q', seen', p') /\ binv visited (x :: q') lv' p' /\ (forall w, In w seen' <-> In w (visited ++ x :: q')) /\
      (forall w, In w (visited ++ x :: q) -> In w (visited ++ x :: q') /\ lv' w = lv w) /\ forall y, In y l -> In y (visited ++ x :: q') /\ lv' y <= S (lv' x).
  Proof.
    induction l as [|y l IH]; intros q seen lv p Hl B Hs.
    - exists q, seen, lv, p. refine (conj eq_refl (conj B (conj Hs (conj _ _)))); [auto|intros y []].
    - assert (Hxy : In y (nth x adj [])) by (apply Hl; simpl; auto). assert (InX : In x (visited ++ x :: q)) by (apply in_or_app; simpl; auto). cbn [fold_left]. unfold bfs_visit at 2. destruct (existsb (Nat.eqb y) seen) eqn:Ey.
      + apply mem_In in Ey. apply Hs in Ey. destruct (IH q seen lv p) as (q' & seen' & lv' & p' & E & B' & Hs' & Hk & Hd); [intros; apply Hl; simpl; auto|exact B|exact Hs|].
        exists q', seen', lv', p'. refine (conj E (conj B' (conj Hs' (conj Hk _)))). intros z [<-|Hz]; [|auto]. destruct (Hk y Ey) as [H1 H2]. split; [exact H1|]. rewrite H2, (proj2 (Hk x InX)).
        apply in_app_or in Ey. destruct Ey as [Ey|Ey]; [pose proof (b_order _ _ _ _ B y x Ey (or_introl eq_refl)); lia|]. apply (b_spread _ _ _ _ B x y); [simpl; auto|exact Ey].
      + assert (Hn : ~ In y (visited ++ x :: q)) by (intro H; apply Hs in H; apply mem_In in H; congruence).
        destruct (IH (q ++ [y]) (y :: seen) (level_set lv y (S (lv x))) (upd p y x)) as (q' & seen' & lv' & p' & E & B' & Hs' & Hk & Hd).
        { intros; apply Hl; simpl; auto. }
        { apply binv_push; assumption. }
        { intro w. change (x :: q ++ [y]) with ((x :: q) ++ [y]). rewrite app_assoc, (in_app_iff (visited ++ x :: q) [y]), <- Hs. simpl. tauto. }
        assert (Hk2 : forall w, In w (visited ++ x :: q) -> In w (visited ++ x :: q') /\ lv' w = lv w).
        { intros w Hw. destruct (Hk w) as [H1 H2]; [change (x :: q ++ [y]) with ((x :: q) ++ [y]); rewrite app_assoc; apply in_or_app; auto|]. split; [exact H1|]. rewrite H2. apply level_other. intros ->. contradiction. }
        exists q', seen', lv', p'. refine (conj E (conj B' (conj Hs' (conj Hk2 _)))). intros z [<-|Hz]; [|auto].
        destruct (Hk y) as [H1 H2]; [change (x :: q ++ [y]) with ((x :: q) ++ [y]); rewrite app_assoc; apply in_or_app; simpl; auto|]. split; [exact H1|]. rewrite H2, level_same, (proj2 (Hk2 x InX)). lia.
  Qed.

  Lemma bfs_run : forall fuel visited q seen lv p, binv visited q lv p -> (forall w, In w seen <-> In w (visited ++ q)) -> n <= fuel + length visited ->
    exists p' all lv', bfs fuel adj q seen p = Ok p' /\ binv all [] lv' p'.
  Proof.
    induction fuel as [|fuel IH]; intros visited q seen lv p B Hs Hf; destruct q as [|x q]; cbn [bfs].
    - exists p, visited, lv. auto.
    - exfalso. assert (L : length (visited ++ x :: q) <= n).
      { rewrite <- (seq_length n 0). apply NoDup_incl_length; [apply (b_nodup _ _ _ _ B)|]. intros w Hw. apply in_seq. pose proof (b_lt _ _ _ _ B w Hw). lia. }
      rewrite app_length in L. simpl in L. lia.
    - exists p, visited, lv. auto.
    - assert (Hx : x < n) by (apply (b_lt _ _ _ _ B); apply in_or_app; simpl; auto). assert (E : get_ adj x = Ok (nth x adj [])) by (apply get_ok, nth_error_nth'; lia). rewrite E. cbn [bind].
      destruct (bfs_inner x visited (nth x adj []) q seen lv p (fun y H => H) B Hs) as (q' & seen' & lv' & p' & E' & B' & Hs' & _ & Hd). rewrite E'.
      apply (IH (visited ++ [x]) q' seen' lv' p'); [apply binv_pop; assumption| |rewrite app_length; simpl; lia]. intro w. rewrite Hs', <- app_assoc. reflexivity.
  Qed.

  (** Breadth-first search yields a tree of shortest paths. *)
  Theorem bfs_spec : exists p lv, bfs n adj [u] [u] (upd (repeat 0 n) u u) = Ok p /\ length p = n /\ lv u = 0 /\ nth_error p u = Some u /\
    forall x, clos_refl_trans nat (fun a b => In b (nth a adj [])) u x ->
      x < n /\ (forall y, In y (nth x adj []) -> lv y <= S (lv x)) /\
      (x <> u -> exists y, nth_error p x = Some y /\ lv x = S (lv y) /\ In x (nth y adj []) /\ clos_refl_trans nat (fun a b => In b (nth a adj [])) u y).
  Proof.
    assert (B0 : binv [] [u] (fun _ => 0) (upd (repeat 0 n) u u)).
    { constructor; cbn [app].
      - constructor; [intros []|constructor].
      - intros x [<-|[]]. exact Hu.
      - refine (conj _ (conj eq_refl _)); [simpl; auto|]. apply nth_error_upd_eq. rewrite repeat_length. exact Hu.
      - intros x [<-|[]] H. contradiction.
      - intros x y [].
      - intros x y [].
      - constructor; constructor.
      - intros; lia.
      - rewrite upd_length. apply repeat_length. }
    destruct (bfs_run n [] [u] [u] (fun _ => 0) _ B0) as (p & all & lv & E & B); [intro w; reflexivity|simpl; lia|]. exists p, lv.
    destruct B as [B1 B2 B3 B4 B5 _ _ _ B9]. rewrite app_nil_r in *. destruct B3 as (R1 & R2 & R3). refine (conj E (conj B9 (conj R2 (conj R3 _)))).
    assert (In_all : forall x, clos_refl_trans nat (fun a b => In b (nth a adj [])) u x -> In x all).
    { intros x Hx. apply clos_rt_rtn1 in Hx. induction Hx as [|a b Hab _ IH]; [exact R1|]. destruct (B5 a b IH Hab) as [H _]. exact H. }
    assert (Reach : forall k x, lv x <= k -> In x all -> clos_refl_trans nat (fun a b => In b (nth a adj [])) u x).
    { induction k as [|k IH]; intros x Hk Hx; (destruct (Nat.eq_dec x u) as [->|N]; [apply rt_refl|]); destruct (B4 x Hx N) as (y & H1 & H2 & H3 & H4); [lia|].
      eapply rt_trans; [apply (IH y); [lia|exact H2]|apply rt_step; exact H4]. }
    intros x Hx. pose proof (In_all x Hx) as Hi. refine (conj (B2 x Hi) (conj _ _)).
    - intros y Hy. apply (B5 x y Hi Hy).
    - intro N. destruct (B4 x Hi N) as (y & H1 & H2 & H3 & H4). exists y. refine (conj H1 (conj H3 (conj H4 _))). apply (Reach (lv y)); auto.
  Qed.
End BFS.
