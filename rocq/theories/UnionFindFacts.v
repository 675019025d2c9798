(** * Union-find maintains classes with representatives. *)
From Coq Require Import List Arith Bool Lia Permutation Sorted Relations.
From Verif Require Import Base BaseFacts UnionFind SpecUnionFind.
Import ListNotations.

Lemma parent_of_set m u r w :
  parent_of (set_parent m u r) w = if w =? u then Some r else parent_of m w.
Proof.
  unfold parent_of. induction m as [|[k p] m IH]; simpl.
  - rewrite (Nat.eqb_sym u w). destruct (w =? u); auto.
  - destruct (Nat.eqb_spec k u); simpl.
    + subst k. rewrite (Nat.eqb_sym u w). destruct (w =? u); auto.
    + destruct (Nat.eqb_spec k w); simpl; auto. subst k. destruct (Nat.eqb_spec w u); [congruence|auto].
Qed.

Lemma keys_set m u r : In u (map fst m) -> map fst (set_parent m u r) = map fst m.
Proof.
  induction m as [|[k p] m IH]; simpl; [tauto|]. intro H.
  destruct (Nat.eqb_spec k u); simpl; auto. f_equal. apply IH. tauto.
Qed.

Lemma keys_set_new m u r : ~ In u (map fst m) -> map fst (set_parent m u r) = map fst m ++ [u].
Proof.
  induction m as [|[k p] m IH]; simpl; auto. intro H.
  destruct (Nat.eqb_spec k u); [tauto|]. simpl. f_equal. apply IH. tauto.
Qed.

Lemma parent_of_none m u : parent_of m u = None <-> ~ In u (map fst m).
Proof.
  unfold parent_of. induction m as [|[k p] m IH]; simpl; [tauto|].
  destruct (Nat.eqb_spec k u); simpl; [split; [discriminate|tauto]|]. rewrite IH. tauto.
Qed.

Lemma NoDup_app_intro_snoc (l : list nat) x : NoDup l -> ~ In x l -> NoDup (l ++ [x]).
Proof.
  intros H Hx. apply (Permutation_NoDup (l := x :: l)); [apply Permutation_cons_append|].
  constructor; auto.
Qed.

Section Inv.
  Variable V : list nat.

  (** [L] lists the vertices that are no representatives, in the order in which
      they lost that status. *)
  Record inv (m : parents) (L : list nat) (rep : nat -> nat) : Prop := {
    inv_nodup : NoDup (map fst m);
    inv_keys : forall u, In u (map fst m) <-> In u V;
    inv_L : NoDup L;
    inv_LV : incl L V;
    inv_root : forall u, In u V -> ~ In u L -> parent_of m u = Some u /\ rep u = u;
    inv_path : forall L1 u L2, L = L1 ++ u :: L2 ->
      exists p, parent_of m u = Some p /\ rep p = rep u /\ In p V /\ (In p L2 \/ ~ In p L);
    inv_rep : forall u, In u V -> In (rep u) V /\ ~ In (rep u) L
  }.

  Lemma split_unique (L1 L2 L1' L2' : list nat) u :
    NoDup (L1 ++ u :: L2) -> L1 ++ u :: L2 = L1' ++ u :: L2' -> L2 = L2'.
  Proof.
    revert L1'. induction L1 as [|a L1 IH]; intros [|b L1'] Hn E; simpl in *.
    - congruence.
    - injection E as <- E. inversion Hn; subst. exfalso. apply H1. rewrite in_app_iff. simpl; auto.
    - injection E as -> E. inversion Hn; subst. exfalso. apply H1. rewrite in_app_iff. simpl; auto.
    - injection E as -> E. inversion Hn; subst. eapply IH; eauto.
  Qed.

  Lemma inv_collapse m L rep u : inv m L rep -> In u V -> In u L ->
    inv (set_parent m u (rep u)) L rep.
  Proof.
    intros H Hu HL. destruct H as [H1 H2 H3 H4 H5 H6 H7].
    assert (Hk : map fst (set_parent m u (rep u)) = map fst m) by (apply keys_set, H2; auto).
    constructor; try rewrite Hk; auto.
    - intros w Hw Hn. rewrite parent_of_set. destruct (Nat.eqb_spec w u); [subst; tauto|auto].
    - intros L1 w L2 E. rewrite parent_of_set. destruct (Nat.eqb_spec w u) as [->|Hne].
      + destruct (H7 u Hu) as [A B]. exists (rep u). destruct (H5 _ A B) as [_ R]. auto.
      + apply (H6 L1 w L2 E).
  Qed.

  Lemma find_fuel_spec fuel m L rep u : inv m L rep -> In u V ->
    (forall L1 L2, L = L1 ++ u :: L2 -> S (length L2) <= fuel) ->
    exists m', uf_find_fuel fuel m u = Ok (m', rep u) /\ inv m' L rep.
  Proof.
    revert u. induction fuel as [|f IH]; intros u Hi Hu Hf.
    - destruct (in_dec Nat.eq_dec u L) as [HL|HL].
      + apply in_split in HL. destruct HL as (L1 & L2 & E). specialize (Hf L1 L2 E). lia.
      + destruct (inv_root _ _ _ Hi u Hu HL) as [Hp Hr]. simpl. rewrite Hp, Nat.eqb_refl, Hr. eauto.
    - destruct (in_dec Nat.eq_dec u L) as [HL|HL].
      + pose proof HL as Hin. apply in_split in HL. destruct HL as (L1 & L2 & E).
        pose proof (Hf L1 L2 E) as Hlen.
        destruct (inv_path _ _ _ Hi L1 u L2 E) as (p & Hp & Hr & HpV & Hcase).
        assert (Hn : NoDup (L1 ++ u :: L2)) by (rewrite <- E; apply (inv_L _ _ _ Hi)).
        assert (Hpu : p <> u).
        { intros ->. destruct Hcase as [Hc|Hc]; [|tauto].
          apply NoDup_remove_2 in Hn. apply Hn. apply in_app_iff. auto. }
        assert (Hpf : forall L1' L2', L = L1' ++ p :: L2' -> S (length L2') <= f).
        { intros L1' L2' E'. destruct Hcase as [Hc|Hc].
          - apply in_split in Hc. destruct Hc as (A & B & ->).
            assert (B = L2').
            { eapply (split_unique (L1 ++ u :: A) B L1' L2' p).
              - rewrite <- app_assoc. simpl. auto.
              - rewrite <- app_assoc. simpl. congruence. }
            subst. rewrite app_length in Hlen. simpl in Hlen. lia.
          - exfalso. apply Hc. rewrite E', in_app_iff. simpl; auto. }
        destruct (IH p Hi HpV Hpf) as (m' & Em & Hi').
        simpl. rewrite Hp. destruct (Nat.eqb_spec p u); [tauto|].
        rewrite Em. simpl. rewrite Hr. eexists. split; [reflexivity|].
        apply inv_collapse; auto.
      + destruct (inv_root _ _ _ Hi u Hu HL) as [Hp Hr]. simpl. rewrite Hp, Nat.eqb_refl, Hr. eauto.
  Qed.

  Lemma find_spec m L rep u : inv m L rep -> In u V ->
    exists m', uf_find m u = Ok (m', rep u) /\ inv m' L rep.
  Proof.
    intros Hi Hu. unfold uf_find. apply find_fuel_spec; auto. intros L1 L2 E.
    rewrite <- (map_length fst m).
    assert (length L <= length (map fst m)).
    { apply NoDup_incl_length; [apply (inv_L _ _ _ Hi)|]. intros w Hw. apply (inv_keys _ _ _ Hi), (inv_LV _ _ _ Hi); auto. }
    rewrite E, app_length in H. simpl in H. lia.
  Qed.

  Lemma find_unknown m L rep u : inv m L rep -> ~ In u V -> uf_find m u = Throw OutOfRange.
  Proof.
    intros Hi Hu. assert (Hp : parent_of m u = None).
    { apply parent_of_none. intro H. apply Hu, (inv_keys _ _ _ Hi); auto. }
    unfold uf_find. destruct (length m); simpl; rewrite Hp; auto.
  Qed.

  Definition merged (rep : nat -> nat) (u v w : nat) : nat := if rep w =? rep u then rep v else rep w.

  Lemma snoc_split (L : list nat) x L1 u L2 : L ++ [x] = L1 ++ u :: L2 ->
    (L2 = [] /\ u = x /\ L = L1) \/ exists L2', L2 = L2' ++ [x] /\ L = L1 ++ u :: L2'.
  Proof.
    revert L1. induction L as [|a L IH]; intros [|b L1] E; simpl in *.
    - injection E as -> <-. auto.
    - injection E as -> E. symmetry in E. apply app_eq_nil in E. destruct E; discriminate.
    - injection E as -> <-. right. exists L. auto.
    - injection E as -> E. destruct (IH L1 E) as [(A & B & D)|(L2' & A & B)].
      + left. subst. auto.
      + right. exists L2'. subst. auto.
  Qed.

  Lemma merge_spec m L rep u v : inv m L rep -> In u V -> In v V ->
    exists m' L', uf_merge m u v = Ok m' /\ inv m' L' (merged rep u v).
  Proof.
    intros Hi Hu Hv. unfold uf_merge. destruct (Nat.eqb_spec u v) as [->|Hne].
    - exists m, L. split; auto. destruct Hi as [H1 H2 H3 H4 H5 H6 H7].
      assert (X : forall w, merged rep v v w = rep w) by (intro w; unfold merged; destruct (Nat.eqb_spec (rep w) (rep v)); auto).
      constructor; auto.
      + intros w. rewrite X. auto.
      + intros L1 w L2 E. destruct (H6 L1 w L2 E) as (p & A & B & D). exists p. rewrite !X. auto.
      + intro w. rewrite X. auto.
    - destruct (find_spec m L rep v Hi Hv) as (m1 & E1 & Hi1). rewrite E1. simpl.
      destruct (find_spec m1 L rep u Hi1 Hu) as (m2 & E2 & Hi2). rewrite E2. simpl.
      destruct (inv_rep _ _ _ Hi2 u Hu) as [HruV HruL]. destruct (inv_rep _ _ _ Hi2 v Hv) as [HrvV HrvL].
      destruct (inv_root _ _ _ Hi2 _ HruV HruL) as [Pru Rru]. destruct (inv_root _ _ _ Hi2 _ HrvV HrvL) as [Prv Rrv].
      exists (set_parent m2 (rep u) (rep v)).
      assert (Hk : map fst (set_parent m2 (rep u) (rep v)) = map fst m2) by (apply keys_set, (inv_keys _ _ _ Hi2); auto).
      destruct Hi2 as [H1 H2 H3 H4 H5 H6 H7].
      destruct (Nat.eq_dec (rep u) (rep v)) as [Er|Er].
      + exists L. split; auto.
        assert (X : forall w, merged rep u v w = rep w) by (intro w; unfold merged; destruct (Nat.eqb_spec (rep w) (rep u)); congruence).
        assert (Y : forall w, parent_of (set_parent m2 (rep u) (rep v)) w = parent_of m2 w).
        { intro w. rewrite parent_of_set. destruct (Nat.eqb_spec w (rep u)); congruence. }
        constructor; try rewrite Hk; auto.
        * intros w. rewrite X, Y. auto.
        * intros L1 w L2 E. rewrite Y. destruct (H6 L1 w L2 E) as (p & A & B & D). exists p. rewrite !X. auto.
        * intro w. rewrite X. auto.
      + exists (L ++ [rep u]). split; auto. constructor; try rewrite Hk; auto.
        * apply NoDup_app_intro_snoc; auto.
        * intros w Hw. apply in_app_iff in Hw. destruct Hw as [Hw|[<-|[]]]; auto.
        * intros w Hw HL. rewrite in_app_iff in HL. simpl in HL. rewrite parent_of_set.
          assert (HLw : ~ In w L) by tauto. destruct (H5 w Hw HLw) as [A B].
          destruct (Nat.eqb_spec w (rep u)) as [Ew|Ew]; [exfalso; apply HL; right; left; auto|].
          split; auto. unfold merged. rewrite B. destruct (Nat.eqb_spec w (rep u)); [tauto|auto].
        * intros L1 w L2 E. rewrite parent_of_set. apply snoc_split in E.
          destruct E as [(-> & -> & <-)|(L2' & -> & E)].
          -- rewrite Nat.eqb_refl. exists (rep v). refine (conj eq_refl (conj _ (conj HrvV _))).
             ++ unfold merged. rewrite Rrv, Rru, Nat.eqb_refl. destruct (Nat.eqb_spec (rep v) (rep u)); auto.
             ++ right. rewrite in_app_iff. simpl. intros [?|[?|[]]]; [tauto|congruence].
          -- destruct (Nat.eqb_spec w (rep u)) as [->|Ew].
             ++ exfalso. apply HruL. rewrite E, in_app_iff. simpl; auto.
             ++ destruct (H6 L1 w L2' E) as (p & A & B & D & F). exists p. split; auto.
                unfold merged. rewrite B. split; auto. split; auto. rewrite !in_app_iff.
                destruct F as [F|F]; [auto|]. simpl. destruct (Nat.eq_dec p (rep u)); [subst; auto|].
                right. intros [?|[?|[]]]; congruence.
        * intros w Hw. unfold merged. destruct (H7 w Hw) as [A B].
          destruct (Nat.eqb_spec (rep w) (rep u)) as [Ew|Ew]; split; auto;
            rewrite in_app_iff; simpl; intros [?|[?|[]]]; try tauto; congruence.
  Qed.

  Lemma merge_unknown m L rep u v : inv m L rep -> u <> v -> ~ (In u V /\ In v V) ->
    uf_merge m u v = Throw Terminated.
  Proof.
    intros Hi Hne H. unfold uf_merge. destruct (Nat.eqb_spec u v); [tauto|].
    destruct (in_dec Nat.eq_dec v V) as [Hv|Hv].
    - destruct (find_spec m L rep v Hi Hv) as (m1 & E1 & Hi1). rewrite E1. simpl.
      rewrite (find_unknown m1 L rep u Hi1); auto.
    - rewrite (find_unknown m L rep v Hi Hv). auto.
  Qed.

  (** loops over all vertices *)
  Lemma loop_spec (f : nat -> nat -> bool) (step : parents * list nat -> nat -> outcome (parents * list nat)) L rep l m acc :
    (forall m acc u, step (m, acc) u = let* (m', r) := uf_find m u in Ok (m', if f r u then acc ++ [u] else acc)) ->
    inv m L rep -> incl l V ->
    exists m', foldM step l (m, acc) = Ok (m', acc ++ filter (fun u => f (rep u) u) l) /\ inv m' L rep.
  Proof.
    intro Hs. revert m acc. induction l as [|u l IH]; intros m acc Hi Hl; simpl.
    - exists m. rewrite app_nil_r. auto.
    - destruct (find_spec m L rep u Hi) as (m1 & E & Hi1); [apply Hl; simpl; auto|].
      rewrite Hs, E. simpl.
      destruct (IH m1 (if f (rep u) u then acc ++ [u] else acc) Hi1) as (m' & E' & Hi'); [intros w Hw; apply Hl; simpl; auto|].
      exists m'. rewrite E'. split; auto. destruct (f (rep u) u); auto. rewrite <- app_assoc. auto.
  Qed.

  Lemma roots_spec order m L rep : inv m L rep ->
    exists m', uf_roots order m = Ok (m', order (filter (fun u => rep u =? u) (map fst m))) /\ inv m' L rep.
  Proof.
    intro Hi. unfold uf_roots.
    destruct (loop_spec (fun r u => r =? u) roots_step L rep (map fst m) m []) as (m' & E & Hi'); auto.
    - intros w Hw. apply (inv_keys _ _ _ Hi); auto.
    - exists m'. rewrite E. auto.
  Qed.

  Lemma get_spec order m L rep v : inv m L rep -> In v V ->
    exists m' l, uf_get order m v = Ok (m', order (filter (fun u => rep u =? rep v) l)) /\
      NoDup l /\ (forall u, In u l <-> In u V) /\ inv m' L rep.
  Proof.
    intros Hi Hv. unfold uf_get. destruct (find_spec m L rep v Hi Hv) as (m1 & E1 & Hi1). rewrite E1. simpl.
    destruct (loop_spec (fun r u => r =? rep v) (get_step (rep v)) L rep (map fst m1) m1 []) as (m' & E & Hi'); auto.
    - intros w Hw. apply (inv_keys _ _ _ Hi1); auto.
    - exists m', (map fst m1). rewrite E. simpl. refine (conj eq_refl (conj _ (conj _ Hi'))).
      + apply (inv_nodup _ _ _ Hi1).
      + apply (inv_keys _ _ _ Hi1).
  Qed.

  Lemma init_inv : inv (uf_init V) [] (fun u => u).
  Proof.
    assert (G : forall l m, NoDup (map fst m) -> (forall u, In u (map fst m) -> parent_of m u = Some u) ->
      let m' := fold_left (fun m v => set_parent m v v) l m in
      NoDup (map fst m') /\ (forall u, In u (map fst m') <-> In u (map fst m) \/ In u l) /\
      (forall u, In u (map fst m') -> parent_of m' u = Some u)).
    { induction l as [|v l IH]; intros m Hn Hp; simpl.
      - split; auto. split; [intro u; tauto|auto].
      - destruct (in_dec Nat.eq_dec v (map fst m)) as [Hv|Hv].
        + pose proof (keys_set m v v Hv) as Hk. destruct (IH (set_parent m v v)) as (A & B & D).
          * rewrite Hk; auto.
          * intros u Hu. rewrite Hk in Hu. rewrite parent_of_set. destruct (Nat.eqb_spec u v); [subst; auto|auto].
          * split; auto. split; auto. intro u. rewrite B, Hk. split; [tauto|]. intros [?|[->|?]]; auto.
        + pose proof (keys_set_new m v v Hv) as Hk. destruct (IH (set_parent m v v)) as (A & B & D).
          * rewrite Hk. apply NoDup_app_intro_snoc; auto.
          * intros u Hu. rewrite Hk in Hu. rewrite parent_of_set. destruct (Nat.eqb_spec u v); [subst; auto|].
            apply Hp. apply in_app_iff in Hu. simpl in Hu. destruct Hu as [?|[?|[]]]; [auto|congruence].
          * split; auto. split; auto. intro u. rewrite B, Hk, in_app_iff. simpl. tauto. }
    destruct (G V [] (NoDup_nil _)) as (A & B & D); [simpl; tauto|].
    fold (uf_init V) in A, B, D. constructor; auto.
    - intro u. rewrite B. simpl. tauto.
    - constructor.
    - intros u [].
    - intros u Hu _. split; auto. apply D, B. auto.
    - intros L1 u L2 E. destruct L1; discriminate.
  Qed.

  (** ** Histories *)
  Definition op_known (o : uf_op) : Prop :=
    match o with
    | UMerge u v => In u V /\ In v V
    | UFind u => In u V
    | UGet v => In v V
    | _ => True
    end.

  Definition rep_step (rep : nat -> nat) (o : uf_op) : nat -> nat :=
    match o with UMerge u v => merged rep u v | _ => rep end.

  Definition rep_run (h : list uf_op) : nat -> nat := fold_left rep_step h (fun u => u).

  Lemma exec_inv m L rep o : inv m L rep -> op_known o ->
    exists m' L', uf_exec m o = Ok m' /\ inv m' L' (rep_step rep o).
  Proof.
    intros Hi Ho. destruct o as [u v|u| |v|u]; simpl in *.
    - apply merge_spec with (L := L); tauto.
    - destruct (find_spec m L rep u Hi Ho) as (m' & E & Hi'). rewrite E. simpl. eauto.
    - destruct (roots_spec (fun l => l) m L rep Hi) as (m' & E & Hi'). rewrite E. simpl. eauto.
    - destruct (get_spec (fun l => l) m L rep v Hi Ho) as (m' & l & E & _ & _ & Hi'). rewrite E. simpl. eauto.
    - eauto.
  Qed.

  Lemma run_inv h : (forall o, In o h -> op_known o) ->
    exists m L, uf_run V h = Ok m /\ inv m L (rep_run h).
  Proof.
    unfold uf_run, rep_run.
    assert (G : forall h m L rep, inv m L rep -> (forall o, In o h -> op_known o) ->
      exists m' L', foldM uf_exec h m = Ok m' /\ inv m' L' (fold_left rep_step h rep)).
    { clear h. induction h as [|o h IH]; intros m L rep Hi Ho; simpl; [eauto|].
      destruct (exec_inv m L rep o Hi) as (m1 & L1 & E & Hi1); [apply Ho; simpl; auto|].
      rewrite E. simpl. apply (IH m1 L1); auto. intros; apply Ho; simpl; auto. }
    intro Ho. apply (G h (uf_init V) [] (fun u => u)); auto. apply init_inv.
  Qed.

  (** representatives and connectivity *)
  Definition merges (h : list uf_op) : list (nat * nat) :=
    flat_map (fun o => match o with UMerge u v => [(u, v)] | _ => [] end) h.

  Lemma merges_app h h' : merges (h ++ h') = merges h ++ merges h'.
  Proof. unfold merges. apply flat_map_app. Qed.

  Lemma connected_incl l l' u v : incl l l' -> connected l u v -> connected l' u v.
  Proof.
    intros H. induction 1 as [x y Hxy| |x y _ IH|x y z _ IH1 _ IH2].
    - apply rst_step; auto.
    - apply rst_refl.
    - apply rst_sym; auto.
    - eapply rst_trans; eauto.
  Qed.

  Lemma rep_connected h u : connected (merges h) u (rep_run h u).
  Proof.
    revert u. induction h as [|o h IH] using rev_ind; intro u; [apply rst_refl|].
    unfold rep_run. rewrite fold_left_app. simpl. fold (rep_run h). rewrite merges_app.
    assert (Hi : forall w, connected (merges h ++ merges [o]) w (rep_run h w)).
    { intro w. eapply connected_incl; [|apply IH]. intros x Hx. apply in_app_iff; auto. }
    destruct o as [a b|a| |a|a]; simpl; auto. unfold merged.
    destruct (Nat.eqb_spec (rep_run h u) (rep_run h a)) as [E|E]; auto.
    eapply rst_trans; [apply Hi|]. rewrite E. eapply rst_trans; [apply rst_sym, Hi|].
    eapply rst_trans; [|apply Hi]. apply rst_step. apply in_app_iff. simpl; auto.
  Qed.

  Lemma rep_merged_same rep a b u v : rep u = rep v -> merged rep a b u = merged rep a b v.
  Proof. unfold merged. intros ->. auto. Qed.

  Lemma connected_rep h u v : connected (merges h) u v -> rep_run h u = rep_run h v.
  Proof.
    assert (S : forall h u v, In (u, v) (merges h) -> rep_run h u = rep_run h v).
    { clear. induction h as [|o h IH] using rev_ind; intros u v H; [destruct H|].
      rewrite merges_app, in_app_iff in H. unfold rep_run. rewrite fold_left_app. simpl. fold (rep_run h).
      destruct H as [H|H].
      - apply IH in H. destruct o; simpl; auto. apply rep_merged_same; auto.
      - destruct o as [a b|a| |a|a]; simpl in H; try tauto. destruct H as [[= -> ->]|[]]. simpl. unfold merged.
        rewrite Nat.eqb_refl. destruct (Nat.eqb_spec (rep_run h v) (rep_run h u)); auto. }
    induction 1; auto; congruence.
  Qed.

  Theorem rep_iff h u v : rep_run h u = rep_run h v <-> connected (merges h) u v.
  Proof.
    split; [|apply connected_rep]. intro E.
    eapply rst_trans; [apply rep_connected|]. rewrite E. apply rst_sym, rep_connected.
  Qed.
End Inv.
