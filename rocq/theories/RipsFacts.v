(** * Rips expansion. *)
From Coq Require Import List Arith Bool ZArith Lia Permutation Sorted.
From Verif Require Import Base BaseFacts Simplex SimplexFacts SpecComplex Complex PairingFacts ComplexFacts RepFacts
  Subcomplex SubcomplexFacts SpecRips Rips.
Import ListNotations.

(** ** Maps *)
Definition adj (m : nmap) (v u : nat) : Prop := exists l, nm_find m v = Some l /\ In u l.
Definition nm_ok (m : nmap) : Prop := forall v l, nm_find m v = Some l -> NoDup l.

Lemma nm_add_find m v u w : nm_find (nm_add m v u) w =
  if w =? v then Some (match nm_find m v with Some l => if existsb (Nat.eqb u) l then l else l ++ [u] | None => [u] end)
  else nm_find m w.
Proof.
  induction m as [|[x l] m IH]; simpl.
  - rewrite (Nat.eqb_sym v w). destruct (w =? v); auto.
  - destruct (Nat.eqb_spec x v) as [->|Hx]; simpl.
    + rewrite (Nat.eqb_sym v w). destruct (w =? v); auto.
    + rewrite IH. destruct (Nat.eqb_spec x w) as [->|]; auto. destruct (Nat.eqb_spec w v); [congruence|auto].
Qed.

Lemma nm_add_ok m v u : nm_ok m -> nm_ok (nm_add m v u) /\
  forall a b, adj (nm_add m v u) a b <-> adj m a b \/ (a = v /\ b = u).
Proof.
  intro Hm. split.
  - intros w l. rewrite nm_add_find. destruct (Nat.eqb_spec w v) as [->|]; [|apply Hm]. intros [= <-].
    destruct (nm_find m v) as [l|] eqn:E; [|repeat constructor; easy].
    destruct (existsb (Nat.eqb u) l) eqn:Ex; [apply (Hm v); auto|].
    apply NoDup_app_intro; [apply (Hm v); auto|repeat constructor; easy|].
    intros x Hx [<-|[]]. rewrite <- not_true_iff_false in Ex. apply Ex. apply existsb_exists. exists u. split; auto. apply Nat.eqb_refl.
  - intros a b. unfold adj. rewrite nm_add_find. destruct (Nat.eqb_spec a v) as [->|Hav].
    + split.
      * intros (l & [= <-] & H). destruct (nm_find m v) as [l|] eqn:E.
        -- destruct (existsb (Nat.eqb u) l) eqn:Ex; [left; eauto|]. apply in_app_or in H. destruct H as [H|[<-|[]]]; [left; eauto|auto].
        -- destruct H as [<-|[]]; auto.
      * intros [(l & E & H)|[_ ->]].
        -- rewrite E. eexists. split; [reflexivity|]. destruct (existsb (Nat.eqb u) l); auto. apply in_or_app; auto.
        -- eexists. split; [reflexivity|]. destruct (nm_find m v) as [l|]; simpl; auto.
           destruct (existsb (Nat.eqb u) l) eqn:Ex; [|apply in_or_app; simpl; auto].
           apply existsb_exists in Ex. destruct Ex as (x & Hx & Ex). apply Nat.eqb_eq in Ex. congruence.
    + split; [intros (l & E & H); left; eauto|]. intros [H|[H _]]; [auto|congruence].
Qed.

Lemma lower_neighbours K : kwf K -> nm_ok (getLowerNeighbours K) /\
  forall a b, adj (getLowerNeighbours K) a b <-> exists e, In e (by_index K) /\ verts e = [a; b].
Proof.
  intro HK. unfold getLowerNeighbours.
  assert (G : forall l m, (forall e, In e l -> exists a b, verts e = [a; b] /\ b < a) -> nm_ok m ->
    nm_ok (fold_left lower_step l m) /\
    forall a b, adj (fold_left lower_step l m) a b <-> adj m a b \/ exists e, In e l /\ verts e = [a; b]).
  { induction l as [|e l IH]; intros m Hl Hm.
    - simpl. split; auto. intros a b. split; auto. intros [H|(e & [] & _)]; auto.
    - simpl. destruct (Hl e) as (a0 & b0 & E0 & Hlt); [simpl; auto|].
      assert (Es : lower_step m e = nm_add m a0 b0).
      { unfold lower_step. rewrite E0. destruct (Nat.ltb_spec a0 b0); [lia|auto]. }
      rewrite Es. destruct (nm_add_ok m a0 b0 Hm) as [A B].
      destruct (IH (nm_add m a0 b0)) as [C D]; auto; [intros; apply Hl; simpl; auto|]. split; auto.
      intros a b. rewrite D, B. split.
      + intros [[H|[-> ->]]|(e' & He' & E')]; [auto|right; exists e; auto|right; exists e'; auto].
      + intros [H|(e' & [<-|He'] & E')]; auto; [|right; eauto]. left; right. rewrite E0 in E'. injection E' as -> ->. auto. }
  destruct (G (k_range K 1) []) as [A B].
  - intros e He. apply range_In in He; auto. destruct He as [He Hlen].
    destruct (kwf_good K HK e He) as [Hw _]. destruct (verts e) as [|a [|b [|? ?]]] eqn:E; try discriminate.
    exists a, b. split; auto. unfold wf in Hw. rewrite E in Hw. inversion Hw as [|? ? _ F]; subst. inversion F; subst. lia.
  - intros v l H. discriminate.
  - split; auto. intros a b. rewrite B. split.
    + intros [(l & H & _)|(e & He & E)]; [discriminate|]. exists e. apply range_In in He; auto. tauto.
    + intros (e & He & E). right. exists e. split; auto. apply range_In; auto. rewrite E. auto.
Qed.

Lemma intersect_ok U V : NoDup U -> NoDup V -> NoDup (intersect U V) /\ forall x, In x (intersect U V) <-> In x U /\ In x V.
Proof.
  intros HU HV. unfold intersect. split.
  - destruct (_ <? _); apply NoDup_filter; auto.
  - assert (Hm : forall x l, existsb (Nat.eqb x) l = true <-> In x l).
    { intros x l. etransitivity; [apply (mem_In x)|]. tauto. }
    intro x. destruct (_ <? _); rewrite filter_In, Hm; tauto.
Qed.

(** ** Expansion *)
Lemma foldM_append {A B} (g : A -> outcome (list B)) (G : A -> list B) l acc :
  (forall x, In x l -> g x = Ok (G x)) ->
  foldM (fun acc x => let* r := g x in Ok (acc ++ r)) l acc = Ok (acc ++ flat_map G l).
Proof.
  revert acc. induction l as [|x l IH]; intros acc H; simpl; [rewrite app_nil_r; auto|].
  rewrite H by (simpl; auto). simpl. rewrite IH by (intros; apply H; simpl; auto). rewrite <- app_assoc. auto.
Qed.

Lemma foldM_ext {A S} (f g : S -> A -> outcome S) l s : (forall s x, In x l -> f s x = g s x) -> foldM f l s = foldM g l s.
Proof.
  revert s. induction l as [|x l IH]; intros s H; simpl; auto. rewrite H by (simpl; auto).
  destruct (g s x); simpl; auto. apply IH. intros; apply H; simpl; auto.
Qed.

Lemma ok_choice {A B} (g : A -> outcome B) (P : A -> B -> Prop) l :
  (forall x, In x l -> exists y, g x = Ok y /\ P x y) ->
  exists G : A -> option B, forall x, In x l -> exists y, G x = Some y /\ g x = Ok y /\ P x y.
Proof.
  intro H. exists (fun x => match g x with Ok y => Some y | _ => None end).
  intros x Hx. destruct (H x Hx) as (y & E & HP). exists y. rewrite E. auto.
Qed.

Section Expand.
  Variable order : list nat -> list nat.
  Hypothesis Horder : forall l, Permutation (order l) l.
  Variable m : nmap.
  Hypothesis Hm : nm_ok m.
  Hypothesis Hlt : forall a b, adj m a b -> b < a.

  Lemma snoc_simplex s v : wf s -> (forall x, In x (verts s) -> v < x) -> verts (simplex_of (verts s ++ [v]) 0) = verts s ++ [v].
  Proof.
    intros Hs Hv. assert (Hw : wf (Simplex (verts s ++ [v]) 0)).
    { unfold wf. cbn [verts]. unfold wf in Hs. revert Hv. induction Hs as [|x l Hl IH Hx]; intro Hv; simpl; [repeat constructor|].
      constructor; [apply IH; intros; apply Hv; simpl; auto|]. apply Forall_app. split; auto. constructor; [|constructor].
      apply Hv. simpl; auto. }
    apply (simplex_of_id _ 0%Z) in Hw. exact Hw.
  Qed.

  (** the vertices of the simplices that are generated from [s] *)
  Definition extends (dimension : nat) (vs N w : list nat) : Prop :=
    w <> [] /\ StronglySorted (adj m) w /\ (forall x, In x w -> In x N) /\ length vs - 1 + length w <= dimension.

  Lemma addCofaces_spec fuel dimension : forall s N,
    wf s -> verts s <> [] -> NoDup N -> (forall x y, In x N -> In y (verts s) -> x < y) ->
    dimension - sdim s <= fuel ->
    exists R, addCofaces order fuel dimension m s N = Ok R /\ NoDup (map verts R) /\
      (forall t, In t R -> wf t /\ data t = 0%Z) /\
      forall vs, In vs (map verts R) <-> exists w, vs = verts s ++ w /\ extends dimension (verts s) N w.
  Proof.
    induction fuel as [|fuel IH]; intros s N Hs Hne HN Hlow Hf.
    - cbn [addCofaces]. destruct (Nat.leb_spec dimension (sdim s)) as [Hd|Hd]; [|lia].
      exists []. refine (conj eq_refl (conj (NoDup_nil _) (conj _ _))); [easy|]. intro vs. split; [easy|].
      intros (w & _ & Hw & _ & _ & Hlen). destruct w; [easy|]. unfold sdim in Hd. simpl in Hlen. lia.
    - cbn [addCofaces]. destruct (Nat.leb_spec dimension (sdim s)) as [Hd|Hd].
      { exists []. refine (conj eq_refl (conj (NoDup_nil _) (conj _ _))); [easy|]. intro vs. split; [easy|].
        intros (w & _ & Hw & _ & _ & Hlen). destruct w; [easy|]. unfold sdim in Hd. simpl in Hlen. lia. }
      set (g := fun v => let t := simplex_of (verts s ++ [v]) 0 in
               let* r := match nm_find m v with Some l => addCofaces order fuel dimension m t (intersect l N) | None => Ok [] end in
               Ok (t :: r)).
      assert (Hg : forall v, In v (order N) -> exists R, g v = Ok R /\
         (NoDup (map verts R) /\ (forall t, In t R -> wf t /\ data t = 0%Z) /\
          forall vs, In vs (map verts R) <-> exists w, vs = verts s ++ v :: w /\ extends dimension (verts s) N (v :: w))).
      { intros v Hv. apply (Permutation_in v (Horder N)) in Hv. unfold g. cbv zeta.
        set (t := simplex_of (verts s ++ [v]) 0).
        assert (Et : verts t = verts s ++ [v]) by (apply snoc_simplex; auto).
        assert (Ht : wf t) by apply simplex_of_wf.
        assert (Lt : length (verts t) = S (length (verts s))) by (rewrite Et, app_length; simpl; lia).
        assert (Ls : 0 < length (verts s)) by (destruct (verts s); [easy|simpl; lia]).
        assert (Base : extends dimension (verts s) N [v]).
        { refine (conj _ (conj _ (conj _ _))); [discriminate|repeat constructor|intros x [<-|[]]; auto|]. unfold sdim in Hd. simpl. lia. }
        destruct (nm_find m v) as [l|] eqn:El.
        - destruct (intersect_ok l N (Hm v l El) HN) as [I1 I2].
          destruct (IH t (intersect l N)) as (R & E & R1 & R2 & R3); auto.
          + rewrite Et. intro E0. apply app_eq_nil in E0. easy.
          + intros x y Hx Hy. apply I2 in Hx. destruct Hx as [Hx1 Hx2]. rewrite Et in Hy. apply in_app_or in Hy.
            destruct Hy as [Hy|[<-|[]]]; [auto|]. apply Hlt. exists l. auto.
          + unfold sdim in *. lia.
          + exists (t :: R). split; [change addCofaces with addCofaces; rewrite E; reflexivity|]. cbn [map]. refine (conj _ (conj _ _)).
            * constructor; auto. rewrite R3. intros (w & Ew & Hw & _). rewrite <- (app_nil_r (verts t)) in Ew at 1.
              apply app_inv_head in Ew. congruence.
            * intros t' [<-|Ht']; auto. 
            * intro vs. split.
              -- intros [<-|H].
                 ++ exists []. split; auto.
                 ++ apply R3 in H. destruct H as (w & -> & Hw1 & Hw2 & Hw3 & Hw4). exists w. rewrite Et, <- app_assoc. split; auto.
                    refine (conj _ (conj _ (conj _ _))); [discriminate| | |].
                    ** constructor; auto. apply Forall_forall. intros x Hx. exists l. split; auto. apply I2; auto.
                    ** intros x [<-|Hx]; auto. apply I2; auto.
                    ** rewrite Lt in Hw4. simpl. lia.
              -- intros (w & -> & Hw1 & Hw2 & Hw3 & Hw4). destruct w as [|x w]; [left; auto|right].
                 apply R3. exists (x :: w). rewrite Et, <- app_assoc. split; auto.
                 inversion Hw2 as [|? ? Hw2a Hw2b]; subst. refine (conj _ (conj Hw2a (conj _ _))); [discriminate| |].
                 ** intros y Hy. apply I2. split; [|apply Hw3; simpl; auto]. rewrite Forall_forall in Hw2b.
                    destruct (Hw2b y Hy) as (l' & El' & Hl'). congruence.
                 ** rewrite app_length. simpl in *. lia.
        - exists [t]. split; [reflexivity|]. cbn [map]. refine (conj _ (conj _ _)).
          + repeat constructor; easy.
          + intros t' [<-|[]]; auto.
          + intro vs. split.
            * intros [<-|[]]. exists []. auto.
            * intros (w & -> & Hw1 & Hw2 & Hw3 & Hw4). left. rewrite Et. destruct w as [|x w]; auto. exfalso.
              inversion Hw2 as [|? ? Hw2a Hw2b]; subst. inversion Hw2b as [|? ? (l' & El' & _) _]; subst. congruence. }
      destruct (ok_choice g _ (order N) Hg) as (G & HG).
      set (G' := fun v => match G v with Some r => r | None => [] end).
      assert (HG' : forall v, In v (order N) -> g v = Ok (G' v)).
      { intros v Hv. destruct (HG v Hv) as (y & E1 & E2 & _). unfold G'. rewrite E1. auto. }
      exists (flat_map G' (order N)). refine (conj _ (conj _ (conj _ _))).
      + rewrite <- (app_nil_l (flat_map G' (order N))). rewrite <- (foldM_append g G' (order N) []) by auto.
        apply foldM_ext. intros acc v _. unfold g. cbv zeta.
        destruct (nm_find m v) as [l|]; [|reflexivity]. destruct (addCofaces order fuel dimension m _ _); reflexivity.
      + rewrite flat_map_concat_map, concat_map, map_map, <- flat_map_concat_map.
        apply NoDup_flat_map.
        * eapply Permutation_NoDup; [apply Permutation_sym, Horder|auto].
        * intros v Hv. destruct (HG v Hv) as (y & E1 & _ & P1 & _). unfold G'. rewrite E1. auto.
        * intros v v' vs Hv Hv' H H'. destruct (HG v Hv) as (y & E1 & _ & _ & _ & P1), (HG v' Hv') as (y' & E1' & _ & _ & _ & P1').
          unfold G' in H, H'. rewrite E1 in H. rewrite E1' in H'. apply P1 in H. apply P1' in H'.
          destruct H as (w & -> & _), H' as (w' & E & _). apply app_inv_head in E. congruence.
      + intros t Ht. apply in_flat_map in Ht. destruct Ht as (v & Hv & Ht). destruct (HG v Hv) as (y & E1 & _ & _ & P & _).
        unfold G' in Ht. rewrite E1 in Ht. auto.
      + intro vs. rewrite in_map_iff. split.
        * intros (t & <- & Ht). apply in_flat_map in Ht. destruct Ht as (v & Hv & Ht). destruct (HG v Hv) as (y & E1 & _ & _ & _ & P).
          unfold G' in Ht. rewrite E1 in Ht. apply (in_map verts) in Ht. apply P in Ht. destruct Ht as (w & E & Hw). eauto.
        * intros (w & -> & Hw). destruct w as [|v w]; [destruct Hw; easy|].
          assert (Hv : In v (order N)).
          { apply (Permutation_in v (Permutation_sym (Horder N))). apply Hw. simpl; auto. }
          destruct (HG v Hv) as (y & E1 & _ & _ & _ & P).
          assert (Hin : In (verts s ++ v :: w) (map verts y)) by (apply P; eauto).
          apply in_map_iff in Hin. destruct Hin as (t & Et & Ht). exists t. split; auto. apply in_flat_map. exists v. split; auto.
          unfold G'. rewrite E1. auto.
  Qed.

  Lemma rips_loop dimension V : NoDup V ->
    exists R, foldM (rips_vertex order dimension m) V [] = Ok R /\ NoDup (map verts R) /\
      (forall t, In t R -> wf t /\ verts t <> [] /\ data t = 0%Z) /\
      forall vs, In vs (map verts R) <-> exists v w, vs = v :: w /\ In v V /\ StronglySorted (adj m) (v :: w) /\ length w <= dimension.
  Proof.
    intro HV.
    set (g := fun v => let s := simplex_vertex v 0 in
               let* r := match nm_find m v with Some l => addCofaces order dimension dimension m s l | None => Ok [] end in
               Ok (s :: r)).
    assert (Hg : forall v, In v V -> exists R, g v = Ok R /\
       (NoDup (map verts R) /\ (forall t, In t R -> wf t /\ verts t <> [] /\ data t = 0%Z) /\
        forall vs, In vs (map verts R) <-> exists w, vs = v :: w /\ StronglySorted (adj m) (v :: w) /\ length w <= dimension)).
    { intros v Hv. unfold g. cbv zeta. destruct (nm_find m v) as [l|] eqn:El.
      - destruct (addCofaces_spec dimension dimension (simplex_vertex v 0) l) as (R & E & R1 & R2 & R3).
        + repeat constructor.
        + discriminate.
        + apply (Hm v); auto.
        + intros x y Hx [<-|[]]. apply Hlt. exists l; auto.
        + lia.
        + exists (simplex_vertex v 0 :: R). rewrite E. cbn [map verts simplex_vertex] in *. refine (conj eq_refl (conj _ (conj _ _))).
          * constructor; auto. rewrite R3. intros (w & Ew & Hw & _). injection Ew as <-. easy.
          * intros t [<-|Ht]; [refine (conj _ (conj _ _)); [repeat constructor|discriminate|auto]|].
            refine (conj (proj1 (R2 t Ht)) (conj _ (proj2 (R2 t Ht)))). apply (in_map verts) in Ht. apply R3 in Ht.
            destruct Ht as (w & -> & _). discriminate.
          * intro vs. split.
            -- intros [<-|H]; [exists []; refine (conj eq_refl (conj _ _)); [repeat constructor|simpl; lia]|].
               apply R3 in H. destruct H as (w & -> & Hw1 & Hw2 & Hw3 & Hw4). exists w. refine (conj eq_refl (conj _ _)).
               ++ constructor; auto. apply Forall_forall. intros x Hx. exists l. auto.
               ++ simpl in Hw4. auto.
            -- intros (w & -> & Hs & Hl). destruct w as [|x w]; [left; auto|right]. apply R3. exists (x :: w). split; auto.
               inversion Hs as [|? ? Hsa Hsb]; subst. refine (conj _ (conj Hsa (conj _ _))); [discriminate| |simpl in *; auto].
               intros y Hy. rewrite Forall_forall in Hsb. destruct (Hsb y Hy) as (l' & El' & Hl'). congruence.
      - exists [simplex_vertex v 0]. refine (conj eq_refl (conj _ (conj _ _))).
        + repeat constructor; easy.
        + intros t [<-|[]]. refine (conj _ (conj _ _)); [repeat constructor|discriminate|auto].
        + intro vs. cbn [map In]. split.
          * intros [<-|[]]. exists []. refine (conj eq_refl (conj _ _)); [repeat constructor|simpl; lia].
          * intros (w & -> & Hs & Hl). left. destruct w as [|x w]; auto. exfalso.
            inversion Hs as [|? ? Hsa Hsb]; subst. inversion Hsb as [|? ? (l' & El' & _) _]; subst. congruence. }
    destruct (ok_choice g _ V Hg) as (G & HG).
    set (G' := fun v => match G v with Some r => r | None => [] end).
    assert (HG' : forall v, In v V -> g v = Ok (G' v)).
    { intros v Hv. destruct (HG v Hv) as (y & E1 & E2 & _). unfold G'. rewrite E1. auto. }
    exists (flat_map G' V). refine (conj _ (conj _ (conj _ _))).
    - rewrite <- (app_nil_l (flat_map G' V)). rewrite <- (foldM_append g G' V []) by auto.
      apply foldM_ext. intros acc v _. unfold g, rips_vertex. cbv zeta.
      destruct (nm_find m v) as [l|]; [|reflexivity]. destruct (addCofaces order dimension dimension m _ _); reflexivity.
    - rewrite flat_map_concat_map, concat_map, map_map, <- flat_map_concat_map.
      apply NoDup_flat_map; auto.
      + intros v Hv. destruct (HG v Hv) as (y & E1 & _ & P1 & _). unfold G'. rewrite E1. auto.
      + intros v v' vs Hv Hv' H H'. destruct (HG v Hv) as (y & E1 & _ & _ & _ & P1), (HG v' Hv') as (y' & E1' & _ & _ & _ & P1').
        unfold G' in H, H'. rewrite E1 in H. rewrite E1' in H'. apply P1 in H. apply P1' in H'.
        destruct H as (w & -> & _), H' as (w' & E & _). congruence.
    - intros t Ht. apply in_flat_map in Ht. destruct Ht as (v & Hv & Ht). destruct (HG v Hv) as (y & E1 & _ & _ & P & _).
      unfold G' in Ht. rewrite E1 in Ht. auto.
    - intro vs. rewrite in_map_iff. split.
      + intros (t & <- & Ht). apply in_flat_map in Ht. destruct Ht as (v & Hv & Ht). destruct (HG v Hv) as (y & E1 & _ & _ & _ & P).
        unfold G' in Ht. rewrite E1 in Ht. apply (in_map verts) in Ht. apply P in Ht. destruct Ht as (w & E & Hw). exists v, w. tauto.
      + intros (v & w & -> & Hv & Hw). destruct (HG v Hv) as (y & E1 & _ & _ & _ & P).
        assert (Hin : In (v :: w) (map verts y)) by (apply P; eauto).
        apply in_map_iff in Hin. destruct Hin as (t & Et & Ht). exists t. split; auto. apply in_flat_map. exists v. split; auto.
        unfold G'. rewrite E1. auto.
  Qed.
End Expand.

(** construction from a range without repetitions *)
Lemma of_range_new l : (forall s, In s l -> good s) -> NoDup (map verts l) ->
  exists K, k_of_range l = Ok K /\ kwf K /\ by_index K = l.
Proof.
  intros Hg Hn.
  assert (G : forall l K, kwf K -> (forall s, In s l -> good s) -> NoDup (map verts (by_index K ++ l)) ->
     exists K', k_insert K l = (K', Ok tt) /\ kwf K' /\ by_index K' = by_index K ++ l).
  { clear. induction l as [|s l IH]; intros K HK Hg Hn.
    - exists K. rewrite app_nil_r. auto.
    - destruct (push_back_new K s HK) as [E HK'].
      + apply Hg; simpl; auto.
      + apply contains_false. rewrite map_app in Hn. simpl in Hn. apply NoDup_remove_2 in Hn.
        intro H. apply Hn. apply in_or_app; auto.
      + cbn [k_insert]. rewrite E. destruct (IH _ HK') as (K' & E' & H1 & H2).
        * intros; apply Hg; simpl; auto.
        * cbn [by_index]. rewrite <- app_assoc. auto.
        * exists K'. rewrite E'. cbn [by_index] in H2. rewrite <- app_assoc in H2. auto. }
  destruct (G l k_empty empty_kwf Hg Hn) as (K & E & H1 & H2). exists K. unfold k_of_range. rewrite E. auto.
Qed.
