(** * Facts about the enumeration of maximal cliques *)
From Coq Require Import List Arith Bool ZArith Lia Permutation Sorted.
From Verif Require Import Base BaseFacts Simplex SimplexFacts SpecComplex Matrix PairingFacts RepFacts Complex ComplexFacts MaximalCliques.
Import ListNotations.

Lemma inter_In A B x : In x (set_intersection A B) <-> In x A /\ In x B.
Proof.
  unfold set_intersection. destruct (length B <? length A); rewrite filter_In, mem_In; tauto.
Qed.
Lemma inter_NoDup A B : NoDup A -> NoDup B -> NoDup (set_intersection A B).
Proof. intros HA HB. unfold set_intersection. destruct (length B <? length A); apply NoDup_filter; auto. Qed.
Lemma erase_In x y l : In y (set_erase x l) <-> In y l /\ y <> x.
Proof. unfold set_erase. rewrite filter_In, negb_true_iff, Nat.eqb_neq. tauto. Qed.

Section Enum.
  Variable order : list nat -> list nat -> list nat.
  Variable A : sparse.
  Variable n : nat.
  Variable lab : nat -> nat.
  Hypothesis order_perm : forall C I0, Permutation (order C I0) I0.
  Hypothesis Hcols : length (sp_columns A) = n.
  Hypothesis Hcol_wf : forall i c, nth_error (sp_columns A) i = Some c -> StronglySorted lt c /\ forall j, In j c -> j < n.
  (** adjacency of indices *)
  Definition adj (i j : nat) : Prop := exists c, nth_error (sp_columns A) j = Some c /\ In i c.
  Hypothesis Hsym : forall i j, adj i j -> adj j i.
  Hypothesis Hirr : forall i, ~ adj i i.
  Hypothesis Hlab : forall i, i < n -> sp_getIndex A i = Ok (lab i).
  Hypothesis Hinj : forall i j, i < n -> j < n -> lab i = lab j -> i = j.

  Lemma adj_lt i j : adj i j -> i < n /\ j < n.
  Proof. intros (c & E & Hi). split; [apply (Hcol_wf j c E); auto|]. rewrite <- Hcols. eapply nth_error_lt; eauto. Qed.

  Lemma column_ok i : i < n -> exists c, sp_column A i = Ok c /\ NoDup c /\ (forall j, In j c <-> adj j i) /\ (forall j, sp_get A j i = Ok (mem j c)) /\
    sp_numEntries A i = Ok (length c).
  Proof.
    intro Hi. rewrite <- Hcols in Hi. apply nth_error_Some in Hi. destruct (nth_error (sp_columns A) i) as [c|] eqn:E; [|easy].
    exists c. refine (conj _ (conj _ (conj _ (conj _ _)))).
    - unfold sp_column, at_. rewrite E. auto.
    - apply SSlt_NoDup. apply (Hcol_wf i c E).
    - intro j. unfold adj. rewrite E. split; [eauto|]. intros (c' & [= <-] & H); auto.
    - intro j. unfold sp_get, at_. rewrite E. auto.
    - unfold sp_numEntries, at_. rewrite E. auto.
  Qed.

  Definition labels (C : list nat) : list nat := set_insert_range (map lab C) [].

  Lemma newClique_ok C : (forall i, In i C -> i < n) -> newClique A C = Ok (labels C).
  Proof.
    unfold newClique, labels, set_insert_range. generalize (@nil nat) as acc. induction C as [|c C IH]; intros acc H; simpl; auto.
    rewrite Hlab by (apply H; simpl; auto). cbn [bind]. apply IH. intros; apply H; simpl; auto.
  Qed.

  Lemma labels_In C v : In v (labels C) <-> exists i, In i C /\ lab i = v.
  Proof. unfold labels. rewrite set_range_In, in_map_iff. simpl. split; [intros [(i & H1 & H2)|[]]; eauto|intros (i & H1 & H2); eauto]. Qed.
  Lemma labels_sorted C : StronglySorted lt (labels C).
  Proof. apply set_range_sorted. constructor. Qed.
  Lemma labels_ext C D : set_eq C D -> labels C = labels D.
  Proof.
    intro H. apply SSlt_ext; [apply labels_sorted|apply labels_sorted|]. intro v. rewrite !labels_In.
    split; intros (i & H1 & H2); exists i; split; auto; apply H; auto.
  Qed.
  Lemma labels_inj C D : (forall i, In i C -> i < n) -> (forall i, In i D -> i < n) -> labels C = labels D -> set_eq C D.
  Proof.
    intros HC HD E i. split; intro Hi.
    - assert (H : In (lab i) (labels D)) by (rewrite <- E; apply labels_In; eauto). apply labels_In in H. destruct H as (j & Hj & El).
      rewrite (Hinj i j); auto.
    - assert (H : In (lab i) (labels C)) by (rewrite E; apply labels_In; eauto). apply labels_In in H. destruct H as (j & Hj & El).
      rewrite (Hinj i j); auto.
  Qed.

  (** maximal cliques of indices *)
  Definition clq (E : list nat) : Prop :=
    (forall i, In i E -> i < n) /\ forall i j, In i E -> In j E -> i <> j -> adj i j.
  Definition maxclq (E : list nat) : Prop := clq E /\ forall w, w < n -> (forall i, In i E -> adj i w) -> False.

  (** the cliques a call has to report *)
  Definition due (C I0 E : list nat) : Prop := maxclq E /\ subset C E /\ forall e, In e E -> In e C \/ In e I0.

  Record inv (C I0 X : list nat) : Prop := {
    inv_C : clq C;
    inv_I : NoDup I0;
    inv_X : NoDup X;
    inv_disj : forall v, In v I0 -> ~ In v X;
    inv_common : forall v, v < n -> (In v I0 \/ In v X <-> forall c, In c C -> adj v c);
    inv_lt : forall v, In v I0 \/ In v X -> v < n
  }.

  Definition reports (C I0 : list nat) (P : list nat -> Prop) (R : list (list nat)) : Prop :=
    NoDup R /\ forall r, In r R <-> exists E, due C I0 E /\ P E /\ r = labels E.

  Lemma inv_notin C I0 X v : inv C I0 X -> In v I0 \/ In v X -> ~ In v C.
  Proof. intros H Hv Hc. apply (Hirr v). apply (proj1 (inv_common _ _ _ H v (inv_lt _ _ _ H v Hv)) Hv v Hc). Qed.

  (** the sets of the recursive call *)
  Lemma inv_step C I0 X v nb : inv C I0 X -> In v I0 -> NoDup nb -> (forall j, In j nb <-> adj j v) ->
    inv (C ++ [v]) (set_intersection (set_erase v I0) nb) (set_intersection X nb).
  Proof.
    intros H Hv Nnb Hnb. pose proof (inv_lt _ _ _ H v (or_introl Hv)) as Lv. constructor.
    - destruct (inv_C _ _ _ H) as [C1 C2]. pose proof (proj1 (inv_common _ _ _ H v Lv) (or_introl Hv)) as Ha. split.
      + intros i Hi. apply in_app_or in Hi. destruct Hi as [Hi|[<-|[]]]; auto.
      + intros i j Hi Hj Hij. apply in_app_or in Hi, Hj. destruct Hi as [Hi|[<-|[]]], Hj as [Hj|[<-|[]]]; auto. easy.
    - apply inter_NoDup; auto. apply NoDup_filter, (inv_I _ _ _ H).
    - apply inter_NoDup; auto. apply (inv_X _ _ _ H).
    - intros u H1 H2. apply inter_In in H1, H2. destruct H1 as [H1 _], H2 as [H2 _]. apply erase_In in H1. apply (inv_disj _ _ _ H u); tauto.
    - intros u Lu. rewrite !inter_In, erase_In, Hnb. split.
      + intros Hu c Hc. apply in_app_or in Hc. destruct Hc as [Hc|[<-|[]]]; [|tauto]. apply (inv_common _ _ _ H u Lu); tauto.
      + intro Ha. assert (Hav : adj u v) by (apply Ha, in_or_app; simpl; auto).
        assert (Hu : In u I0 \/ In u X) by (apply (inv_common _ _ _ H u Lu); intros c Hc; apply Ha, in_or_app; auto).
        destruct Hu as [Hu|Hu]; [left|right; tauto]. refine (conj (conj Hu _) Hav). intros ->. apply (Hirr v Hav).
    - intros u Hu. rewrite !inter_In, erase_In in Hu. apply (inv_lt _ _ _ H). tauto.
  Qed.

  Lemma inv_next C I0 X v : inv C I0 X -> In v I0 -> inv C (set_erase v I0) (uset_insert v X).
  Proof.
    intros H Hv. constructor.
    - apply (inv_C _ _ _ H).
    - apply NoDup_filter, (inv_I _ _ _ H).
    - apply uset_insert_NoDup, (inv_X _ _ _ H).
    - intros u H1 H2. apply erase_In in H1. apply uset_insert_In in H2. destruct H2 as [->|H2]; [tauto|]. apply (inv_disj _ _ _ H u); tauto.
    - intros u Lu. rewrite erase_In, uset_insert_In, <- (inv_common _ _ _ H u Lu). destruct (Nat.eq_dec u v) as [->|]; tauto.
    - intros u Hu. rewrite erase_In, uset_insert_In in Hu. apply (inv_lt _ _ _ H). destruct Hu as [|[->|]]; tauto.
  Qed.

  Lemma due_step C I0 X v nb E : inv C I0 X -> In v I0 -> (forall j, In j nb <-> adj j v) ->
    (due (C ++ [v]) (set_intersection (set_erase v I0) nb) E <-> due C I0 E /\ In v E).
  Proof.
    intros H Hv Hnb. split.
    - intros (M & S1 & S2). refine (conj (conj M (conj _ _)) _).
      + intros c Hc. apply S1, in_or_app; auto.
      + intros e He. destruct (S2 e He) as [He'|He'].
        * apply in_app_or in He'. destruct He' as [|[<-|[]]]; auto.
        * apply inter_In in He'. destruct He' as [He' _]. apply erase_In in He'. tauto.
      + apply S1, in_or_app; simpl; auto.
    - intros ((M & S1 & S2) & HvE). refine (conj M (conj _ _)).
      + intros c Hc. apply in_app_or in Hc. destruct Hc as [|[<-|[]]]; auto.
      + intros e He. destruct (S2 e He) as [|HeI]; [left; apply in_or_app; auto|].
        destruct (Nat.eq_dec e v) as [->|Hev]; [left; apply in_or_app; simpl; auto|].
        right. apply inter_In. rewrite erase_In, Hnb. refine (conj (conj HeI Hev) _). destruct M as [[_ M] _]. auto.
  Qed.

  Lemma due_next C I0 X v E : inv C I0 X -> In v I0 -> (due C (set_erase v I0) E <-> due C I0 E /\ ~ In v E).
  Proof.
    intros H Hv. split.
    - intros (M & S1 & S2). refine (conj (conj M (conj S1 _)) _).
      + intros e He. destruct (S2 e He) as [|He']; auto. apply erase_In in He'. tauto.
      + intro HvE. destruct (S2 v HvE) as [Hc|Hc]; [apply (inv_notin C I0 X v H); auto|]. apply erase_In in Hc. tauto.
    - intros ((M & S1 & S2) & HvE). refine (conj M (conj S1 _)). intros e He. destruct (S2 e He) as [|HeI]; auto.
      right. apply erase_In. split; auto. intros ->. auto.
  Qed.

  Lemma due_lt C I0 E i : due C I0 E -> In i E -> i < n.
  Proof. intros (M & _) Hi. apply (proj1 (proj1 M) i Hi). Qed.

  (** the loop, where [skip] tells which elements are passed over *)
  Section Loop.
    Variable recur : list nat -> list nat -> list nat -> list (list nat) -> outcome (list (list nat)).
    Variable C : list nat.
    Variable skip : nat -> bool.
    Variable bound : nat.
    Hypothesis Hrec : forall C I0 X cl, length I0 < bound -> inv C I0 X ->
      exists R, recur C I0 X cl = Ok (cl ++ R) /\ reports C I0 (fun _ => True) R.

    Definition body (st : list nat * list nat * list (list nat)) (element : nat) : outcome (list nat * list nat * list (list nat)) :=
      let '(I0, X, cliques) := st in
      if skip element then Ok (I0, X, cliques)
      else
        let I0 := set_erase element I0 in
        let* neighbours := sp_column A element in
        let* cliques := recur (C ++ [element]) (set_intersection I0 neighbours) (set_intersection X neighbours) cliques in
        Ok (I0, uset_insert element X, cliques).

    Lemma loop l : forall I0 X cl, NoDup l -> (forall v, In v l -> In v I0) -> inv C I0 X -> length I0 <= bound ->
      exists I1 X1 R, foldM body l (I0, X, cl) = Ok (I1, X1, cl ++ R) /\
        reports C I0 (fun E => exists v, In v l /\ skip v = false /\ In v E) R.
    Proof.
      induction l as [|v l IH]; intros I0 X cl Hn Hl HI Hb; cbn [foldM].
      - exists I0, X, []. rewrite app_nil_r. split; auto. split; [constructor|]. intro r. split; [easy|]. intros (E & _ & (w & [] & _) & _).
      - inversion Hn as [|? ? Hv Hn']; subst. unfold body at 1. destruct (skip v) eqn:Es.
        + cbn [bind]. destruct (IH I0 X cl Hn') as (I1 & X1 & R & E & (RN & RI)); auto; [intros; apply Hl; simpl; auto|].
          exists I1, X1, R. split; auto. split; auto. intro r. rewrite RI. split; intros (D & HD & (w & Hw & Hs & HwD) & ->).
          * exists D. refine (conj HD (conj _ eq_refl)). exists w. simpl. auto.
          * exists D. refine (conj HD (conj _ eq_refl)). exists w. destruct Hw as [<-|Hw]; [congruence|auto].
        + assert (HvI : In v I0) by (apply Hl; simpl; auto). pose proof (inv_lt _ _ _ HI v (or_introl HvI)) as Lv.
          destruct (column_ok v Lv) as (nb & Enb & Nnb & Inb & _). rewrite Enb. cbn [bind]. cbv zeta.
          assert (Hlen : length (set_erase v I0) < length I0).
          { unfold set_erase. pose proof (filter_remove_length v I0 (inv_I _ _ _ HI) HvI). lia. }
          destruct (Hrec (C ++ [v]) (set_intersection (set_erase v I0) nb) (set_intersection X nb) cl) as (R1 & E1 & (RN1 & RI1)).
          { apply (Nat.le_lt_trans _ (length (set_erase v I0))); [|lia]. apply NoDup_incl_length.
            - apply inter_NoDup; auto. apply NoDup_filter, (inv_I _ _ _ HI).
            - intros u Hu. apply inter_In in Hu. tauto. }
          { eapply inv_step; eauto. }
          rewrite E1. cbn [bind].
          destruct (IH (set_erase v I0) (uset_insert v X) (cl ++ R1) Hn') as (I1 & X1 & R & E & (RN & RI)).
          { intros u Hu. apply erase_In. split; [apply Hl; simpl; auto|]. intros ->. auto. }
          { apply inv_next; auto. }
          { lia. }
          exists I1, X1, (R1 ++ R). split; [rewrite E, app_assoc; auto|]. split.
          * apply NoDup_app_intro; auto. intros r H1 H2. apply RI1 in H1. apply RI in H2.
            destruct H1 as (D1 & HD1 & _ & ->), H2 as (D2 & HD2 & _ & EL).
            apply (due_step C I0 X v nb D1 HI HvI Inb) in HD1. apply (due_next C I0 X v D2 HI HvI) in HD2.
            destruct HD1 as [HD1 V1], HD2 as [HD2 V2]. apply V2.
            assert (Eset : set_eq D1 D2) by (apply labels_inj; auto; intros i Hi; [exact (due_lt _ _ _ i HD1 Hi)|exact (due_lt _ _ _ i HD2 Hi)]). apply Eset. auto.
          * intro r. rewrite in_app_iff, RI1, RI. split.
            -- intros [(D & HD & _ & ->)|(D & HD & (w & Hw & Hs & HwD) & ->)].
               ++ apply (due_step C I0 X v nb D HI HvI Inb) in HD. destruct HD as [HD V]. exists D. refine (conj HD (conj _ eq_refl)). exists v. simpl. auto.
               ++ apply (due_next C I0 X v D HI HvI) in HD. destruct HD as [HD V]. exists D. refine (conj HD (conj _ eq_refl)). exists w. simpl. auto.
            -- intros (D & HD & (w & Hw & Hs & HwD) & ->). destruct (in_dec Nat.eq_dec v D) as [V|V].
               ++ left. exists D. refine (conj _ (conj Logic.I eq_refl)). apply (due_step C I0 X v nb D HI HvI Inb). auto.
               ++ right. exists D. refine (conj _ (conj _ eq_refl)); [apply (due_next C I0 X v D HI HvI); auto|].
                  exists w. destruct Hw as [<-|Hw]; [easy|auto].
    Qed.
  End Loop.

  Lemma reports_weaken C I0 (P Q : list nat -> Prop) R : (forall E, due C I0 E -> (P E <-> Q E)) -> reports C I0 P R -> reports C I0 Q R.
  Proof.
    intros H (N & HR). split; auto. intro r. rewrite HR. split; intros (E & HE & HP & ->); exists E; (refine (conj HE (conj _ eq_refl))); apply H; auto.
  Qed.

  Lemma report_leaf C : inv C [] [] -> reports C [] (fun _ => True) [labels C].
  Proof.
    intro H. split; [repeat constructor; auto|]. intro r. simpl. split.
    - intros [<-|[]]. exists C. refine (conj _ (conj Logic.I eq_refl)). refine (conj (conj (inv_C _ _ _ H) _) (conj (fun v Hv => Hv) (fun e He => or_introl He))).
      intros w Hw Ha. pose proof (proj2 (inv_common _ _ _ H w Hw)) as F. destruct F as [[]|[]]. intros c Hc. apply Hsym, Ha; auto.
    - intros (E & (_ & S1 & S2) & _ & ->). left. apply labels_ext. intro v. split; [apply S1|]. intro Hv. destruct (S2 v Hv) as [|[]]; auto.
  Qed.

  (** a call that has to report something descends *)
  Lemma not_finished C I0 X E : inv C I0 X -> (I0 <> [] \/ X <> []) -> due C I0 E -> exists v, In v I0 /\ In v E.
  Proof.
    intros H Hne (M & S1 & S2).
    assert (Hw : exists w, In w I0 \/ In w X) by (destruct I0 as [|w ?]; [destruct X as [|w ?]; [destruct Hne; easy|exists w; simpl; auto]|exists w; simpl; auto]).
    destruct Hw as (w & Hw). pose proof (inv_lt _ _ _ H w Hw) as Lw. pose proof (proj1 (inv_common _ _ _ H w Lw) Hw) as Ha.
    destruct (existsb (fun e => mem e I0) E) eqn:Ex.
    - apply existsb_exists in Ex. destruct Ex as (e & He & Em). apply mem_In in Em. eauto.
    - exfalso. apply (proj2 M w Lw). intros e He. apply Hsym, Ha. destruct (S2 e He) as [|He']; auto. exfalso.
      rewrite <- not_true_iff_false in Ex. apply Ex. apply existsb_exists. exists e. split; auto. apply mem_In; auto.
  Qed.

  Lemma foldM_ext {S0 B} (f g : S0 -> B -> outcome S0) l s : (forall s b, In b l -> f s b = g s b) -> foldM f l s = foldM g l s.
  Proof.
    revert s. induction l as [|b l IH]; intros s H; cbn [foldM]; auto. rewrite H by (simpl; auto). destruct (g s b); auto. cbn [bind].
    apply IH. intros; apply H; simpl; auto.
  Qed.

  Lemma bron_kerbosch fuel : forall C I0 X cl, length I0 < fuel -> inv C I0 X ->
    exists R, enumerateBronKerbosch order A fuel C I0 X cl = Ok (cl ++ R) /\ reports C I0 (fun _ => True) R.
  Proof.
    induction fuel as [|fuel IH]; intros C I0 X cl Hf HI; [lia|].
    destruct I0 as [|a I1] eqn:EI, X as [|b X1] eqn:EX.
    - cbn [enumerateBronKerbosch]. rewrite newClique_ok by apply (inv_C _ _ _ HI). cbn [bind]. exists [labels C]. split; auto. apply report_leaf; auto.
    - exists []. rewrite app_nil_r. assert (Eo : order C [] = []) by (apply Permutation_nil, Permutation_sym, order_perm).
      cbn [enumerateBronKerbosch]. rewrite Eo. cbn [foldM bind snd]. split; auto. split; [constructor|]. intro r. split; [easy|].
      intros (E & HE & _ & _). destruct (not_finished C [] (b :: X1) E HI) as (v & [] & _); auto. right; discriminate.
    - rewrite <- EX, <- EI in *. assert (Hne : I0 <> [] \/ X <> []) by (left; rewrite EI; discriminate).
      assert (Hstep : enumerateBronKerbosch order A (S fuel) C I0 X cl =
        let* r := foldM (body (enumerateBronKerbosch order A fuel) C (fun _ => false)) (order C I0) (I0, X, cl) in Ok (snd r)).
      { rewrite EI. destruct X; reflexivity. }
      rewrite Hstep. destruct (loop (enumerateBronKerbosch order A fuel) C (fun _ => false) fuel IH (order C I0) I0 X cl) as (I2 & X2 & R & E & HR).
      + apply (Permutation_NoDup (Permutation_sym (order_perm C I0))), (inv_I _ _ _ HI).
      + intros v Hv. apply (Permutation_in _ (order_perm C I0)); auto.
      + auto.
      + lia.
      + rewrite E. cbn [bind snd]. exists R. split; auto. eapply reports_weaken; [|exact HR]. cbv beta. intros D HD. split; auto. intros _.
        destruct (not_finished C I0 X D HI Hne HD) as (v & H1 & H2). exists v. refine (conj _ (conj eq_refl H2)).
        apply (Permutation_in _ (Permutation_sym (order_perm C I0))); auto.
    - rewrite <- EX, <- EI in *. assert (Hne : I0 <> [] \/ X <> []) by (left; rewrite EI; discriminate).
      assert (Hstep : enumerateBronKerbosch order A (S fuel) C I0 X cl =
        let* r := foldM (body (enumerateBronKerbosch order A fuel) C (fun _ => false)) (order C I0) (I0, X, cl) in Ok (snd r)).
      { rewrite EI. destruct X; reflexivity. }
      rewrite Hstep. destruct (loop (enumerateBronKerbosch order A fuel) C (fun _ => false) fuel IH (order C I0) I0 X cl) as (I2 & X2 & R & E & HR).
      + apply (Permutation_NoDup (Permutation_sym (order_perm C I0))), (inv_I _ _ _ HI).
      + intros v Hv. apply (Permutation_in _ (order_perm C I0)); auto.
      + auto.
      + lia.
      + rewrite E. cbn [bind snd]. exists R. split; auto. eapply reports_weaken; [|exact HR]. cbv beta. intros D HD. split; auto. intros _.
        destruct (not_finished C I0 X D HI Hne HD) as (v & H1 & H2). exists v. refine (conj _ (conj eq_refl H2)).
        apply (Permutation_in _ (Permutation_sym (order_perm C I0))); auto.
  Qed.

  Lemma pivot_ok it : it <> [] -> (forall v, In v it -> v < n) -> exists p, koch_pivot A it = Ok p /\ In p it.
  Proof.
    intros Hne Hl. unfold koch_pivot.
    assert (G : forall l acc, (forall v, In v l -> v < n) -> exists r, foldM (fun acc v =>
       let* degree := sp_numEntries A v in Ok (if snd acc <? degree then (v, degree) else acc)) l acc = Ok r /\ (fst r = fst acc \/ In (fst r) l)).
    { induction l as [|v l IH]; intros acc H; cbn [foldM]; [eauto|].
      destruct (column_ok v) as (c & _ & _ & _ & _ & E); [apply H; simpl; auto|]. rewrite E. cbn [bind].
      destruct (IH (if snd acc <? length c then (v, length c) else acc)) as (r & Er & Hr); [intros; apply H; simpl; auto|].
      exists r. split; auto. destruct Hr as [Hr|Hr]; [|simpl; auto]. destruct (snd acc <? length c); simpl in *; auto. }
    destruct (G it (hd 0 it, 0) Hl) as (r & -> & Hr). cbn [bind]. exists (fst r). split; auto. cbn [fst] in Hr. destruct Hr as [->|]; auto.
    destruct it; [easy|simpl; auto].
  Qed.

  Lemma koch fuel : forall C I0 X cl, length I0 < fuel -> inv C I0 X ->
    exists R, enumerateKoch order A fuel C I0 X cl = Ok (cl ++ R) /\ reports C I0 (fun _ => True) R.
  Proof.
    induction fuel as [|fuel IH]; intros C I0 X cl Hf HI; [lia|].
    destruct (list_eq_dec Nat.eq_dec I0 []) as [->|HneI].
    - destruct X as [|b X1].
      + cbn [enumerateKoch]. rewrite newClique_ok by apply (inv_C _ _ _ HI). cbn [bind]. exists [labels C]. split; auto. apply report_leaf; auto.
      + exists []. rewrite app_nil_r. cbn [enumerateKoch]. split; auto. split; [constructor|]. intro r. split; [easy|].
        intros (E & HE & _ & _). destruct (not_finished C [] (b :: X1) E HI) as (v & [] & _); auto. right; discriminate.
    - assert (Hitne : order C I0 <> []).
      { intro E. pose proof (order_perm C I0) as P. rewrite E in P. apply Permutation_nil in P. auto. }
      destruct (pivot_ok (order C I0) Hitne) as (p & Ep & Hp).
      { intros v Hv. apply (inv_lt _ _ _ HI). left. apply (Permutation_in _ (order_perm C I0)); auto. }
      assert (HpI : In p I0) by (apply (Permutation_in _ (order_perm C I0)); auto).
      pose proof (inv_lt _ _ _ HI p (or_introl HpI)) as Lp. destruct (column_ok p Lp) as (np & _ & _ & Inp & Gp & _).
      assert (Hstep : enumerateKoch order A (S fuel) C I0 X cl =
        let* r := foldM (body (enumerateKoch order A fuel) C (fun e => mem e np)) (order C I0) (I0, X, cl) in Ok (snd r)).
      { assert (E1 : enumerateKoch order A (S fuel) C I0 X cl =
          let it := order C I0 in
            let* pivot := koch_pivot A it in
            let* r := foldM (fun st element =>
              let '(I0, X, cliques) := st in
              let* adjacent := sp_get A element pivot in
              if adjacent then Ok (I0, X, cliques)
              else
                let I0 := set_erase element I0 in
                let* neighbours := sp_column A element in
                let* cliques := enumerateKoch order A fuel (C ++ [element]) (set_intersection I0 neighbours)
                                              (set_intersection X neighbours) cliques in
                Ok (I0, uset_insert element X, cliques)) it (I0, X, cl) in
            Ok (snd r)).
        { destruct I0 as [|x I0]; [easy|]. destruct X; reflexivity. }
        rewrite E1. cbv zeta. rewrite Ep. cbn [bind]. f_equal. apply foldM_ext. intros [[i x] c] e _. rewrite Gp. reflexivity. }
      rewrite Hstep. destruct (loop (enumerateKoch order A fuel) C (fun e => mem e np) fuel IH (order C I0) I0 X cl) as (I2 & X2 & R & E & HR).
      + apply (Permutation_NoDup (Permutation_sym (order_perm C I0))), (inv_I _ _ _ HI).
      + intros v Hv. apply (Permutation_in _ (order_perm C I0)); auto.
      + auto.
      + lia.
      + rewrite E. cbn [bind snd]. exists R. split; auto. eapply reports_weaken; [|exact HR]. cbv beta. intros D HD. split; auto. intros _.
        pose proof HD as (M & S1 & S2).
        destruct (existsb (fun e => negb (mem e np)) (filter (fun e => mem e I0) D)) eqn:Ex.
        * apply existsb_exists in Ex. destruct Ex as (e & He & Em). apply filter_In in He. destruct He as [He HeI]. apply mem_In in HeI. apply negb_true_iff in Em.
          exists e. refine (conj _ (conj Em He)). apply (Permutation_in _ (Permutation_sym (order_perm C I0))); auto.
        * exfalso. apply (proj2 M p Lp). intros e He. destruct (S2 e He) as [HeC|HeI].
          -- apply Hsym. apply (proj1 (inv_common _ _ _ HI p Lp) (or_introl HpI)); auto.
          -- apply Inp. destruct (mem e np) eqn:Em; [apply mem_In; auto|]. exfalso. rewrite <- not_true_iff_false in Ex. apply Ex.
             apply existsb_exists. exists e. rewrite Em. split; auto. apply filter_In. split; auto. apply mem_In; auto.
  Qed.

  (** the initial call *)
  Lemma inv_start : inv [] (seq 0 n) [].
  Proof.
    constructor.
    - split; intros; contradiction.
    - apply seq_NoDup.
    - constructor.
    - intros v _ [].
    - intros v Hv. rewrite in_seq. split; [intros _ c []|]. intros _. left. lia.
    - intros v [Hv|[]]. apply in_seq in Hv. lia.
  Qed.

  Lemma due_start E : due [] (seq 0 n) E <-> maxclq E.
  Proof.
    split; [intros (M & _); exact M|]. intro M. refine (conj M (conj _ _)); [intros v []|]. intros e He. right. apply in_seq.
    pose proof (proj1 (proj1 M) e He). lia.
  Qed.
End Enum.
