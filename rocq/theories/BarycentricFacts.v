(** * Facts about the model of the barycentric subdivision *)

From Coq Require Import List Arith Bool ZArith Lia Permutation Sorted.
From Verif Require Import Base BaseFacts Simplex SimplexFacts SpecComplex Complex ComplexFacts ClosureFacts FiltrationFacts History Subcomplex SubcomplexFacts
  Quotient PropertiesComplex PropertiesQuotient Intersections PropertiesIntersections FloydFacts SpecBarycentric Barycentric.
Import ListNotations.

Lemma foldM_app {A B} (f : B -> A -> outcome B) l1 : forall l2 a, foldM f (l1 ++ l2) a = (let* b := foldM f l1 a in foldM f l2 b).
Proof. induction l1 as [|x l1 IH]; intros l2 a; cbn [app foldM bind]; [reflexivity|]. destruct (f a x); cbn [bind]; auto. Qed.

(** ** sets of simplices *)
Definition ssorted := StronglySorted (fun a b => s_ltb a b = true).
Lemma ssorted_NoDup l : ssorted l -> NoDup (map verts l).
Proof.
  induction 1 as [|s l HS IH HF]; cbn [map]; constructor; auto. intro X. apply in_map_iff in X. destruct X as (t & E & Ht). rewrite Forall_forall in HF. specialize (HF t Ht).
  unfold s_ltb in HF. rewrite E, lex_irrefl in HF. discriminate.
Qed.
Lemma insert_all_verts l : forall acc vs, In vs (map verts (sset_insert_all l acc)) <-> In vs (map verts l) \/ In vs (map verts acc).
Proof.
  induction l as [|s l IH]; intros acc vs; cbn [sset_insert_all fold_left map In]; [tauto|]. fold (sset_insert_all l (sset_insert s acc)). rewrite IH, sset_insert_verts. intuition congruence.
Qed.
Lemma insert_all_sorted l : forall acc, ssorted acc -> ssorted (sset_insert_all l acc).
Proof.
  induction l as [|s l IH]; intros acc H; cbn [sset_insert_all fold_left]; auto. apply IH. apply sset_insert_sorted. exact H.
Qed.
Lemma insert_all_In l : forall acc t, In t (sset_insert_all l acc) -> In t l \/ In t acc.
Proof.
  induction l as [|s l IH]; intros acc t; cbn [sset_insert_all fold_left]; auto. fold (sset_insert_all l (sset_insert s acc)). intro H. destruct (IH _ _ H) as [X|X]; [simpl; auto|].
  destruct (sset_insert_In _ _ _ X) as [->|Y]; simpl; auto.
Qed.

Lemma fold_boundaries l : forall acc,
  (ssorted acc -> ssorted (fold_left (fun acc s => sset_insert_all (boundary s) acc) l acc)) /\
  (forall t, In t (fold_left (fun acc s => sset_insert_all (boundary s) acc) l acc) -> (exists s, In s l /\ In t (boundary s)) \/ In t acc) /\
  forall vs, In vs (map verts (fold_left (fun acc s => sset_insert_all (boundary s) acc) l acc)) <->
    (exists s, In s l /\ In vs (map verts (boundary s))) \/ In vs (map verts acc).
Proof.
  induction l as [|s l IH]; intro acc; cbn [fold_left].
  - split; [auto|]. split; [auto|]. intro vs. split; [auto|]. intros [(s & [] & _)|H]; auto.
  - destruct (IH (sset_insert_all (boundary s) acc)) as (A & B & C). split; [intro H; apply A, insert_all_sorted, H|]. split.
    + intros t Ht. destruct (B t Ht) as [(u & Hu & X)|X]; [left; exists u; simpl; auto|]. destruct (insert_all_In _ _ _ X) as [Y|Y]; auto. left. exists s. simpl. auto.
    + intro vs. rewrite C, insert_all_verts. split.
      * intros [(u & Hu & X)|[X|X]]; [left; exists u; simpl; auto|left; exists s; simpl; auto|auto].
      * intros [(u & [<-|Hu] & X)|X]; [auto|left; exists u; auto|auto].
Qed.

Lemma NoDup_incl_same {A} (l m : list A) : NoDup l -> length m <= length l -> incl l m -> incl m l.
Proof. intros H1 H2 H3. apply NoDup_length_incl; auto. Qed.

(** ** [collectBoundaries] *)
Section Collect.
  Variable s : simplex.
  Hypothesis Ws : wf s.

  Definition proper_nonempty (vs : list nat) : Prop :=
    StronglySorted gt vs /\ vs <> [] /\ subset vs (verts s) /\ length vs < length (verts s).

  Lemma facet_of vs : proper_nonempty vs -> exists f, In f (boundary s) /\ subset vs (verts f) /\ wf f.
  Proof.
    intros (S1 & S2 & S3 & S4). assert (E : exists v, In v (verts s) /\ ~ In v vs).
    { destruct (subset_dec (verts s) vs) as [H|H]; [|exact H]. exfalso. pose proof (NoDup_incl_length (SSgt_NoDup _ Ws) H). lia. }
    destruct E as (v & Hv & Hn). exists (boundary_face s v). split; [|split; [|apply boundary_face_wf]].
    - unfold boundary. destruct (Nat.leb_spec (s_size s) 1) as [L|L]; [|apply in_map; exact Hv]. unfold s_size in L. destruct vs; [easy|simpl in S4; lia].
    - intros u Hu. apply boundary_face_In. split; [auto|]. intros ->. auto.
  Qed.

  Lemma boundary_proper f : In f (boundary s) -> proper_nonempty (verts f).
  Proof.
    intro H. pose proof (boundary_wf s f H) as W. pose proof (boundary_size s f Ws H) as L. unfold s_size in L.
    assert (2 <= length (verts s)). { unfold boundary in H. destruct (Nat.leb_spec (s_size s) 1) as [X|X]; [destruct H|exact X]. }
    refine (conj W (conj _ (conj _ _))); [intro E; rewrite E in L; simpl in L; lia| |lia]. intros v Hv. apply (boundary_incl s f v H Hv).
  Qed.
End Collect.

Lemma proper_trans s t vs : proper_nonempty s (verts t) -> proper_nonempty t vs -> proper_nonempty s vs.
Proof.
  intros (A & B & C & D) (A' & B' & C' & D'). refine (conj A' (conj B' (conj _ _))); [|lia]. intros v Hv. auto.
Qed.

Lemma collect_loop_ok s (Ws : wf s) : forall fuel k X, ssorted X ->
  (forall t, In t X -> wf t) ->
  (forall vs, In vs (map verts X) -> proper_nonempty s vs) ->
  (forall vs, proper_nonempty s vs -> length (verts s) <= length vs + S k -> In vs (map verts X)) ->
  length (verts s) < fuel + k ->
  1 <= fuel ->
  exists R, collect_loop fuel X = Ok R /\ ssorted R /\ (forall t, In t R -> wf t) /\ forall vs, In vs (map verts R) <-> proper_nonempty s vs.
Proof.
  induction fuel as [|fuel IH]; intros k X HS HW Hsound Hcomp Hf H1; [lia|]. cbn [collect_loop].
  destruct (fold_boundaries X []) as (A & A1 & B). specialize (A (SSorted_nil _)). set (bs := fold_left _ X []) in *. set (new := sset_insert_all bs X).
  assert (NS : ssorted new) by (apply insert_all_sorted; exact HS).
  assert (NW : forall t, In t new -> wf t).
  { intros t Ht. apply insert_all_In in Ht. destruct Ht as [Ht|Ht]; [|auto]. destruct (A1 t Ht) as [(u & Hu & Hb)|[]]. apply (boundary_wf u t Hb). }
  assert (NI : forall vs, In vs (map verts new) <-> (exists t, In t X /\ In vs (map verts (boundary t))) \/ In vs (map verts X)).
  { intro vs. unfold new. rewrite insert_all_verts, B. cbn [map In]. tauto. }
  assert (Nsound : forall vs, In vs (map verts new) -> proper_nonempty s vs).
  { intros vs H. apply NI in H. destruct H as [(t & Ht & H)|H]; [|auto]. apply in_map_iff in H. destruct H as (f & <- & Hf').
    apply (proper_trans s t); [apply Hsound, in_map, Ht|]. apply boundary_proper; auto. }
  destruct (Nat.eqb_spec (length new) (length X)) as [E|E].
  - exists new. split; [reflexivity|]. split; [exact NS|]. split; [exact NW|]. intro vs. split; [apply Nsound|]. intro P.
    (* closed under boundaries *)
    assert (Inc : incl (map verts new) (map verts X)).
    { apply NoDup_incl_same; [apply ssorted_NoDup; exact HS|rewrite !map_length; lia|]. intros w Hw. apply NI. auto. }
    assert (G : forall j vs, proper_nonempty s vs -> length (verts s) <= length vs + S j -> In vs (map verts X)).
    { induction j as [|j IHj]; intros ws Pw Hl.
      - apply Hcomp; [exact Pw|lia].
      - destruct (Nat.le_gt_cases (length (verts s)) (length ws + S j)) as [Hle|Hgt]; [apply IHj; auto|].
        (* enlarge *)
        destruct Pw as (P1 & P2 & P3 & P4). assert (Ex : exists v, In v (verts s) /\ ~ In v ws).
        { destruct (subset_dec (verts s) ws) as [H|H]; [|exact H]. exfalso. pose proof (NoDup_incl_length (SSgt_NoDup _ Ws) H). lia. }
        destruct Ex as (v & Hv & Hn).
        assert (Lf : length (verts (simplex_of (v :: ws) 0)) = S (length ws)).
        { change (S (length ws)) with (length (v :: ws)). apply Nat.le_antisymm; apply NoDup_incl_length.
          - apply SSgt_NoDup, simplex_of_wf.
          - intros u Hu. apply simplex_of_In in Hu. exact Hu.
          - constructor; [exact Hn|apply SSgt_NoDup; exact P1].
          - intros u Hu. apply simplex_of_In. exact Hu. }
        assert (Pf : proper_nonempty s (verts (simplex_of (v :: ws) 0))).
        { refine (conj (simplex_of_wf _ _) (conj _ (conj _ _))).
          - intro X0. rewrite X0 in Lf. discriminate.
          - intros u Hu. apply simplex_of_In in Hu. destruct Hu as [<-|Hu]; auto.
          - rewrite Lf. lia. }
        specialize (IHj _ Pf ltac:(rewrite Lf; lia)). apply in_map_iff in IHj. destruct IHj as (t & Et & Ht). apply Inc, NI. left. exists t. split; [exact Ht|].
        assert (Wt : wf t) by auto. assert (Pt : proper_nonempty t ws).
        { refine (conj P1 (conj P2 (conj _ _))); [|rewrite Et, Lf; lia]. intros u Hu. rewrite Et. apply simplex_of_In. simpl. auto. }
        destruct (facet_of t Wt ws Pt) as (f & Hf' & Sub & Wf). apply in_map_iff. exists f. split; [|exact Hf'].
        pose proof (boundary_size t f Wt Hf') as Lsz. unfold s_size in Lsz. rewrite Et, Lf in Lsz.
        change ws with (verts (Simplex ws 0)). apply wf_ext; [exact Wf|exact P1|]. intro u. cbn [verts]. split; [|apply Sub].
        intro Hu. apply (NoDup_length_incl (SSgt_NoDup _ P1)) in Sub; [apply Sub; exact Hu|lia]. }
    apply NI. right. apply (G (length (verts s))); [exact P|lia].
  - assert (Ncomp : forall vs, proper_nonempty s vs -> length (verts s) <= length vs + S (S k) -> In vs (map verts new)).
    { intros ws (P1 & P2 & P3 & P4) Hl. apply NI. destruct (Nat.le_gt_cases (length (verts s)) (length ws + S k)) as [Hle|Hgt]; [right; apply Hcomp; [exact (conj P1 (conj P2 (conj P3 P4)))|exact Hle]|].
      left. assert (Ex : exists v, In v (verts s) /\ ~ In v ws).
      { destruct (subset_dec (verts s) ws) as [H|H]; [|exact H]. exfalso. pose proof (NoDup_incl_length (SSgt_NoDup _ Ws) H). lia. }
      destruct Ex as (v & Hv & Hn).
      assert (Lf : length (verts (simplex_of (v :: ws) 0)) = S (length ws)).
      { change (S (length ws)) with (length (v :: ws)). apply Nat.le_antisymm; apply NoDup_incl_length.
        - apply SSgt_NoDup, simplex_of_wf.
        - intros u Hu. apply simplex_of_In in Hu. exact Hu.
        - constructor; [exact Hn|apply SSgt_NoDup; exact P1].
        - intros u Hu. apply simplex_of_In. exact Hu. }
      assert (Pf : proper_nonempty s (verts (simplex_of (v :: ws) 0))).
      { refine (conj (simplex_of_wf _ _) (conj _ (conj _ _))).
        - intro X0. rewrite X0 in Lf. discriminate.
        - intros u Hu. apply simplex_of_In in Hu. destruct Hu as [<-|Hu]; auto.
        - rewrite Lf. lia. }
      pose proof (Hcomp _ Pf ltac:(rewrite Lf; lia)) as IHj. apply in_map_iff in IHj. destruct IHj as (t & Et & Ht). exists t. split; [exact Ht|].
      assert (Wt : wf t) by auto. assert (Pt : proper_nonempty t ws).
      { refine (conj P1 (conj P2 (conj _ _))); [|rewrite Et, Lf; lia]. intros u Hu. rewrite Et. apply simplex_of_In. simpl. auto. }
      destruct (facet_of t Wt ws Pt) as (f & Hf' & Sub & Wf). apply in_map_iff. exists f. split; [|exact Hf'].
      pose proof (boundary_size t f Wt Hf') as Lsz. unfold s_size in Lsz. rewrite Et, Lf in Lsz.
      change ws with (verts (Simplex ws 0)). apply wf_ext; [exact Wf|exact P1|]. intro u. cbn [verts]. split; [|apply Sub].
      intro Hu. apply (NoDup_length_incl (SSgt_NoDup _ P1)) in Sub; [apply Sub; exact Hu|lia]. }
    destruct (Nat.eq_dec fuel 0) as [F0|F0].
    + (* nothing is left to be found *)
      exfalso. apply E. apply Nat.le_antisymm; [|].
      * rewrite <- (map_length verts new), <- (map_length verts X). apply NoDup_incl_length; [apply ssorted_NoDup; exact NS|]. intros w Hw. apply Hcomp; [apply Nsound; exact Hw|lia].
      * rewrite <- (map_length verts new), <- (map_length verts X). apply NoDup_incl_length; [apply ssorted_NoDup; exact HS|]. intros w Hw. apply NI. auto.
    + apply (IH (S k) new); auto; lia.
Qed.

Lemma collectBoundaries_ok s : wf s ->
  exists R, collectBoundaries s = Ok R /\ ssorted R /\ (forall t, In t R -> wf t) /\ forall vs, In vs (map verts R) <-> proper_nonempty s vs.
Proof.
  intro Ws. unfold collectBoundaries. apply (collect_loop_ok s Ws _ 0).
  - apply insert_all_sorted. constructor.
  - intros t Ht. apply insert_all_In in Ht. destruct Ht as [Ht|[]]. apply (boundary_wf s t Ht).
  - intros vs H. apply insert_all_verts in H. destruct H as [H|[]]. apply in_map_iff in H. destruct H as (f & <- & Hf). apply boundary_proper; auto.
  - intros vs P Hl. apply insert_all_verts. left. destruct (facet_of s Ws vs P) as (f & Hf & Sub & Wf). apply in_map_iff. exists f. split; [|exact Hf].
    pose proof (boundary_size s f Ws Hf) as Lsz. unfold s_size in Lsz. destruct P as (P1 & P2 & P3 & P4).
    change vs with (verts (Simplex vs 0)). apply wf_ext; [exact Wf|exact P1|]. intro u. cbn [verts]. split; [|apply Sub].
    intro Hu. apply (NoDup_length_incl (SSgt_NoDup _ P1)) in Sub; [apply Sub; exact Hu|lia].
  - unfold s_size. lia.
  - lia.
Qed.

Lemma collect_range_ok l : (forall s, In s l -> wf s) ->
  exists R, collectBoundaries_range l = Ok R /\ (forall t, In t R -> wf t) /\ forall vs, In vs (map verts R) <-> exists s, In s l /\ proper_nonempty s vs.
Proof.
  intro W. unfold collectBoundaries_range. assert (G : forall l acc, (forall s, In s l -> wf s) -> (forall t, In t acc -> wf t) ->
    exists R, foldM (fun acc s => let* b := collectBoundaries s in Ok (sset_insert_all b acc)) l acc = Ok R /\ (forall t, In t R -> wf t) /\
      forall vs, In vs (map verts R) <-> (exists s, In s l /\ proper_nonempty s vs) \/ In vs (map verts acc)).
  { clear. induction l as [|s l IH]; intros acc W Wa; cbn [foldM].
    - exists acc. split; [reflexivity|]. split; [exact Wa|]. intro vs. split; [auto|]. intros [(s & [] & _)|H]; exact H.
    - destruct (collectBoundaries_ok s (W s (or_introl eq_refl))) as (R & E & _ & WR & HR). rewrite E. cbn [bind].
      destruct (IH (sset_insert_all R acc)) as (R' & E' & W' & H').
      + intros; apply W; simpl; auto.
      + intros t Ht. apply insert_all_In in Ht. destruct Ht; auto.
      + exists R'. split; [exact E'|]. split; [exact W'|]. intro vs. rewrite H', insert_all_verts, HR. split.
        * intros [(u & Hu & P)|[P|P]]; [left; exists u; simpl; auto|left; exists s; simpl; auto|auto].
        * intros [(u & [<-|Hu] & P)|P]; [auto|left; exists u; auto|auto]. }
  destruct (G l [] W ltac:(easy)) as (R & E & WR & HR). exists R. split; [exact E|]. split; [exact WR|]. intro vs. rewrite HR. cbn [map In]. tauto.
Qed.

(** ** faces and chains *)
Lemma pf_size s t : wf t -> proper_face t s -> length (verts t) < length (verts s).
Proof.
  intros Wt [A B]. destruct (Nat.lt_ge_cases (length (verts t)) (length (verts s))) as [H|H]; [exact H|]. exfalso. apply B. apply NoDup_length_incl; [apply SSgt_NoDup; exact Wt|exact H|exact A].
Qed.
Lemma pf_intro s t : wf s -> subset (verts t) (verts s) -> length (verts t) < length (verts s) -> proper_face t s.
Proof. intros Ws A B. split; [exact A|]. intro C. pose proof (NoDup_incl_length (SSgt_NoDup _ Ws) C). lia. Qed.
Lemma pf_trans r s t : proper_face t s -> proper_face s r -> proper_face t r.
Proof. intros [A B] [C D]. split; [intros v Hv; apply C, A, Hv|]. intro E. apply D. intros v Hv. apply A, E, Hv. Qed.

Lemma insert_into_any l : forall L, reachable L -> (forall s, In s l -> good s) ->
  exists L', insert_into L l = Ok L' /\ reachable L' /\ (forall x, In x (by_index L') -> In x (by_index L) \/ In x l) /\
    forall x, In x (by_index L) \/ In x l -> In (verts x) (map verts (by_index L')).
Proof.
  intros L RL Hg. assert (G : forall l L, kwf L -> (forall s, In s l -> good s) -> exists L', k_insert L l = (L', Ok tt) /\
    (forall x, In x (by_index L') -> In x (by_index L) \/ In x l) /\ forall x, In x (by_index L) \/ In x l -> In (verts x) (map verts (by_index L'))).
  { clear. induction l as [|s l IH]; intros L WL Hg; cbn [k_insert].
    - exists L. split; [reflexivity|]. split; [auto|]. intros x [H|[]]. apply in_map. exact H.
    - assert (Gs : good s) by (apply Hg; simpl; auto). destruct (k_contains L s) eqn:E.
      + rewrite (push_back_dup L s E). destruct (IH L WL) as (L' & E' & A & B); [intros; apply Hg; simpl; auto|]. exists L'. split; [exact E'|]. split.
        * intros x Hx. destruct (A x Hx); simpl; auto.
        * intros x [Hx|[<-|Hx]]; [apply B; auto| |apply B; auto]. apply contains_In in E. apply in_map_iff in E. destruct E as (t & Et & Ht). rewrite <- Et. apply B. auto.
      + destruct (push_back_new L s WL Gs E) as [E1 W1]. rewrite E1. cbv iota beta. destruct (IH _ W1) as (L' & E' & A & B); [intros; apply Hg; simpl; auto|]. exists L'. split; [exact E'|]. cbn [by_index] in A, B. split.
        * intros x Hx. destruct (A x Hx) as [Y|Y]; [|simpl; auto]. apply in_app_iff in Y. destruct Y as [Y|[<-|[]]]; simpl; auto.
        * intros x [Hx|[<-|Hx]]; apply B; [left; apply in_app_iff; auto|left; apply in_app_iff; simpl; auto|auto]. }
  destruct (G l L (reachable_kwf L RL) Hg) as (L' & E & A & B). exists L'. unfold insert_into. rewrite E. split; [reflexivity|]. split; [|auto].
  replace L' with (fst (k_insert L l)) by (rewrite E; reflexivity). apply insert_reachable; [exact RL|]. intros s Hs. apply Hg. exact Hs.
Qed.

Definition big (s : simplex) : bool := 1 <? length (verts s).

Section Main.
  Variable functor : nat -> Z.
  Variable K : complex.
  Hypothesis HK : kwf K.
  Variable N : nat.
  Hypothesis HN : forall s v, In s (by_index K) -> verts s = [v] -> v < N.

  (** the vertex for a simplex *)
  Definition bc (s : simplex) : nat :=
    match verts s with
    | [v] => v
    | _ => N + match position (s_eqb s) (filter big (by_dim K)) with Some i => i | None => 0 end
    end.

  Lemma dim_In s : In s (by_dim K) <-> In s (by_index K).
  Proof. split; intro H; [apply (Permutation_in _ (Permutation_sym (kwf_perm K HK)))|apply (Permutation_in _ (kwf_perm K HK))]; exact H. Qed.
  Lemma wf_K s : In s (by_index K) -> wf s.
  Proof. intro H. apply (kwf_good K HK s H). Qed.
  Lemma ne_K s : In s (by_index K) -> 1 <= length (verts s).
  Proof. intro H. destruct (kwf_good K HK s H) as [_ X]. destruct (verts s); [easy|simpl; lia]. Qed.
  Lemma dim_NoDup : NoDup (map verts (by_dim K)).
  Proof. apply (Permutation_NoDup (Permutation_map verts (kwf_perm K HK))), kwf_nodup, HK. Qed.

  Lemma bc_vertex s v : verts s = [v] -> bc s = v.
  Proof. intro E. unfold bc. rewrite E. reflexivity. Qed.
  Lemma small_vertex s : In s (by_index K) -> big s = false -> exists v, verts s = [v].
  Proof.
    intros H B. pose proof (ne_K s H). unfold big in B. apply Nat.ltb_ge in B. destruct (verts s) as [|v [|? ?]]; simpl in *; try lia. exists v. reflexivity.
  Qed.
  Lemma bc_big_eq s : big s = true -> bc s = N + match position (s_eqb s) (filter big (by_dim K)) with Some i => i | None => 0 end.
  Proof. unfold big, bc. destruct (verts s) as [|? [|? ?]]; try discriminate. reflexivity. Qed.
  Lemma bc_big l1 s l2 : by_dim K = l1 ++ s :: l2 -> big s = true -> bc s = N + length (filter big l1).
  Proof.
    intros E B. rewrite (bc_big_eq s B), E, filter_app. cbn [filter]. rewrite B.
    rewrite CombinationFacts.position_app; [reflexivity| |apply s_eqb_refl].
    intros t Ht. apply filter_In in Ht. destruct Ht as [Ht _]. apply s_eqb_neq. intro Ev. pose proof dim_NoDup as ND. rewrite E, map_app in ND. cbn [map] in ND. apply NoDup_remove_2 in ND. apply ND. apply in_app_iff. left. rewrite Ev. apply in_map. exact Ht.
  Qed.
  Lemma bc_big_ge s : big s = true -> N <= bc s.
  Proof. intro B. rewrite (bc_big_eq s B). lia. Qed.
  Lemma split_dim s : In s (by_index K) -> exists l1 l2, by_dim K = l1 ++ s :: l2.
  Proof. intro H. apply dim_In, in_split in H. exact H. Qed.

  Lemma earlier l1 s l2 t : by_dim K = l1 ++ s :: l2 -> In t (by_index K) -> length (verts t) < length (verts s) -> In t l1.
  Proof.
    intros E Ht Hl. apply dim_In in Ht. pose proof (kwf_sorted K HK) as SS. rewrite E in Ht, SS. apply in_app_iff in Ht. destruct Ht as [Ht|[<-|Ht]]; [exact Ht|lia|].
    exfalso. apply StronglySorted_app in SS. destruct SS as (_ & SS & _). inversion SS as [|? ? _ F]; subst. rewrite Forall_forall in F. specialize (F t Ht). unfold dim_le, sdim in F.
    assert (1 <= length (verts t)). { apply ne_K, dim_In. rewrite E. apply in_app_iff. simpl. auto. } lia.
  Qed.

  Lemma bc_mono s t : In s (by_index K) -> In t (by_index K) -> proper_face t s -> bc t < bc s.
  Proof.
    intros Hs Ht P. pose proof (pf_size s t (wf_K t Ht) P) as L. pose proof (ne_K t Ht). assert (Bs : big s = true) by (apply Nat.ltb_lt; lia).
    destruct (big t) eqn:Bt.
    - destruct (split_dim s Hs) as (l1 & l2 & E). pose proof (earlier l1 s l2 t E Ht L) as H1. destruct (in_split _ _ H1) as (a & b & E1).
      rewrite (bc_big l1 s l2 E Bs). rewrite (bc_big a t (b ++ s :: l2)); [|rewrite E, E1, <- app_assoc; reflexivity|exact Bt].
      rewrite E1, filter_app, app_length. cbn [filter]. rewrite Bt. simpl. lia.
    - destruct (small_vertex t Ht Bt) as (v & Ev). rewrite (bc_vertex t v Ev). pose proof (HN t v Ht Ev). pose proof (bc_big_ge s Bs). lia.
  Qed.

  Lemma bc_inj s t : In s (by_index K) -> In t (by_index K) -> bc s = bc t -> s = t.
  Proof.
    intros Hs Ht E. destruct (big s) eqn:Bs, (big t) eqn:Bt.
    - destruct (split_dim s Hs) as (l1 & l2 & E1). pose proof Ht as Ht'. apply dim_In in Ht'. rewrite E1 in Ht'. apply in_app_iff in Ht'. rewrite (bc_big l1 s l2 E1 Bs) in E. destruct Ht' as [H|[H|H]]; [exfalso|exact H|exfalso].
      + destruct (in_split _ _ H) as (a & b & E2). rewrite (bc_big a t (b ++ s :: l2)) in E; [|rewrite E1, E2, <- app_assoc; reflexivity|exact Bt].
        rewrite E2, filter_app, app_length in E. cbn [filter] in E. rewrite Bt in E. simpl in E. lia.
      + destruct (in_split _ _ H) as (a & b & E2). rewrite (bc_big (l1 ++ s :: a) t b) in E; [|rewrite E1, E2, <- app_assoc; reflexivity|exact Bt].
        rewrite filter_app, app_length in E. cbn [filter] in E. rewrite Bs in E. simpl in E. lia.
    - exfalso. destruct (small_vertex t Ht Bt) as (v & Ev). rewrite (bc_vertex t v Ev) in E. pose proof (HN t v Ht Ev). pose proof (bc_big_ge s Bs). lia.
    - exfalso. destruct (small_vertex s Hs Bs) as (v & Ev). rewrite (bc_vertex s v Ev) in E. pose proof (HN s v Hs Ev). pose proof (bc_big_ge t Bt). lia.
    - destruct (small_vertex t Ht Bt) as (v & Ev). destruct (small_vertex s Hs Bs) as (u & Eu). rewrite (bc_vertex t v Ev), (bc_vertex s u Eu) in E. apply (nodup_verts_eq K s t HK Hs Ht). congruence.
  Qed.

  (** *** chains *)
  Notation chainK := (chain (by_index K)).
  Lemma chain_cons s F : chainK (s :: F) <-> In s (by_index K) /\ (F = [] \/ chainK F) /\ forall t, In t F -> proper_face t s.
  Proof.
    split.
    - intros (_ & A & B). inversion B as [|? ? B1 B2]; subst. rewrite Forall_forall in B2. refine (conj _ (conj _ B2)); [apply A; simpl; auto|].
      destruct F as [|t F]; [left; reflexivity|right]. refine (conj _ (conj _ B1)); [discriminate|]. intros u Hu. apply A. simpl; auto.
    - intros (A & B & C). refine (conj _ (conj _ _)); [discriminate| |].
      + intros t [<-|Ht]; [exact A|]. destruct B as [->|(_ & B & _)]; [destruct Ht|apply B; exact Ht].
      + constructor; [|apply Forall_forall; exact C]. destruct B as [->|(_ & _ & B)]; [constructor|exact B].
  Qed.
  Lemma chain_sorted F : chainK F -> StronglySorted gt (map bc F).
  Proof.
    induction F as [|s F IH]; intro C; cbn [map]; [constructor|]. apply chain_cons in C. destruct C as (A & B & C). constructor.
    - destruct B as [->|B]; [constructor|auto].
    - apply Forall_forall. intros x Hx. apply in_map_iff in Hx. destruct Hx as (t & <- & Ht). apply bc_mono; auto. destruct B as [->|(_ & B & _)]; [destruct Ht|auto].
  Qed.
  Lemma chain_length s F : chainK (s :: F) -> length (s :: F) <= length (verts s).
  Proof.
    revert s. induction F as [|t F IH]; intros s C; apply chain_cons in C; destruct C as (A & B & C); [apply ne_K in A; exact A|].
    destruct B as [B|B]; [discriminate|]. specialize (IH t B). assert (P : proper_face t s) by (apply C; simpl; auto).
    assert (In t (by_index K)) by (apply B; simpl; auto). pose proof (pf_size s t (wf_K t H) P). simpl in *. lia.
  Qed.
  Lemma chain_filter p F : chainK F -> filter p F <> [] -> chainK (filter p F).
  Proof.
    intros (A & B & C) H. refine (conj H (conj _ _)); [intros s Hs; apply filter_In in Hs; apply B, Hs|]. apply StronglySorted_filter. exact C.
  Qed.

  Definition full (F : list simplex) : Prop := chainK F /\ forall s G, F = s :: G -> length F = length (verts s).

  (** [l] contains the facets of its simplices *)
  Definition downward (l : list simplex) : Prop :=
    incl l (by_index K) /\ forall t f, In t l -> In f (boundary t) -> exists u, In u l /\ verts u = verts f.

  Lemma extend l : downward l -> forall n s F, length (verts s) = n -> In s l -> chainK (s :: F) ->
    exists G, full (s :: G) /\ incl F G.
  Proof.
    intros [DI DF]. induction n as [n IH] using lt_wf_ind. intros s F En Hs C. pose proof (wf_K s (DI s Hs)) as Ws.
    assert (Done : forall u, In u l -> length (verts u) < n -> S (length (verts u)) = n -> subset (verts u) (verts s) ->
      forall F', chainK (u :: F') -> exists G, full (s :: G) /\ incl (u :: F') G).
    { intros u Hu Lu Lu' Sub F' Cu. destruct (IH _ Lu u F' eq_refl Hu Cu) as (G & [FG FG'] & Inc). exists (u :: G).
      assert (P : proper_face u s) by (apply pf_intro; auto; lia). split; [split|].
      - apply chain_cons. refine (conj (DI s Hs) (conj (or_intror FG) _)). intros t [<-|Ht]; [exact P|]. apply chain_cons in FG. apply (pf_trans s u t); [apply FG; exact Ht|exact P].
      - intros s' G' [= <- <-]. cbn [length] in *. rewrite (FG' u G eq_refl). lia.
      - intros x [<-|Hx]; simpl; auto. }
    apply chain_cons in C. destruct C as (Cs & CF & CP). destruct F as [|t F].
    - destruct (le_lt_dec n 1) as [Hn|Hn].
      + exists []. split; [split|intros x []]. { apply chain_cons. refine (conj Cs (conj (or_introl eq_refl) _)). intros t []. } intros s' G' [= <- <-]. pose proof (ne_K s Cs). cbn [length]. lia.
      + assert (V : exists f, In f (boundary s)). { unfold boundary, s_size. rewrite En. destruct (Nat.leb_spec n 1); [lia|]. destruct (verts s) as [|v vs]; [simpl in En; lia|]. eexists. left. reflexivity. }
        destruct V as (f & Hf). destruct (DF s f Hs Hf) as (u & Hu & Eu). pose proof (boundary_size s f Ws Hf) as Lf. unfold s_size in Lf. rewrite <- Eu, En in Lf.
        destruct (Done u Hu ltac:(lia) Lf) with (F' := @nil simplex) as (G & FG & _).
        * intros v Hv. rewrite Eu in Hv. apply (boundary_incl s f v Hf Hv).
        * apply chain_cons. refine (conj (DI u Hu) (conj (or_introl eq_refl) _)). intros t [].
        * exists G. split; [exact FG|intros x []].
    - destruct CF as [CF|CF]; [discriminate|]. assert (P : proper_face t s) by (apply CP; simpl; auto). assert (Ht : In t (by_index K)) by (apply CF; simpl; auto).
      pose proof (pf_size s t (wf_K t Ht) P) as Lt. destruct (facet_of s Ws (verts t)) as (f & Hf & Sub & Wf).
      { refine (conj (wf_K t Ht) (conj _ (conj (proj1 P) Lt))). apply (kwf_good K HK t Ht). }
      destruct (DF s f Hs Hf) as (u & Hu & Eu). pose proof (boundary_size s f Ws Hf) as Lf. unfold s_size in Lf. rewrite <- Eu in Lf, Sub. rewrite En in Lf.
      assert (Su : subset (verts u) (verts s)). { intros v Hv. rewrite Eu in Hv. apply (boundary_incl s f v Hf Hv). }
      destruct (Nat.eq_dec (length (verts t)) (length (verts u))) as [Eq|Ne].
      + assert (u = t). { apply (nodup_verts_eq K u t HK (DI u Hu) Ht). apply wf_ext; [apply wf_K, DI, Hu|apply wf_K, Ht|]. intro v. split; [|apply Sub].
          apply NoDup_length_incl; [apply SSgt_NoDup, wf_K, Ht|lia|exact Sub]. }
        subst t. apply (Done u Hu ltac:(lia) Lf Su F CF).
      + assert (Put : proper_face t u). { apply pf_intro; [apply wf_K, DI, Hu|exact Sub|]. pose proof (NoDup_incl_length (SSgt_NoDup _ (wf_K t Ht)) Sub). lia. }
        destruct (Done u Hu ltac:(lia) Lf Su (t :: F)) as (G & FG & Inc).
        * apply chain_cons. refine (conj (DI u Hu) (conj (or_intror CF) _)). intros x [<-|Hx]; [exact Put|]. apply chain_cons in CF. apply (pf_trans u t x); [apply CF; exact Hx|exact Put].
        * exists G. split; [exact FG|]. intros x Hx. apply Inc. simpl. auto.
  Qed.

  (** *** the state of the loop *)
  Definition repr (F : list simplex) (x : simplex) : Prop := wf x /\ verts x = map bc F /\ data x = chain_weight functor F.

  Definition m_ok (l : list simplex) (m : submap) : Prop :=
    map fst m = l /\ forall t c, In (t, c) m ->
      (forall x, In x c -> exists F, full (t :: F) /\ repr (t :: F) x) /\
      (forall F, full (t :: F) -> exists x, In x c /\ verts x = map bc (t :: F)).

  Definition L_ok (l : list simplex) (L : complex) : Prop :=
    reachable L /\
    (forall x, In x (by_index L) -> exists t F, In t l /\ chainK (t :: F) /\ length (t :: F) < length (verts t) /\ repr (t :: F) x) /\
    (forall t F, In t l -> chainK (t :: F) -> length (t :: F) < length (verts t) -> In (map bc (t :: F)) (map verts (by_index L))).

  Lemma sub_set_new m s c : ~ In (verts s) (map verts (map fst m)) -> sub_set m s c = m ++ [(s, c)].
  Proof.
    induction m as [|[k d] m IH]; intro H; cbn [sub_set app]; [reflexivity|]. cbn [map fst In] in H.
    destruct (s_eqb k s) eqn:E; [exfalso; apply H; left; apply s_eqb_eq; exact E|]. rewrite IH; [reflexivity|]. tauto.
  Qed.
  Lemma sub_at_In m t c : NoDup (map verts (map fst m)) -> In (t, c) m -> sub_at m t = Ok c.
  Proof.
    induction m as [|[k d] m IH]; intros ND H; [destruct H|]. cbn [sub_at map fst] in *. inversion ND as [|? ? X Y]; subst. destruct H as [[= -> ->]|H]; [rewrite s_eqb_refl; reflexivity|].
    destruct (s_eqb k t) eqn:E; [|auto]. exfalso. apply X. apply s_eqb_eq in E. rewrite E. apply in_map, in_map_iff. exists (t, c). auto.
  Qed.

  Section Step.
    Variables (l1 l2 : list simplex) (s : simplex).
    Hypothesis ED : by_dim K = l1 ++ s :: l2.

    Lemma s_K : In s (by_index K).
    Proof. apply dim_In. rewrite ED. apply in_app_iff. simpl. auto. Qed.
    Lemma l1_K t : In t l1 -> In t (by_index K).
    Proof. intro H. apply dim_In. rewrite ED. apply in_app_iff. auto. Qed.
    Lemma l1_NoDup : NoDup (map verts l1) /\ ~ In (verts s) (map verts l1).
    Proof.
      pose proof dim_NoDup as ND. rewrite ED, map_app in ND. cbn [map] in ND. split.
      - apply NoDup_remove_1 in ND. clear - ND. induction (map verts l1) as [|x l IH]; [constructor|]. cbn [app] in ND. inversion ND as [|? ? X Y]; subst. constructor; [|auto]. intro H. apply X, in_app_iff. auto.
      - apply NoDup_remove_2 in ND. intro H. apply ND, in_app_iff. auto.
    Qed.

    Lemma collect_faces_ok m : m_ok l1 m -> forall fs acc, incl fs (boundary s) ->
      (forall f, In f fs -> In (verts f) (map verts (by_index K))) ->
      exists bd, foldM (collect_face K m) fs acc = Ok bd /\
        forall x, In x bd <-> In x acc \/ exists t c, In (t, c) m /\ In x c /\ In (verts t) (map verts fs).
    Proof.
      intros [Em Hm]. destruct l1_NoDup as [N1 N2]. induction fs as [|f fs IH]; intros acc Hi Hf; cbn [foldM].
      - exists acc. split; [reflexivity|]. intro x. cbn [map In]. split; [auto|]. intros [H|(? & ? & _ & _ & [])]; exact H.
      - unfold collect_face at 1. specialize (Hf f (or_introl eq_refl)) as Hf0. apply in_map_iff in Hf0. destruct Hf0 as (t & Et & Ht).
        assert (EL : k_lookup K f = Some t) by (apply lookup_some; auto). rewrite EL.
        assert (Hb : In f (boundary s)) by (apply Hi; simpl; auto). pose proof (boundary_size s f (wf_K s s_K) Hb) as Lf. unfold s_size in Lf.
        assert (T1 : In t l1). { apply (earlier l1 s l2 t ED Ht). rewrite Et. lia. }
        rewrite <- Em in T1. apply in_map_iff in T1. destruct T1 as ([t' c] & Ex & Hc). cbn [fst] in Ex. subst t'.
        assert (ND : NoDup (map verts (map fst m))) by (rewrite Em; exact N1).
        rewrite (sub_at_In m t c ND Hc). cbn [bind]. destruct (IH (acc ++ c)) as (bd & Eb & Hbd); [intros g Hg; apply Hi; simpl; auto|intros g Hg; apply Hf; simpl; auto|].
        exists bd. split; [exact Eb|]. intro x. rewrite Hbd, in_app_iff. cbn [map In]. split.
        + intros [[H|H]|(u & d & A & B & C)]; [auto|right; exists t, c; rewrite Et; auto|right; exists u, d; auto].
        + intros [H|(u & d & A & B & [C|C])]; [auto| |right; exists u, d; auto]. left. right.
          assert (E2 : sub_at m t = sub_at m u). { assert (E3 : u = t); [|subst; reflexivity]. apply (nodup_verts_eq K u t HK); [apply l1_K; rewrite <- Em; apply in_map_iff; exists (u, d); auto|exact Ht|congruence]. }
          rewrite (sub_at_In m t c ND Hc), (sub_at_In m u d ND A) in E2. injection E2 as ->. exact B.
    Qed.

    Lemma collect_faces_missing m : m_ok l1 m -> (exists f, In f (boundary s) /\ ~ In (verts f) (map verts (by_index K))) ->
      foldM (collect_face K m) (boundary s) [] = Throw RuntimeError.
    Proof.
      intros Hm (f & Hf & Nf). assert (G : forall fs acc, incl fs (boundary s) -> In f fs -> foldM (collect_face K m) fs acc = Throw RuntimeError).
      { induction fs as [|g fs IH]; intros acc Hi Hg; [destruct Hg|]. destruct (k_contains K g) eqn:Eg.
        - destruct Hg as [->|Hg]; [exfalso; apply Nf, contains_In, Eg|].
          destruct (collect_faces_ok m Hm [g] acc) as (bd & Eb & _); [intros x [<-|[]]; apply Hi; simpl; auto|intros x [<-|[]]; apply contains_In; exact Eg|].
          cbn [foldM] in Eb |- *. destruct (collect_face K m acc g) as [a| | |]; try discriminate. cbn [bind]. apply IH; [intros x Hx; apply Hi; simpl; auto|exact Hg].
        - cbn [foldM]. unfold collect_face at 1. rewrite (proj2 (lookup_none K g) Eg). reflexivity. }
      apply G; [intros x Hx; exact Hx|exact Hf].
    Qed.

    Lemma cone_verts b t : wf t -> (forall v, In v (verts t) -> v < b) ->
      verts (cone_over functor s b t) = b :: verts t /\ data (cone_over functor s b t) = (data s * functor (S (length (verts t))))%Z.
    Proof.
      intros Wt Hb. unfold cone_over. split.
      - change (b :: verts t) with (verts (Simplex (b :: verts t) 0)). apply wf_ext; [apply simplex_of_wf| |].
        + unfold wf. cbn [verts]. constructor; [exact Wt|]. apply Forall_forall. intros v Hv. apply Hb in Hv. lia.
        + intro v. rewrite simplex_of_In, in_app_iff. cbn [verts In]. tauto.
      - cbn [data simplex_of]. rewrite app_length. simpl. rewrite Nat.add_1_r. reflexivity.
    Qed.

    Hypothesis OKB : forall t f, In t (l1 ++ [s]) -> In f (boundary t) -> In (verts f) (map verts (by_index K)).

    Lemma down : downward (l1 ++ [s]).
    Proof.
      split.
      - intros t Ht. apply in_app_iff in Ht. destruct Ht as [Ht|[<-|[]]]; [apply l1_K; exact Ht|apply s_K].
      - intros t f Ht Hf. pose proof (OKB t f Ht Hf) as X. apply in_map_iff in X. destruct X as (u & Eu & Hu). exists u. split; [|exact Eu]. apply in_app_iff. left.
        assert (Tk : In t (by_index K)). { apply in_app_iff in Ht. destruct Ht as [Ht|[<-|[]]]; [apply l1_K; exact Ht|apply s_K]. }
        pose proof (boundary_size t f (wf_K t Tk) Hf) as Lf. unfold s_size in Lf. rewrite <- Eu in Lf. apply in_app_iff in Ht. destruct Ht as [Ht|[<-|[]]].
        + destruct (in_split _ _ Ht) as (a & b & Ea). assert (In u a); [|rewrite Ea; apply in_app_iff; auto].
          apply (earlier a t (b ++ s :: l2) u); [rewrite ED, Ea, <- app_assoc; reflexivity|exact Hu|lia].
        + apply (earlier l1 s l2 u ED Hu). lia.
    Qed.

    (** full chains below [s] *)
    Lemma full_cons F : big s = true -> (full (s :: F) <-> exists t G, F = t :: G /\ full (t :: G) /\ In (verts t) (map verts (boundary s))).
    Proof.
      intro B. apply Nat.ltb_lt in B. pose proof s_K as Sk. pose proof (wf_K s Sk) as Ws. split.
      - intros [C L]. pose proof (L s F eq_refl) as L'. destruct F as [|t G]; [cbn [length] in L'; lia|]. exists t, G. split; [reflexivity|]. apply chain_cons in C. destruct C as (C1 & C2 & C3).
        destruct C2 as [C2|C2]; [discriminate|]. assert (P : proper_face t s) by (apply C3; simpl; auto). assert (Tk : In t (by_index K)) by (apply C2; simpl; auto).
        pose proof (pf_size s t (wf_K t Tk) P) as Lt. pose proof (chain_length t G C2) as Lc. cbn [length] in L', Lc. split.
        + split; [exact C2|]. intros t' G' [= <- <-]. cbn [length]. lia.
        + destruct (facet_of s Ws (verts t)) as (f & Hf & Sub & Wf). { refine (conj (wf_K t Tk) (conj _ (conj (proj1 P) Lt))). apply (kwf_good K HK t Tk). }
          pose proof (boundary_size s f Ws Hf) as Lf. unfold s_size in Lf. apply in_map_iff. exists f. split; [|exact Hf]. apply wf_ext; [exact Wf|apply wf_K, Tk|]. intro v. split; [|apply Sub].
          apply NoDup_length_incl; [apply SSgt_NoDup, wf_K, Tk|lia|exact Sub].
      - intros (t & G & -> & [C L] & Hb). apply in_map_iff in Hb. destruct Hb as (f & Ef & Hf). pose proof (boundary_size s f Ws Hf) as Lf. unfold s_size in Lf. rewrite Ef in Lf.
        assert (P : proper_face t s). { apply pf_intro; [exact Ws| |lia]. intros v Hv. rewrite <- Ef in Hv. apply (boundary_incl s f v Hf Hv). }
        split.
        + apply chain_cons. refine (conj Sk (conj (or_intror C) _)). intros u [<-|Hu]; [exact P|]. apply chain_cons in C. apply (pf_trans s t u); [apply C; exact Hu|exact P].
        + intros s' G' [= <- <-]. pose proof (L t G eq_refl) as L'. cbn [length] in *. lia.
    Qed.

    Lemma step_ok m L : m_ok l1 m -> L_ok l1 L ->
      exists m' L', subdivide_step functor K (N + length (filter big l1), m, L) s = Ok (N + length (filter big (l1 ++ [s])), m', L') /\
        m_ok (l1 ++ [s]) m' /\ L_ok (l1 ++ [s]) L'.
    Proof.
      intros Hm HL. destruct Hm as [Em Hm]. destruct HL as (RL & HL1 & HL2). destruct l1_NoDup as [N1 N2]. pose proof s_K as Sk. pose proof (wf_K s Sk) as Ws. pose proof (ne_K s Sk) as Ns.
      assert (New : forall c, sub_set m s c = m ++ [(s, c)]) by (intro c; apply sub_set_new; rewrite Em; exact N2).
      assert (MO : forall c, (forall x, In x c -> exists F, full (s :: F) /\ repr (s :: F) x) -> (forall F, full (s :: F) -> exists x, In x c /\ verts x = map bc (s :: F)) -> m_ok (l1 ++ [s]) (m ++ [(s, c)])).
      { intros c A B. split; [rewrite map_app, Em; reflexivity|]. intros t d Ht. apply in_app_iff in Ht. destruct Ht as [Ht|[[= <- <-]|[]]]; [apply Hm; exact Ht|auto]. }
      unfold subdivide_step. destruct (Nat.eqb_spec (sdim s) 0) as [E0|E0].
      - unfold sdim in E0. assert (L1 : length (verts s) = 1) by lia. assert (Bs : big s = false) by (apply Nat.ltb_ge; lia). destruct (small_vertex s Sk Bs) as (v & Ev).
        exists (m ++ [(s, [s])]), L. rewrite New, filter_app. cbn [filter]. rewrite Bs, app_nil_r. split; [reflexivity|]. split.
        + apply MO.
          * intros x [<-|[]]. exists []. split; [split|].
            -- apply chain_cons. refine (conj Sk (conj (or_introl eq_refl) _)). intros t [].
            -- intros s' G' [= <- <-]. rewrite L1. reflexivity.
            -- refine (conj Ws (conj _ _)); [cbn [map]; rewrite (bc_vertex s v Ev); exact Ev|]. cbn [chain_weight]. rewrite L1. reflexivity.
          * intros F [C _]. pose proof (chain_length s F C) as X. rewrite L1 in X. destruct F; [|cbn [length] in X; lia]. exists s. split; [left; reflexivity|]. cbn [map]. rewrite (bc_vertex s v Ev). exact Ev.
        + refine (conj RL (conj _ _)).
          * intros x Hx. destruct (HL1 x Hx) as (t & F & A & B). exists t, F. split; [apply in_app_iff; auto|exact B].
          * intros t F Ht C Lt. apply in_app_iff in Ht. destruct Ht as [Ht|[<-|[]]]; [apply HL2; auto|]. cbn [length] in Lt. lia.
      - unfold sdim in E0. assert (Bs : big s = true) by (apply Nat.ltb_lt; lia). set (b := N + length (filter big l1)). assert (Eb : bc s = b) by (apply (bc_big l1 s l2 ED Bs)).
        destruct (insert_into_any [simplex_vertex b (data s * functor 0%nat)%Z] L RL) as (La & Ea & Ra & Ha1 & Ha2).
        { intros x [<-|[]]. split; [unfold wf; repeat constructor|discriminate]. }
        rewrite Ea. cbn [bind].
        destruct (collect_faces_ok m (conj Em Hm) (boundary s) []) as (bd & Ebd & Hbd); [intros x Hx; exact Hx|intros f Hf; apply (OKB s f); [apply in_app_iff; simpl; auto|exact Hf]|].
        rewrite Ebd. cbn [bind].
        (* the elements of the subdivided boundary are the full chains below s *)
        assert (BD1 : forall x, In x bd -> exists F, full (s :: F) /\ F <> [] /\ repr F x).
        { intros x Hx. apply Hbd in Hx. destruct Hx as [[]|(t & c & Ht & Hx & Hb)]. destruct (Hm t c Ht) as [A _]. destruct (A x Hx) as (F & FF & R). exists (t :: F). split; [|split; [discriminate|exact R]].
          apply full_cons; [exact Bs|]. exists t, F. auto. }
        assert (BD2 : forall F, full (s :: F) -> exists x, In x bd /\ verts x = map bc F).
        { intros F FF. apply (full_cons F Bs) in FF. destruct FF as (t & G & -> & FG & Hb). assert (T1 : In t l1).
          { destruct FG as [C _]. apply (earlier l1 s l2 t ED); [apply C; simpl; auto|]. apply in_map_iff in Hb. destruct Hb as (f & Ef & Hf). pose proof (boundary_size s f Ws Hf) as Lf. unfold s_size in Lf. rewrite Ef in Lf. lia. }
          rewrite <- Em in T1. apply in_map_iff in T1. destruct T1 as ([t' c] & Ex & Hc). cbn [fst] in Ex. subst t'. destruct (Hm t c Hc) as [_ B]. destruct (B G FG) as (x & Hx & Vx). exists x. split; [|exact Vx].
          apply Hbd. right. exists t, c. auto. }
        assert (LT : forall F v, chainK (s :: F) -> In v (map bc F) -> v < b).
        { intros F v C Hv. apply in_map_iff in Hv. destruct Hv as (u & <- & Hu). rewrite <- Eb. pose proof C as C'. apply chain_cons in C. destruct C as (_ & _ & C). apply bc_mono; [exact Sk| |apply C; exact Hu]. apply C'. simpl; auto. }
        assert (CR : forall x F, wf x -> verts x = map bc F -> F <> [] -> chainK (s :: F) -> repr (s :: F) (cone_over functor s b x)).
        { intros x F Wx Vx NF C. destruct (cone_verts b x Wx) as [V D]; [intros v Hv; rewrite Vx in Hv; apply (LT F v C Hv)|]. refine (conj _ (conj _ _)).
          - apply simplex_of_wf.
          - rewrite V, Vx. cbn [map]. rewrite Eb. reflexivity.
          - rewrite D. rewrite Vx, map_length. destruct F; [easy|reflexivity]. }
        destruct (collect_range_ok bd) as (bs & Ebs & Wbs & Hbs); [intros x Hx; destruct (BD1 x Hx) as (F & _ & _ & R); apply R|]. rewrite Ebs. cbn [bind].
        (* the collected faces are the shorter chains below s *)
        assert (BS1 : forall x, In x bs -> exists F, chainK (s :: F) /\ F <> [] /\ length (s :: F) < length (verts s) /\ wf x /\ verts x = map bc F).
        { intros x Hx. pose proof (Wbs x Hx) as Wx. pose proof (proj1 (Hbs (verts x)) (in_map verts bs x Hx)) as (y & Hy & P1 & P2 & P3 & P4).
          destruct (BD1 y Hy) as (F & [C FL] & NF & Wy & Vy & _). pose proof (FL s F eq_refl) as FL'. cbn [length] in FL'.
          set (F' := filter (fun u => mem (bc u) (verts x)) F). pose proof C as C0. apply chain_cons in C. destruct C as (_ & C & CP). destruct C as [C|C]; [easy|].
          assert (VF : verts x = map bc F').
          { assert (SF : StronglySorted gt (map bc F')). { destruct (F') as [|z r] eqn:EF; [constructor|]. apply chain_sorted. rewrite <- EF. apply chain_filter; [exact C|]. fold F'. rewrite EF. discriminate. }
            change (map bc F') with (verts (Simplex (map bc F') 0)). apply wf_ext; [exact Wx|exact SF|]. intro v. cbn [verts]. split.
            - intro Hv. pose proof (P3 v Hv) as Q. rewrite Vy in Q. apply in_map_iff in Q. destruct Q as (u & <- & Hu). apply in_map. apply filter_In. split; [exact Hu|]. apply mem_In. exact Hv.
            - intro Hv. apply in_map_iff in Hv. destruct Hv as (u & <- & Hu). apply filter_In in Hu. destruct Hu as [_ Hu]. apply mem_In in Hu. exact Hu. }
          assert (NF' : F' <> []) by (intro Z; rewrite Z in VF; apply P2; exact VF).
          exists F'. refine (conj _ (conj NF' (conj _ (conj Wx VF)))).
          - apply chain_cons. refine (conj Sk (conj (or_intror (chain_filter _ F C NF')) _)). intros u Hu. apply filter_In in Hu. apply CP, Hu.
          - rewrite VF, Vy, !map_length in P4. cbn [length]. lia. }
        assert (BS2 : forall F, chainK (s :: F) -> F <> [] -> length (s :: F) < length (verts s) -> exists x, In x bs /\ verts x = map bc F).
        { intros F C NF Lt. destruct (extend _ down (length (verts s)) s F eq_refl) as (G & FG & Inc); [apply in_app_iff; simpl; auto|exact C|].
          destruct (BD2 G FG) as (y & Hy & Vy). assert (In (map bc F) (map verts bs)).
          { apply Hbs. exists y. split; [exact Hy|]. assert (CF : chainK F) by (apply chain_cons in C; destruct C as (_ & [C|C] & _); [easy|exact C]). refine (conj (chain_sorted F CF) (conj _ (conj _ _))).
            - intro Z. apply map_eq_nil in Z. easy.
            - intros v Hv. rewrite Vy. apply in_map_iff in Hv. destruct Hv as (u & <- & Hu). apply in_map. apply Inc. exact Hu.
            - rewrite Vy, !map_length. destruct FG as [_ FL]. specialize (FL s G eq_refl). cbn [length] in FL, Lt. lia. }
          apply in_map_iff in H. destruct H as (x & Vx & Hx). exists x. auto. }
        destruct (insert_into_any (map (cone_over functor s b) bs) La Ra) as (Lb & Elb & Rb & Hb1 & Hb2).
        { intros x Hx. apply in_map_iff in Hx. destruct Hx as (y & <- & Hy). destruct (BS1 y Hy) as (F & C & NF & _ & Wy & Vy). destruct (CR y F Wy Vy NF C) as (W & V & _). split; [exact W|]. rewrite V. discriminate. }
        rewrite Elb. cbn [bind]. exists (m ++ [(s, map (cone_over functor s b) bd)]), Lb. rewrite New, filter_app. cbn [filter]. rewrite Bs, app_length. cbn [length]. split; [f_equal; f_equal; f_equal; lia|]. split.
        + apply MO.
          * intros x Hx. apply in_map_iff in Hx. destruct Hx as (y & <- & Hy). destruct (BD1 y Hy) as (F & FF & NF & Wy & Vy & _). exists F. split; [exact FF|]. apply CR; auto. apply FF.
          * intros F FF. destruct (BD2 F FF) as (y & Hy & Vy). exists (cone_over functor s b y). split; [apply in_map; exact Hy|].
            destruct (BD1 y Hy) as (F' & _ & _ & Wy & _). destruct (cone_verts b y Wy) as [V _]; [intros v Hv; rewrite Vy in Hv; apply (LT F v (proj1 FF) Hv)|]. rewrite V, Vy. cbn [map]. rewrite Eb. reflexivity.
        + refine (conj Rb (conj _ _)).
          * intros x Hx. destruct (Hb1 x Hx) as [Hy|Hy].
            -- destruct (Ha1 x Hy) as [Hz|[<-|[]]].
               ++ destruct (HL1 x Hz) as (t & F & A & B). exists t, F. split; [apply in_app_iff; auto|exact B].
               ++ exists s, []. split; [apply in_app_iff; simpl; auto|]. refine (conj _ (conj _ _)).
                  ** apply chain_cons. refine (conj Sk (conj (or_introl eq_refl) _)). intros t [].
                  ** cbn [length]. lia.
                  ** refine (conj _ (conj _ _)); [unfold wf; repeat constructor|cbn [map]; rewrite Eb; reflexivity|]. cbn [chain_weight data simplex_vertex]. destruct (Nat.eqb_spec (length (verts s)) 1); [lia|reflexivity].
            -- apply in_map_iff in Hy. destruct Hy as (y & <- & Hy). destruct (BS1 y Hy) as (F & C & NF & LL & Wy & Vy). exists s, F. split; [apply in_app_iff; simpl; auto|]. refine (conj C (conj LL _)). apply CR; auto.
          * intros t F Ht C Lt. assert (Mono : forall vs, In vs (map verts (by_index La)) -> In vs (map verts (by_index Lb))).
            { intros vs Hv. apply in_map_iff in Hv. destruct Hv as (z & <- & Hz). apply Hb2. auto. }
            apply in_app_iff in Ht. destruct Ht as [Ht|[<-|[]]].
            -- apply Mono. specialize (HL2 t F Ht C Lt). apply in_map_iff in HL2. destruct HL2 as (z & <- & Hz). apply Ha2. auto.
            -- destruct F as [|u F].
               ++ apply Mono. replace (map bc [s]) with (verts (simplex_vertex b (data s * functor 0%nat)%Z)) by (cbn [map]; rewrite Eb; reflexivity). apply Ha2. simpl. auto.
               ++ destruct (BS2 (u :: F) C ltac:(discriminate) Lt) as (x & Hx & Vx). assert (In (verts (cone_over functor s b x)) (map verts (by_index Lb))) as Q by (apply Hb2; right; apply in_map; exact Hx).
                  destruct (CR x (u :: F) (Wbs x Hx) Vx ltac:(discriminate) C) as (_ & V & _). rewrite V in Q. exact Q.
    Qed.

    Lemma step_missing m L b : m_ok l1 m -> reachable L -> (exists f, In f (boundary s) /\ ~ In (verts f) (map verts (by_index K))) ->
      subdivide_step functor K (b, m, L) s = Throw RuntimeError.
    Proof.
      intros Hm RL Hf. unfold subdivide_step. destruct (Nat.eqb_spec (sdim s) 0) as [E|E].
      - exfalso. destruct Hf as (f & Hf & _). unfold boundary in Hf. unfold sdim in E. unfold s_size in Hf. destruct (Nat.leb_spec (length (verts s)) 1); [destruct Hf|lia].
      - destruct (insert_into_any [simplex_vertex b (data s * functor 0%nat)%Z] L RL) as (La & Ea & _).
        { intros x [<-|[]]. split; [unfold wf; repeat constructor|discriminate]. }
        rewrite Ea. cbn [bind]. rewrite (collect_faces_missing m Hm Hf). reflexivity.
    Qed.
  End Step.

  (** *** the whole loop *)
  Definition okB (l : list simplex) : Prop := forall t f, In t l -> In f (boundary t) -> In (verts f) (map verts (by_index K)).

  Lemma loop_ok l : forall r, by_dim K = l ++ r -> okB l ->
    exists m L, foldM (subdivide_step functor K) l (N, [], k_empty) = Ok (N + length (filter big l), m, L) /\ m_ok l m /\ L_ok l L.
  Proof.
    induction l as [|s l IH] using rev_ind; intros r E OB.
    - exists [], k_empty. cbn [foldM filter length]. rewrite Nat.add_0_r. split; [reflexivity|]. split.
      + split; [reflexivity|]. intros t c [].
      + refine (conj _ (conj _ _)); [exists 0%Z, 0%Z, []; reflexivity|intros x []|intros t F []].
    - rewrite <- app_assoc in E. cbn [app] in E. destruct (IH _ E) as (m & L & EL & Hm & HL). { intros t f Ht. apply OB. apply in_app_iff. auto. }
      rewrite foldM_app, EL. cbn [bind foldM]. destruct (step_ok l r s E OB m L Hm HL) as (m' & L' & ES & Hm' & HL'). rewrite ES. exists m', L'. auto.
  Qed.

  Lemma loop_missing : ~ okB (by_dim K) -> foldM (subdivide_step functor K) (by_dim K) (N, [], k_empty) = Throw RuntimeError.
  Proof.
    intro NB. assert (G : forall l r, by_dim K = l ++ r -> okB l -> exists l1 s l2, by_dim K = l1 ++ s :: l2 /\ okB l1 /\ exists f, In f (boundary s) /\ ~ In (verts f) (map verts (by_index K))).
    { intros l r. revert l. induction r as [|s r IH]; intros l E OB.
      - exfalso. apply NB. rewrite E, app_nil_r. exact OB.
      - destruct (existsb (fun f => negb (k_contains K f)) (boundary s)) eqn:X.
        + apply existsb_exists in X. destruct X as (f & Hf & X). exists l, s, r. refine (conj E (conj OB _)). exists f. split; [exact Hf|]. apply negb_true_iff in X. apply contains_false. exact X.
        + apply (IH (l ++ [s])); [rewrite <- app_assoc; exact E|]. intros t f Ht Hf. apply in_app_iff in Ht. destruct Ht as [Ht|[<-|[]]]; [apply (OB t f Ht Hf)|].
          apply contains_In. destruct (k_contains K f) eqn:Y; [reflexivity|]. exfalso. assert (existsb (fun f => negb (k_contains K f)) (boundary s) = true); [|congruence].
          apply existsb_exists. exists f. rewrite Y. auto. }
    destruct (G [] (by_dim K) eq_refl) as (l1 & s & l2 & E & OB & Hf); [intros t f []|].
    destruct (loop_ok l1 (s :: l2) E OB) as (m & L & EL & Hm & HL). rewrite E, foldM_app, EL. cbn [bind foldM]. rewrite (step_missing l1 l2 s E m L _ Hm (proj1 HL) Hf). reflexivity.
  Qed.
End Main.
