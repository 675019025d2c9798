(** * Complexes expanded from a weighted graph *)

From Coq Require Import List Arith Bool ZArith Lia Permutation Sorted.
From Verif Require Import Base BaseFacts Simplex SimplexFacts SpecComplex Complex ComplexFacts FiltrationFacts History Subcomplex SubcomplexFacts
  Quotient PropertiesComplex HomologyFacts PropertiesQuotient PairingFacts FloydFacts SpecRips Rips RipsFacts PropertiesRips PropertiesCombine DowkerFacts PropertiesDowker VietorisRips PropertiesVietorisRips.
Import ListNotations.

(** all pairs of [vs] are edges *)
Definition pairwise (adj : nat -> nat -> bool) (vs : list nat) : Prop :=
  forall u v, In u vs -> In v vs -> u < v -> adj u v = true.

Section Graph.
  Variables (n : nat) (adj : nat -> nat -> bool) (wt : nat -> nat -> Z) (G : list simplex).
  Hypothesis HG : forall s, In s G <->
    (exists v, v < n /\ s = Simplex [v] 0) \/ (exists u v, u < v < n /\ adj u v = true /\ s = Simplex [v; u] (wt u v)).
  Hypothesis HN : NoDup (map verts G).

Lemma graph_has1 v : has G [v] <-> v < n.
Proof.
  split.
  - intros (s & Hs & E). apply HG in Hs. destruct Hs as [(w & Hw & ->)|(u & w & Hw & Hd & ->)]; cbn [verts] in E.
    + destruct (proj2 (E v) (or_introl eq_refl)) as [->|[]]. exact Hw.
    + destruct (proj1 (E w) (or_introl eq_refl)) as [->|[]]. lia.
  - intro H. exists (Simplex [v] 0). split; [|intro u; tauto]. apply HG. left. exists v. auto.
Qed.
Lemma graph_has2 u v : u < v -> (has G [u; v] <-> v < n /\ adj u v = true).
Proof.
  intro L. split.
  - intros (s & Hs & E). apply HG in Hs. destruct Hs as [(w & Hw & ->)|(a & b & Hw & Hd & ->)]; cbn [verts] in E.
    + pose proof (proj2 (E u) (or_introl eq_refl)) as X. pose proof (proj2 (E v) (or_intror (or_introl eq_refl))) as Y. simpl in X, Y. lia.
    + assert (b = v /\ a = u) as [-> ->].
      { pose proof (proj1 (E a)) as X. pose proof (proj1 (E b)) as Y. simpl in X, Y. pose proof (proj2 (E u)) as X'. pose proof (proj2 (E v)) as Y'. simpl in X', Y'. lia. }
      split; [lia|exact Hd].
  - intros [Hn Hd]. exists (Simplex [v; u] (wt u v)). split; [|intro w; simpl; tauto]. apply HG. right. exists u, v. auto.
Qed.

Lemma graph_ok : exists K, insert_into k_empty G = Ok K /\ reachable K /\ by_index K = G.
Proof.
  apply insert_into_new; [|exact HN].
  intros s Hs. apply HG in Hs. destruct Hs as [(v & Hv & ->)|(u & v & Hv & Hd & ->)]; (split; [repeat constructor; lia|discriminate]).
Qed.

Lemma graph_expanded order dimension : (forall l, Permutation (order l) l) ->
  exists K L, insert_into k_empty G = Ok K /\
    ripsExpander order K dimension = Ok L /\ reachable L /\ closed (by_index L) /\
    (forall vs, NoDup vs -> vs <> [] ->
       (has (by_index L) vs <-> (forall v, In v vs -> v < n) /\ length vs <= S dimension /\ pairwise adj vs)) /\
    (forall s, In s (by_index L) -> length (verts s) <> 2 -> data s = 0%Z) /\
    (forall s u v, In s (by_index L) -> verts s = [v; u] -> u < v -> data s = wt u v).
Proof.
  intro Ho. destruct graph_ok as (K & EK & RK & IK).
  destruct (C25_clique_complex order K dimension Ho RK) as (L & EL & CL & H2 & H1).
  { intros u v (s & Hs & E). rewrite IK in *. apply graph_has1. apply HG in Hs. pose proof (proj2 (E u) (or_introl eq_refl)) as X.
    destruct Hs as [(w & Hw & ->)|(a & b & Hw & _ & ->)]; simpl in X; [destruct X as [->|[]]; exact Hw|lia]. }
  destruct (C25_expansion order K dimension Ho RK) as (L' & EL' & RL & NL & HL & DL). rewrite EL in EL'. injection EL' as <-.
  exists K, L. refine (conj EK (conj EL (conj RL (conj CL (conj _ (conj _ _)))))).
  - intros vs Nv Hne. destruct (Nat.le_gt_cases 2 (length vs)) as [L2|L2].
    + rewrite (H2 vs Nv L2), IK. split.
      * intros [C Hl].
        assert (Hlt : forall v, In v vs -> v < n).
        { intros v Hv. destruct (other_element vs v Nv L2) as (u & Hu & Hn). destruct (Nat.lt_trichotomy u v) as [X|[X|X]]; [|congruence|].
          - specialize (C u v Hu Hv Hn). apply graph_has2 in C; [lia|exact X].
          - specialize (C v u Hv Hu (fun F => Hn (eq_sym F))). apply graph_has2 in C; [lia|exact X]. }
        refine (conj Hlt (conj Hl _)). intros u v Hu Hv X. specialize (C u v Hu Hv ltac:(lia)). apply graph_has2 in C; [tauto|exact X].
      * intros (Hlt & Hl & N). split; [|exact Hl]. intros u v Hu Hv Huv. destruct (Nat.lt_trichotomy u v) as [X|[X|X]]; [|contradiction|].
        -- apply graph_has2; [exact X|]. auto.
        -- apply has_swap. apply graph_has2; [exact X|]. auto.
    + destruct vs as [|v [|? ?]]; [easy| |simpl in L2; lia]. rewrite H1, IK, graph_has1. split.
      * intro Hv. refine (conj _ (conj _ _)); [intros w [<-|[]]; exact Hv|simpl; lia|]. intros a b [<-|[]] [<-|[]] X. lia.
      * intros (X & _). apply X. left. reflexivity.
  - intros s Hs Hl. destruct (DL s Hs) as [D1 D2]. destruct (Nat.le_gt_cases (length (verts s)) 2) as [L2|L2]; [|apply D2; auto].
    destruct (kwf_good L (reachable_kwf L RL) s Hs) as [Ws Ns]. destruct (verts s) as [|v [|w [|? ?]]] eqn:Ev; [easy| |simpl in *; lia|simpl in *; lia].
    rewrite (D1 ltac:(simpl; lia) (Simplex [v] 0)); [reflexivity| |intro u; cbn [verts]; rewrite ?Ev; tauto].
    rewrite IK. apply HG. left. exists v. split; [|reflexivity]. apply (graph_has1). rewrite <- IK. apply H1. exists s. split; [exact Hs|]. intro u. rewrite Ev. tauto.
  - intros s u v Hs Ev Huv. destruct (DL s Hs) as [D1 _]. assert (Hh : has G [u; v]).
    { rewrite <- IK. assert (Hc : has (by_index L) [u; v]) by (exists s; split; [exact Hs|]; intro w; rewrite Ev; simpl; tauto).
      apply (H2 [u; v]) in Hc; [|repeat constructor; simpl; lia|simpl; lia]. destruct Hc as [C _]. apply C; simpl; auto; lia. }
    apply graph_has2 in Hh; [|exact Huv]. rewrite (D1 ltac:(rewrite Ev; simpl; lia) (Simplex [v; u] (wt u v))); [reflexivity| |intro w; cbn [verts]; rewrite Ev; tauto].
    rewrite IK. apply HG. right. exists u, v. refine (conj _ (conj (proj2 Hh) eq_refl)). lia.
Qed.

(** vertices, expansion, weights, sorting *)
Lemma graph_complex order dimension : (forall l, Permutation (order l) l) ->
  (forall u v, u < v < n -> adj u v = true -> (0 <= wt u v)%Z) ->
  exists K L, insert_into k_empty G = Ok K /\ ripsExpander order K dimension = Ok L /\
    let M := k_sort data_cmp (assignMaximumWeight L 1) in
    reachable M /\
    (forall vs, NoDup vs -> vs <> [] ->
       (has (by_index M) vs <-> (forall v, In v vs -> v < n) /\ length vs <= S dimension /\ pairwise adj vs)) /\
    (forall s, In s (by_index M) -> length (verts s) = 1 -> data s = 0%Z) /\
    (forall s, In s (by_index M) -> 2 <= length (verts s) -> is_diameter wt (verts s) (data s)) /\
    closed (by_index M) /\ filtration_order (by_index M) /\ by_data (by_index M).
Proof.
  intros Ho Hpos.
  destruct (graph_expanded order dimension Ho) as (K & L & EK & EL & RL & CL & HL & D0 & D2). exists K, L. refine (conj EK (conj EL _)).
  pose proof (reachable_kwf L RL) as WL.
  assert (RS : reachable (assignMaximumWeight L 1)) by (apply assign_weight_reachable; intros s Hs; apply (kwf_good L WL s); apply WeightFacts.in_dim; auto).
  destruct (C26_weights L 1 RL CL) as (Hv & Hsmall & _ & _).
  split; [apply sort_reachable; exact RS|]. set (S0 := assignMaximumWeight L 1) in *.
  assert (P : Permutation (by_index (k_sort data_cmp S0)) (by_index S0)) by apply cpp_sort_perm.
  assert (HS : forall vs, has (by_index (k_sort data_cmp S0)) vs <-> has (by_index L) vs).
  { intro vs. rewrite (has_perm _ _ vs P). rewrite (has_verts_eq _ _ vs Hv). apply has_perm. apply Permutation_sym, kwf_perm. exact WL. }
  assert (Edge : forall s, In s (by_index S0) -> 2 <= length (verts s) -> is_max_of_faces (by_index L) 1 s (data s)).
  { apply (C26_edges L RL CL).
    - intros s Hs Hl. apply D0; [exact Hs|lia].
    - intros s Hs Hl. destruct (kwf_good L WL s Hs) as [Ws Ns]. destruct (verts s) as [|v [|u [|? ?]]] eqn:Ev; try discriminate. unfold wf in Ws. rewrite Ev in Ws. inversion Ws as [|? ? _ F]; subst. inversion F as [|? ? F1 _]; subst.
      rewrite (D2 s u v Hs Ev F1). assert (Hh : has (by_index L) [v; u]) by (exists s; split; [exact Hs|]; rewrite Ev; intro w; tauto). apply HL in Hh; [|repeat constructor; simpl; lia|easy]. destruct Hh as (A & _ & N). apply Hpos; [split; [exact F1|apply A; simpl; auto]|apply N; simpl; auto]. }
  assert (Diam : forall s, In s (by_index S0) -> 2 <= length (verts s) -> is_diameter wt (verts s) (data s)).
  { intros s Hs Hl. destruct (Edge s Hs Hl) as [(t & Ht & Sub & Lt & Dt) Max]. split.
    - destruct (kwf_good L WL t Ht) as [Wt _]. destruct (verts t) as [|v [|u [|? ?]]] eqn:Ev; try discriminate. unfold wf in Wt. rewrite Ev in Wt. inversion Wt as [|? ? _ F]; subst. inversion F as [|? ? F1 _]; subst.
      exists u, v. refine (conj _ (conj _ (conj F1 _))); [apply Sub; simpl; auto|apply Sub; simpl; auto|]. rewrite <- Dt. symmetry. apply D2; auto.
    - clear t Ht Sub Lt Dt. intros u v Hu Hv' Huv. assert (Hs' : has (by_index L) (verts s)).
      { apply (has_perm _ _ _ (Permutation_sym (kwf_perm L WL))). apply (has_verts_eq _ _ _ Hv). exists s. split; [exact Hs|]. intro w. tauto. }
      destruct Hs' as (s' & Hs' & Es'). destruct (CL s' [u; v] Hs') as (t & Ht & Et); [easy|intros w [<-|[<-|[]]]; apply Es'; auto|].
      assert (Ev : verts t = [v; u]).
      { destruct (kwf_good L WL t Ht) as [Wt _]. change [v; u] with (verts (Simplex [v; u] 0)). apply wf_ext; [exact Wt|repeat constructor; lia|]. intro w. rewrite (Et w). simpl. tauto. }
      rewrite <- (D2 t u v Ht Ev Huv). apply Max; [exact Ht| |rewrite Ev; reflexivity]. intros w Hw. apply Et in Hw. destruct Hw as [<-|[<-|[]]]; auto. }
  assert (One : forall s, In s (by_index S0) -> length (verts s) = 1 -> data s = 0%Z).
  { intros s Hs Hl. destruct (Hsmall s Hs ltac:(lia)) as (t & Ht & Et & <-). apply D0; [exact Ht|]. rewrite Et. lia. }
  assert (InS : forall s, In s (by_index (k_sort data_cmp S0)) -> In s (by_index S0)) by (intros s Hs; apply (Permutation_in _ P Hs)).
  refine (conj _ (conj _ (conj _ (conj _ _)))).
  - intros vs Nv Hne. rewrite HS. apply HL; auto.
  - intros s Hs. apply One; auto.
  - intros s Hs. apply Diam; auto.
  - intros s vs Hs Hne Sub. apply HS. assert (Hs' : has (by_index L) (verts s)) by (apply HS; exists s; split; [exact Hs|]; intro w; tauto).
    destruct Hs' as (s' & Hs' & Es'). apply (CL s' vs Hs' Hne). intros w Hw. apply Es'. auto.
  - apply sorted_filtration; [apply reachable_kwf, sort_reachable; exact RS|].
    intros s t Hs Ht Sub. apply InS in Hs, Ht. pose proof (reachable_kwf _ RS) as WS. destruct (kwf_good _ WS s Hs) as [Ws Ns]. destruct (kwf_good _ WS t Ht) as [Wt Nt].
    assert (Len : length (verts t) <= length (verts s)) by (apply NoDup_incl_length; [apply SSgt_NoDup; exact Wt|exact Sub]).
    assert (1 <= length (verts t)) by (destruct (verts t); [easy|simpl; lia]).
    destruct (Nat.eq_dec (length (verts t)) 1) as [T1|T1].
    + rewrite (One t Ht T1). destruct (Nat.eq_dec (length (verts s)) 1) as [S1|S1]; [rewrite (One s Hs S1); lia|].
      destruct (Diam s Hs ltac:(lia)) as [(u & v & Hu & Hv' & Huv & <-) _]. assert (Hh : has (by_index L) (verts s)) by (apply HS; exists s; split; [apply (Permutation_in _ (Permutation_sym P)); exact Hs|]; intro w; tauto).
      apply HL in Hh; [|apply (SSgt_NoDup _ Ws)|exact Ns]. destruct Hh as (A & _ & N). apply Hpos; [split; [exact Huv|apply A; exact Hv']|apply N; auto].
    + destruct (Diam t Ht ltac:(lia)) as [(u & v & Hu & Hv' & Huv & <-) _]. apply (Diam s Hs ltac:(lia)); auto.
Qed.
End Graph.
