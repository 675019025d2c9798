(** * The analysis of spectra (C171) *)
From Coq Require Import Ascii List Arith Bool ZArith QArith Lia Permutation Sorted Relations.
From Verif Require Import Base BaseFacts Simplex SimplexFacts SpecComplex Complex ComplexFacts History SubcomplexFacts
  UnionFind UnionFindFacts Diagram Components FiltrationFacts RipsFacts SpecFunctors FunctorFacts PairingFacts LoadMatrix StringUtilities FlexSpectrum
  PropertiesComplex PropertiesComponents PropertiesFunctors PropertiesRips PropertiesDowker SpectralTool.
Import ListNotations.
Local Open Scope list_scope.
Local Open Scope nat_scope.

(** ** Specification: the prominence of a peak *)
Section Spec.
  Variable f : list Z.
  Definition height (i : nat) : Z := nth i f 0%Z.
  (** [w] is a higher position than [v]; the first of two positions with the same intensity counts as the higher one *)
  Definition higher (w v : nat) : Prop := w < length f /\ ((height v < height w)%Z \/ (height w = height v /\ w < v)).
  (** [m] is the smallest intensity on the way from [v] to [w] *)
  Definition lowest (v w : nat) (m : Z) : Prop :=
    (exists a, Nat.min v w <= a <= Nat.max v w /\ height a = m) /\ forall a, Nat.min v w <= a <= Nat.max v w -> (m <= height a)%Z.
  (** the highest pass from [v] to a higher position; there is none from the highest position *)
  Definition pass (v : nat) (o : option Z) : Prop :=
    match o with
    | Some m => (exists w, higher w v /\ lowest v w m) /\ forall w m', higher w v -> lowest v w m' -> (m' <= m)%Z
    | None => forall w, ~ higher w v
    end.
  (** the prominence of a position: its height above the pass, or above (or below) zero *)
  Definition prominence (v : nat) (p : Z) : Prop := exists o, pass v o /\ p = match o with Some m => (height v - m)%Z | None => Z.abs (height v) end.
End Spec.

(** ** The complex *)
Lemma edge_verts i d : simplex_of [i; S i] d = Simplex [S i; i] d.
Proof. unfold simplex_of. f_equal. cbn [cpp_sort insert_sorted]. unfold greater. destruct (Nat.ltb_spec i (S i)); [|lia]. cbn [cpp_unique]. destruct (Nat.eqb_spec (S i) i); [lia|reflexivity]. Qed.

Lemma in_parts f s : In s (spectrum_vertices f ++ spectrum_edges f) <->
  (exists i, i < length f /\ s = Simplex [i] (height f i)) \/ (exists a, S a < length f /\ s = Simplex [S a; a] (Z.min (height f a) (height f (S a)))).
Proof.
  rewrite in_app_iff. unfold spectrum_vertices, spectrum_edges. rewrite !in_map_iff. split.
  - intros [(i & <- & Hi)|(i & <- & Hi)]; apply in_seq in Hi; [left; exists i; split; [lia|reflexivity]|right]. exists i. split; [lia|]. apply edge_verts.
  - intros [(i & Hi & ->)|(i & Hi & ->)]; [left|right]; exists i; (split; [|apply in_seq; lia]); [reflexivity|apply edge_verts].
Qed.

Lemma good_parts f s : In s (spectrum_vertices f ++ spectrum_edges f) -> good s.
Proof. intro H. apply in_parts in H. destruct H as [(i & _ & ->)|(i & _ & ->)]; (split; [|discriminate]); unfold wf; cbn [verts]; repeat constructor. Qed.

Lemma nodup_parts f : NoDup (map verts (spectrum_vertices f ++ spectrum_edges f)).
Proof.
  rewrite map_app. unfold spectrum_vertices, spectrum_edges. rewrite !map_map. apply NoDup_app_intro.
  - apply FinFun.Injective_map_NoDup; [intros a b E; injection E; auto|apply seq_NoDup].
  - apply FinFun.Injective_map_NoDup; [intros a b E; rewrite !edge_verts in E; cbn [verts] in E; injection E; auto|apply seq_NoDup].
  - intros x H1 H2. apply in_map_iff in H1. apply in_map_iff in H2. destruct H1 as (a & <- & _), H2 as (b & E & _). rewrite edge_verts in E. discriminate E.
Qed.

Lemma complex_ok f : exists K, spectrum_complex f = Ok K /\ reachable K /\ closed (by_index K) /\ kwf K /\
  Permutation (by_index K) (spectrum_vertices f ++ spectrum_edges f) /\ StronglySorted (fun a b => data_cmp_greater b a = false) (by_index K).
Proof.
  assert (C : forall L, Permutation L (spectrum_vertices f ++ spectrum_edges f) -> closed L).
  { intros L HP s vs Hs Hne Hsub. apply (Permutation_in _ HP) in Hs. apply in_parts in Hs.
    assert (V : forall i vs, i < length f -> vs <> [] -> (forall v, In v vs -> v = i) -> has L vs).
    { intros i ws Hi Hw Hv. exists (Simplex [i] (height f i)). split; [apply (Permutation_in _ (Permutation_sym HP)); apply in_parts; left; exists i; auto|].
      intro v. cbn [verts In]. split; [|intro H; left; symmetry; apply Hv; exact H]. intros [<-|[]]. destruct ws as [|w ws]; [congruence|]. rewrite <- (Hv w) by (left; reflexivity). left. reflexivity. }
    destruct Hs as [(i & Hi & ->)|(a & Ha & ->)]; unfold subset in Hsub; cbn [verts In] in Hsub.
    - apply (V i); [exact Hi|exact Hne|]. intros v Hv. destruct (Hsub v Hv) as [->|[]]. reflexivity.
    - destruct (in_dec Nat.eq_dec a vs) as [H1|H1]; [destruct (in_dec Nat.eq_dec (S a) vs) as [H2|H2]|].
      + exists (Simplex [S a; a] (Z.min (height f a) (height f (S a)))). split; [apply (Permutation_in _ (Permutation_sym HP)); apply in_parts; right; exists a; auto|].
        intro v. cbn [verts In]. split; [intros [<-|[<-|[]]]; assumption|]. intro H. destruct (Hsub v H) as [->|[->|[]]]; auto.
      + apply (V a); [lia|exact Hne|]. intros v Hv. destruct (Hsub v Hv) as [<-|[<-|[]]]; [contradiction|reflexivity].
      + apply (V (S a)); [lia|exact Hne|]. intros v Hv. destruct (Hsub v Hv) as [<-|[<-|[]]]; [reflexivity|contradiction]. }
  destruct (of_range_new _ (good_parts f) (nodup_parts f)) as (K & E & HK & HI).
  destruct (Nat.leb_spec (length f) 1) as [Hn|Hn].
  - exists K. unfold spectrum_complex. destruct (Nat.leb_spec (length f) 1); [|lia].
    assert (E0 : spectrum_edges f = []) by (unfold spectrum_edges; replace (length f - 1) with 0 by lia; reflexivity).
    rewrite E0, app_nil_r in E, HI. rewrite E, E0, app_nil_r, HI. refine (conj eq_refl (conj _ (conj _ (conj HK (conj (Permutation_refl _) _))))).
    + apply (of_range_reachable _ K) in E; [exact E|]. intros s Hs. apply (good_parts f). apply in_or_app. left. exact Hs.
    + apply C. rewrite E0, app_nil_r. apply Permutation_refl.
    + unfold spectrum_vertices. destruct f as [|x [|y f]]; cbn [length] in *; [constructor|repeat constructor|lia].
  - exists (k_sort data_cmp_greater K). unfold spectrum_complex. destruct (Nat.leb_spec (length f) 1); [lia|]. rewrite E. cbn [bind].
    assert (HP : Permutation (by_index (k_sort data_cmp_greater K)) (spectrum_vertices f ++ spectrum_edges f)) by (cbn [k_sort by_index]; rewrite <- HI; apply cpp_sort_perm).
    assert (R : reachable (k_sort data_cmp_greater K)).
    { apply sort_reachable. apply (of_range_reachable _ K) in E; [exact E|]. intros s Hs. apply (good_parts f). exact Hs. }
    refine (conj eq_refl (conj R (conj (C _ HP) (conj (reachable_kwf _ R) (conj HP _))))). cbn [k_sort by_index]. apply cpp_sort_sorted. apply data_cmp_greater_swo.
Qed.

(** ** The pairing *)
Section Path.
  Variables (f : list Z) (K : complex).
  Hypothesis HR : reachable K.
  Hypothesis HC : closed (by_index K).
  Hypothesis HP : Permutation (by_index K) (spectrum_vertices f ++ spectrum_edges f).
  Hypothesis HS : StronglySorted (fun a b => data_cmp_greater b a = false) (by_index K).
  Let n := length f.
  Let h := height f.
  Let L := by_index K.

  Lemma L_nodup : NoDup L.
  Proof. apply (Permutation_NoDup (Permutation_sym HP)). apply (NoDup_map_inv verts). apply nodup_parts. Qed.
  Lemma in_L s : In s L <-> (exists i, i < n /\ s = Simplex [i] (h i)) \/ (exists a, S a < n /\ s = Simplex [S a; a] (Z.min (h a) (h (S a)))).
  Proof. etransitivity; [|apply (in_parts f s)]. split; [apply (Permutation_in _ HP)|apply (Permutation_in _ (Permutation_sym HP))]. Qed.
  Lemma same_place i j s : nth_error L i = Some s -> nth_error L j = Some s -> i = j.
  Proof. intros H1 H2. apply (proj1 (NoDup_nth_error L) L_nodup); [apply nth_error_Some; congruence|congruence]. Qed.

  Lemma vertex_place i w : vertex_at K i w <-> w < n /\ nth_error L i = Some (Simplex [w] (h w)).
  Proof.
    unfold vertex_at. rewrite nth_error_map. fold L. split.
    - destruct (nth_error L i) as [s|] eqn:E; [|discriminate]. cbn. intro H. injection H as H. pose proof (nth_error_In _ _ E) as Hi. apply in_L in Hi. destruct Hi as [(v & Hv & ->)|(a & _ & ->)]; [|discriminate H]. injection H as ->. auto.
    - intros [_ ->]. reflexivity.
  Qed.
  Lemma edge_place j u v : edge_at K j u v <-> u = S v /\ S v < n /\ nth_error L j = Some (Simplex [S v; v] (Z.min (h v) (h (S v)))).
  Proof.
    unfold edge_at. rewrite nth_error_map. fold L. split.
    - destruct (nth_error L j) as [s|] eqn:E; [|discriminate]. cbn. intro H. injection H as H. pose proof (nth_error_In _ _ E) as Hi. apply in_L in Hi. destruct Hi as [(w & _ & ->)|(a & Ha & ->)]; [discriminate H|]. injection H as <- <-. auto.
    - intros (-> & _ & ->). reflexivity.
  Qed.
  Lemma vertex_exists w : w < n -> exists i, vertex_at K i w.
  Proof. intro H. assert (Hi : In (Simplex [w] (h w)) L) by (apply in_L; left; eauto). apply In_nth_error in Hi. destruct Hi as (i & Hi). exists i. apply vertex_place. auto. Qed.
  Lemma edge_exists a : S a < n -> exists j, edge_at K j (S a) a.
  Proof. intro H. assert (Hi : In (Simplex [S a; a] (Z.min (h a) (h (S a)))) L) by (apply in_L; right; eauto). apply In_nth_error in Hi. destruct Hi as (i & Hi). exists i. apply edge_place. auto. Qed.
  Lemma falling i j s t : i < j -> nth_error L i = Some s -> nth_error L j = Some t -> (data t <= data s)%Z.
  Proof.
    intros Hij Hi Hj. pose proof (StronglySorted_nth _ _ _ _ _ _ HS Hij Hi Hj) as C. cbn beta in C. unfold data_cmp_greater in C. destruct (Z.eqb_spec (data t) (data s)); [lia|]. apply Z.ltb_ge in C. lia.
  Qed.
  Lemma earlier_higher i k w v : vertex_at K i w -> vertex_at K k v -> i < k -> higher f w v.
  Proof.
    intros Hw Hv Hik. apply vertex_place in Hw. apply vertex_place in Hv. destruct Hw as [Lw Hw], Hv as [Lv Hv]. split; [exact Lw|].
    pose proof (StronglySorted_nth _ _ _ _ _ _ HS Hik Hw Hv) as C. cbn beta in C. unfold data_cmp_greater in C. cbn [data verts sdim] in C. fold h.
    destruct (Z.eqb_spec (h v) (h w)) as [E|E].
    - right. split; [symmetry; exact E|]. change (lex_ltb [v] [w] = false) in C. cbn [lex_ltb] in C. destruct (Nat.ltb_spec v w) as [H|H]; [discriminate|]. assert (w <> v); [|lia]. intros ->. pose proof (same_place _ _ _ Hw Hv). lia.
    - apply Z.ltb_ge in C. left. lia.
  Qed.
  Lemma higher_earlier i k w v : vertex_at K i w -> vertex_at K k v -> higher f w v -> i < k.
  Proof.
    intros Hw Hv [_ Hh]. destruct (Nat.lt_trichotomy i k) as [H|[->|H]]; [exact H| |]; exfalso.
    - apply vertex_place in Hw. apply vertex_place in Hv. destruct Hw as [_ Hw], Hv as [_ Hv]. assert (w = v) by congruence. subst w. lia.
    - destruct (earlier_higher _ _ _ _ Hv Hw H) as [_ H']. lia.
  Qed.

  Definition present (j a : nat) : Prop := exists k, k < j /\ edge_at K k (S a) a.
  Lemma linked_path j u w : linked K j u w <-> forall a, Nat.min u w <= a < Nat.max u w -> present j a.
  Proof.
    split.
    - intro H. induction H as [x y (k & Hk & E)|x|x y H IH|x y z H1 IH1 H2 IH2]; intros a Ha.
      + pose proof E as E'. apply edge_place in E'. destruct E' as (-> & _). assert (a = y) by lia. subst. exists k. auto.
      + lia.
      + apply IH. lia.
      + destruct (le_lt_dec (Nat.min x y) a), (le_lt_dec (Nat.max x y) a); first [apply IH1; lia|apply IH2; lia].
    - assert (G : forall d a, (forall b, a <= b < a + d -> present j b) -> linked K j a (a + d)).
      { induction d as [|d IH]; intros a H; [rewrite Nat.add_0_r; apply rst_refl|]. eapply rst_trans; [apply IH; intros b Hb; apply H; lia|].
        destruct (H (a + d)) as (k & Hk & E); [lia|]. apply rst_sym. apply rst_step. exists k. rewrite Nat.add_succ_r. auto. }
      intro H. destruct (le_lt_dec u w) as [Hle|Hle].
      + replace w with (u + (w - u)) by lia. apply G. intros b Hb. apply H. lia.
      + apply rst_sym. replace u with (w + (u - w)) by lia. apply G. intros b Hb. apply H. lia.
  Qed.
  Lemma present_dec j a : {present j a} + {~ present j a}.
  Proof.
    destruct (lt_dec (S a) n) as [H|H]; [|right; intros (k & _ & E); apply edge_place in E; lia].
    destruct (existsb (fun k => match nth_error L k with Some s => list_eqb (verts s) [S a; a] | None => false end) (seq 0 j)) eqn:E.
    - left. apply existsb_exists in E. destruct E as (k & Hk & E). apply in_seq in Hk. destruct (nth_error L k) as [s|] eqn:Es; [|discriminate]. apply list_eqb_eq in E. exists k. split; [lia|]. unfold edge_at. rewrite nth_error_map. fold L. rewrite Es. cbn. rewrite E. reflexivity.
    - right. intros (k & Hk & Ek). assert (X : existsb (fun k => match nth_error L k with Some s => list_eqb (verts s) [S a; a] | None => false end) (seq 0 j) = true); [|congruence].
      apply existsb_exists. exists k. split; [apply in_seq; lia|]. apply edge_place in Ek. destruct Ek as (_ & _ & ->). apply list_eqb_eq. reflexivity.
  Qed.
  (** positions that are not linked are separated by an edge that is not present yet *)
  Lemma not_linked j u w : ~ linked K j u w -> exists a, Nat.min u w <= a < Nat.max u w /\ ~ present j a.
  Proof.
    intro H. assert (G : forall d a, (exists b, a <= b < a + d /\ ~ present j b) \/ (forall b, a <= b < a + d -> present j b)).
    { induction d as [|d IH]; intro a; [right; lia|]. destruct (IH a) as [(b & Hb & Hn)|Ha]; [left; exists b; split; [lia|exact Hn]|]. destruct (present_dec j (a + d)) as [P|P]; [|left; exists (a + d); split; [lia|exact P]].
      right. intros b Hb. destruct (Nat.eq_dec b (a + d)) as [->|]; [exact P|]. apply Ha. lia. }
    destruct (G (Nat.max u w - Nat.min u w) (Nat.min u w)) as [(b & Hb & Hn)|Ha]; [exists b; split; [lia|exact Hn]|]. exfalso. apply H. apply linked_path. intros a Hab. apply Ha. lia.
  Qed.
  Lemma linked_dec j u w : {linked K j u w} + {~ linked K j u w}.
  Proof.
    assert (G : forall d a, {forall b, a <= b < a + d -> present j b} + {~ forall b, a <= b < a + d -> present j b}).
    { induction d as [|d IH]; intro a; [left; lia|]. destruct (IH a) as [Ha|Ha]; [|right; intro H; apply Ha; intros b Hb; apply H; lia]. destruct (present_dec j (a + d)) as [P|P]; [|right; intro H; apply P; apply H; lia].
      left. intros b Hb. destruct (Nat.eq_dec b (a + d)) as [->|]; [exact P|]. apply Ha. lia. }
    destruct (G (Nat.max u w - Nat.min u w) (Nat.min u w)) as [H|H]; [left|right].
    - apply linked_path. intros a Ha. apply H. lia.
    - rewrite linked_path. intro X. apply H. intros b Hb. apply X. lia.
  Qed.
  Lemma present_step j a : present (S j) a -> ~ present j a -> edge_at K j (S a) a.
  Proof. intros (k & Hk & E) Hn. destruct (Nat.eq_dec k j) as [->|]; [exact E|]. exfalso. apply Hn. exists k. split; [lia|exact E]. Qed.

  (** the pass of the younger vertex of an event *)
  Lemma event_pass e : is_event K e -> ev_younger e < n /\ ev_creation e = h (ev_younger e) /\ pass f (ev_younger e) (Some (ev_destruction e)).
  Proof.
    intros [Ie Ij Ien [Iy Iyf] (io & Hio & Io & Iof) Ic Id]. set (y := ev_younger e) in *. set (o := ev_older e) in *. set (j := ev_edge e) in *.
    pose proof Iy as Iy'. apply vertex_place in Iy'. destruct Iy' as [Ly Py]. pose proof Ie as Ie'. apply edge_place in Ie'. destruct Ie' as (Eu & Lv & Pj). set (a := ev_v e) in *. rewrite Eu in *.
    unfold data_of in Ic, Id. rewrite nth_error_map in Ic, Id. fold L in Ic, Id. rewrite Py in Ic. rewrite Pj in Id. cbn in Ic, Id. injection Ic as Ec. injection Id as Ed.
    split; [exact Ly|]. split; [symmetry; exact Ec|].
    assert (Hno : ~ linked K j o y) by (intro H; specialize (Iyf io o Io H); lia).
    assert (Hlo : linked K (S j) y o).
    { assert (E1 : linked K (S j) (S a) a) by (apply rst_step; exists j; split; [lia|exact Ie]). destruct Ien as [[H1 H2]|[H1 H2]]; apply (linked_mono K j (S j)) in H1; apply (linked_mono K j (S j)) in H2; try lia.
      - eapply rst_trans; [apply rst_sym; exact H1|]. eapply rst_trans; [exact E1|exact H2].
      - eapply rst_trans; [apply rst_sym; exact H1|]. eapply rst_trans; [apply rst_sym; exact E1|exact H2]. }
    assert (Hbetween : Nat.min y o <= a < Nat.max y o).
    { destruct (not_linked _ _ _ Hno) as (b & Hb & Hnb). assert (Hb' : Nat.min y o <= b < Nat.max y o) by lia. pose proof (proj1 (linked_path _ _ _) Hlo b Hb') as Pb. pose proof (present_step _ _ Pb Hnb) as Eb. apply edge_place in Eb. destruct Eb as (_ & _ & Eb). assert (E0 : a = b) by congruence. rewrite E0. exact Hb'. }
    assert (Hall : forall b, Nat.min y o <= b < Nat.max y o -> (ev_destruction e <= h b)%Z /\ (ev_destruction e <= h (S b))%Z).
    { intros b Hb. destruct (proj1 (linked_path _ _ _) Hlo b Hb) as (k & Hk & Ek). apply edge_place in Ek. destruct Ek as (_ & _ & Ek). assert (X : (ev_destruction e <= Z.min (h b) (h (S b)))%Z); [|lia].
      rewrite <- Ed. destruct (Nat.eq_dec k j) as [->|]; [assert (E0 : a = b) by congruence; rewrite E0; apply Z.le_refl|]. apply (falling k j _ _ ltac:(lia) Ek Pj). }
    split.
    - exists o. split; [apply (earlier_higher io (ev_creator e)); assumption|]. split.
      + destruct (Z.min_spec (h a) (h (S a))) as [[_ Em]|[_ Em]]; [exists a|exists (S a)]; (split; [lia|]); rewrite <- Ed, Em; reflexivity.
      + intros b Hb. fold h. destruct (Nat.eq_dec b (Nat.max y o)) as [E|E].
        * destruct b as [|b]; [lia|]. apply Hall. lia.
        * apply Hall. lia.
    - intros w m' Hw [_ Hm]. destruct Hw as [Lw Hw'] eqn:Ew. destruct (vertex_exists w Lw) as (k & Hk). pose proof (higher_earlier k (ev_creator e) w y Hk Iy Hw) as Hlt.
      assert (Hnw : ~ linked K j w y) by (intro H; specialize (Iyf k w Hk H); lia).
      destruct (not_linked _ _ _ Hnw) as (b & Hb & Hnb). assert (Lb : S b < n) by lia. destruct (edge_exists b Lb) as (jb & Ejb). assert (Hj : j <= jb) by (destruct (le_lt_dec j jb); [assumption|]; exfalso; apply Hnb; exists jb; auto).
      apply edge_place in Ejb. destruct Ejb as (_ & _ & Ejb). assert (X : (Z.min (h b) (h (S b)) <= ev_destruction e)%Z).
      { rewrite <- Ed. destruct (Nat.eq_dec j jb) as [<-|]; [assert (E0 : a = b) by congruence; rewrite E0; apply Z.le_refl|]. apply (falling j jb _ _ ltac:(lia) Pj Ejb). }
      pose proof (Hm b ltac:(lia)) as M1. pose proof (Hm (S b) ltac:(lia)) as M2. fold h in M1, M2. lia.
  Qed.

  Lemma all_linked u w : u < n -> w < n -> linked K (k_size K) u w.
  Proof.
    intros Hu Hw. apply linked_path. intros a Ha. destruct (edge_exists a) as (k & Hk); [lia|]. exists k. split; [|exact Hk]. apply edge_place in Hk. destruct Hk as (_ & _ & Hk). unfold k_size. apply nth_error_Some. fold L. congruence.
  Qed.
  Lemma event_again e e' : is_event K e -> is_event K e' -> ev_edge e < ev_edge e' -> ev_younger e <> ev_younger e'.
  Proof.
    intros [Ie Ij Ien [Iy Iyf] (io & Hio & Io & Iof) Ic Id] [_ _ _ [Iy' Iyf'] _ _ _] Hlt E. rewrite <- E in Iy', Iyf'.
    assert (Hc : ev_creator e' = ev_creator e).
    { apply vertex_place in Iy. apply vertex_place in Iy'. destruct Iy as [_ Iy], Iy' as [_ Iy']. apply (same_place _ _ _ Iy' Iy). }
    assert (X : linked K (ev_edge e') (ev_older e) (ev_younger e)).
    { assert (E1 : linked K (ev_edge e') (ev_u e) (ev_v e)) by (apply rst_step; exists (ev_edge e); auto).
      destruct Ien as [[H1 H2]|[H1 H2]]; apply (linked_mono K _ (ev_edge e')) in H1; apply (linked_mono K _ (ev_edge e')) in H2; try lia.
      - eapply rst_trans; [apply rst_sym; exact H2|]. eapply rst_trans; [apply rst_sym; exact E1|exact H1].
      - eapply rst_trans; [apply rst_sym; exact H2|]. eapply rst_trans; [exact E1|exact H1]. }
    specialize (Iyf' io _ Io X). lia.
  Qed.
  Lemma youngers_nodup evs : all_events K evs -> NoDup (map ev_younger evs).
  Proof.
    intros (A & B & _). induction evs as [|e evs IH]; [constructor|]. cbn [map] in *. inversion A as [|? ? A1 A2]; subst. inversion B as [|? ? B1 B2]; subst. constructor; [|apply IH; assumption].
    intro H. apply in_map_iff in H. destruct H as (e' & E & He'). rewrite Forall_forall in A2, B2. apply (event_again e e'); [exact B1|apply B2; exact He'|apply A2; apply in_map; exact He'|symmetry; exact E].
  Qed.

  Lemma linked_step j u w : linked K (S j) u w -> ~ linked K j u w ->
    exists a, edge_at K j (S a) a /\ ((linked K j u a /\ linked K j w (S a)) \/ (linked K j u (S a) /\ linked K j w a)).
  Proof.
    intros H Hn. destruct (not_linked _ _ _ Hn) as (a & Ha & Hna). pose proof (proj1 (linked_path _ _ _) H) as P. pose proof (present_step j a (P a Ha) Hna) as Ea. exists a. split; [exact Ea|].
    assert (Q : forall b, Nat.min u w <= b < Nat.max u w -> b <> a -> present j b).
    { intros b Hb Hne. destruct (present_dec j b) as [D|D]; [exact D|]. exfalso. pose proof (present_step j b (P b Hb) D) as Eb. apply Hne. apply edge_place in Ea. apply edge_place in Eb. destruct Ea as (_ & _ & Ea), Eb as (_ & _ & Eb). congruence. }
    destruct (le_lt_dec u w); [left|right]; split; apply linked_path; intros b Hb; apply Q; lia.
  Qed.
  Lemma first_same j i k r s : first_at K j i r -> first_at K j k s -> linked K j r s -> r = s.
  Proof.
    intros [A B] [C D] H. pose proof (B k s C (rst_sym _ _ _ _ H)) as H1. pose proof (D i r A H) as H2. assert (i = k) by lia. subst k. apply vertex_place in A. apply vertex_place in C. destruct A as [_ A], C as [_ C]. congruence.
  Qed.

  Lemma younger_event evs y w : all_events K evs -> y < n -> higher f w y -> In y (map ev_younger evs).
  Proof.
    intros (A & B & C) Hy Hw. pose proof (proj1 Hw) as Lw.
    destruct (vertex_exists y Hy) as (i & Vi).
    (* the first time at which y is linked to an earlier vertex *)
    assert (X : forall j, (exists k v, k < i /\ vertex_at K k v /\ linked K j v y) ->
      exists j', (exists k v, k < i /\ vertex_at K k v /\ linked K (S j') v y) /\ forall k v, k < i -> vertex_at K k v -> ~ linked K j' v y).
    { induction j as [|j IH]; intros (k & v & Hk & Vk & Hl).
      - exfalso. assert (v = y).
        { destruct (Nat.eq_dec v y) as [E|E]; [exact E|]. exfalso. destruct (proj1 (linked_path _ _ _) Hl (Nat.min v y)) as (b & Hb & _); lia. }
        subst v. apply vertex_place in Vi. apply vertex_place in Vk. destruct Vi as [_ Vi], Vk as [_ Vk]. pose proof (same_place _ _ _ Vi Vk). lia.
      - assert (D : (exists k v, k < i /\ vertex_at K k v /\ linked K j v y) \/ forall k v, k < i -> vertex_at K k v -> ~ linked K j v y).
        { assert (G : forall m, (exists k v, k < m /\ vertex_at K k v /\ linked K j v y) \/ forall k v, k < m -> vertex_at K k v -> ~ linked K j v y).
          { induction m as [|m IHm]; [right; lia|]. destruct IHm as [(k1 & v1 & H1 & H2)|Hm]; [left; exists k1, v1; split; [lia|exact H2]|].
            assert (E : (exists v, vertex_at K m v /\ linked K j v y) \/ forall v, vertex_at K m v -> ~ linked K j v y).
            { destruct (nth_error L m) as [s|] eqn:Es; [|right; intros v2 Hv2; apply vertex_place in Hv2; destruct Hv2 as [_ Hv2]; congruence].
              destruct (verts s) as [|v1 [|v' t]] eqn:Ev; try (right; intros x Hx; apply vertex_place in Hx; destruct Hx as [_ Hx]; rewrite Es in Hx; injection Hx as ->; discriminate Ev).
              destruct (linked_dec j v1 y) as [Hd|Hd].
              - left. exists v1. split; [unfold vertex_at; rewrite nth_error_map; fold L; rewrite Es; cbn; rewrite Ev; reflexivity|exact Hd].
              - right. intros x Hx. apply vertex_place in Hx. destruct Hx as [_ Hx]. rewrite Es in Hx. injection Hx as ->. cbn in Ev. injection Ev as ->. exact Hd. }
            destruct E as [(v1 & H1 & H2)|E]; [left; exists m, v1; auto|]. right. intros k1 v1 H1 H2. destruct (Nat.eq_dec k1 m) as [->|]; [apply E; exact H2|]. apply Hm with k1; [lia|exact H2]. }
          apply G. }
        destruct D as [D|D]; [apply IH; exact D|]. exists j. split; [exists k, v; auto|exact D]. }
    destruct (X (k_size K)) as (j & (k & v & Hk & Vk & Hl) & Hno).
    { destruct (vertex_exists w Lw) as (k & Vk). exists k, w. split; [apply (higher_earlier k i w y Vk Vi Hw)|]. split; [exact Vk|apply all_linked; [exact Lw|exact Hy]]. }
    assert (Fy : first_at K j i y) by (split; [exact Vi|]; intros k' v' V' H'; destruct (le_lt_dec i k'); [assumption|]; exfalso; apply (Hno k' v'); assumption).
    destruct (linked_step j v y Hl (Hno k v Hk Vk)) as (a & Ea & Hends).
    assert (J : joining K j).
    { exists (S a), a. split; [exact Ea|]. intro H. apply (Hno k v Hk Vk). destruct Hends as [[H1 H2]|[H1 H2]].
      - eapply rst_trans; [exact H1|]. eapply rst_trans; [apply rst_sym; exact H|]. apply rst_sym. exact H2.
      - eapply rst_trans; [exact H1|]. eapply rst_trans; [exact H|]. apply rst_sym. exact H2. }
    apply C in J. apply in_map_iff in J. destruct J as (e & Ej & He). rewrite Forall_forall in B. destruct (B e He) as [Ie Ij Ien Iyf (io & Hio & Iof) Ic Id]. rewrite Ej in *.
    apply in_map_iff. exists e. split; [|exact He].
    assert (Eu : ev_u e = S a /\ ev_v e = a) by (unfold edge_at in Ie, Ea; rewrite Ie in Ea; injection Ea; auto). destruct Eu as [Eu Ev]. rewrite Eu, Ev in *.
    assert (Hcase : linked K j y (ev_younger e) \/ (linked K j y (ev_older e) /\ linked K j v (ev_younger e))).
    { destruct Hends as [[H1 H2]|[H1 H2]], Ien as [[H3 H4]|[H3 H4]].
      - left. eapply rst_trans; eassumption.
      - right. split; eapply rst_trans; eassumption.
      - right. split; eapply rst_trans; eassumption.
      - left. eapply rst_trans; eassumption. }
    destruct Hcase as [H|[H H']].
    - symmetry. apply (first_same j i (ev_creator e)); assumption.
    - exfalso. assert (y = ev_older e) by (apply (first_same j i io); assumption). subst y. assert (io = i) by (destruct Iof as [Io _]; apply vertex_place in Vi; apply vertex_place in Io; destruct Vi as [_ Vi], Io as [_ Io]; apply (same_place _ _ _ Io Vi)). subst io.
      destruct Iyf as [_ Iyf]. pose proof (Iyf k v Vk H'). lia.
  Qed.

  Lemma root_top i r : first_at K (k_size K) i r <-> vertex_at K i r /\ pass f r None.
  Proof.
    split.
    - intros [V F]. split; [exact V|]. intros w Hw. pose proof (proj1 Hw) as Lw. destruct (vertex_exists w Lw) as (k & Vk). pose proof (higher_earlier k i w r Vk V Hw) as H. pose proof V as V'. apply vertex_place in V'.
      pose proof (F k w Vk (all_linked w r Lw (proj1 V'))). lia.
    - intros [V F]. split; [exact V|]. intros k w Vk _. destruct (le_lt_dec i k); [assumption|]. exfalso. apply (F w). apply (earlier_higher k i); assumption.
  Qed.
  Lemma higher_total v w : v < n -> w < n -> v <> w -> higher f v w \/ higher f w v.
  Proof. intros Hv Hw Hne. unfold higher. fold n. fold h. lia. Qed.
  Lemma top_exists : 0 < n -> exists i r, vertex_at K i r /\ pass f r None.
  Proof.
    intro Hn. assert (G : forall i v, vertex_at K i v -> exists i r, vertex_at K i r /\ pass f r None).
    { induction i as [i IH] using (well_founded_induction lt_wf). intros v V. destruct (existsb (fun k => match nth_error L k with Some s => length (verts s) =? 1 | None => false end) (seq 0 i)) eqn:E.
      - apply existsb_exists in E. destruct E as (k & Hk & E). apply in_seq in Hk. destruct (nth_error L k) as [s|] eqn:Es; [|discriminate]. apply Nat.eqb_eq in E. destruct (verts s) as [|w [|]] eqn:Ev; try discriminate E.
        apply (IH k ltac:(lia) w). unfold vertex_at. rewrite nth_error_map. fold L. rewrite Es. cbn. rewrite Ev. reflexivity.
      - exists i, v. split; [exact V|]. intros w Hw. pose proof (proj1 Hw) as Lw. destruct (vertex_exists w Lw) as (k & Vk). pose proof (higher_earlier k i w v Vk V Hw) as H.
        assert (X : existsb (fun k => match nth_error L k with Some s => length (verts s) =? 1 | None => false end) (seq 0 i) = true); [|congruence].
        apply existsb_exists. exists k. split; [apply in_seq; lia|]. apply vertex_place in Vk. destruct Vk as [_ ->]. reflexivity. }
    destruct (vertex_exists 0 Hn) as (i & V). apply (G i 0 V).
  Qed.

  Lemma pairing_ok inf order : (forall l, Permutation (order l) l) -> exists evs rs ds,
    zeroDimensional inf true order K = Ok (map (fun e => (ev_creation e, ev_destruction e)) evs ++ map (fun d => (d, inf)) ds,
                                           map (fun e => (ev_creator e, Some (ev_edge e))) evs ++ map (fun q => (fst q, None)) rs) /\
    Forall (is_event K) evs /\ Forall2 (fun q d => vertex_at K (fst q) (snd q) /\ d = h (snd q) /\ pass f (snd q) None) rs ds /\
    Permutation (map ev_younger evs ++ map snd rs) (seq 0 n) /\ (0 < n -> length rs = 1).
  Proof.
    intro Ho. destruct (C151_calls inf true order K Ho HR HC) as (evs & rs & ds & A & B & C & D & _). exists evs, rs, ds.
    assert (EF : filter (ev_kept true) evs = evs) by (clear; induction evs as [|e l IH]; [reflexivity|cbn; rewrite IH; reflexivity]). rewrite EF in D. split; [exact D|]. split; [apply A|]. destruct B as [B1 B2].
    assert (Top : forall q, In q rs -> vertex_at K (fst q) (snd q) /\ pass f (snd q) None) by (intros [i r] Hq; apply root_top; apply B2; exact Hq).
    split; [|split].
    - clear D B1 B2. induction C as [|q d rs ds Hq C IH]; [constructor|]. constructor; [|apply IH; intros q' Hq'; apply Top; right; exact Hq'].
      destruct (Top q (or_introl eq_refl)) as [V P]. split; [exact V|]. split; [|exact P]. apply vertex_place in V. destruct V as [_ V]. unfold data_of in Hq. rewrite nth_error_map in Hq. fold L in Hq. rewrite V in Hq. cbn in Hq. congruence.
    - apply NoDup_Permutation; [|apply seq_NoDup|].
      + apply NoDup_app_intro; [apply youngers_nodup; exact A| |].
        * assert (G : forall l, NoDup l -> (forall q, In q l -> vertex_at K (fst q) (snd q)) -> NoDup (map snd l)); [|apply G; [exact B1|intros q Hq; apply Top; exact Hq]].
          induction l as [|q l IH]; intros N V; [constructor|]. cbn [map]. apply NoDup_cons_iff in N. constructor; [|apply IH; [apply N|intros q' Hq'; apply V; right; exact Hq']].
          intro H. apply in_map_iff in H. destruct H as ([i r] & E & Hq). cbn in E. subst r. destruct N as [N _]. apply N. pose proof (V _ (or_introl eq_refl)) as V1. pose proof (V _ (or_intror Hq)) as V2. cbn [fst snd] in V2. apply vertex_place in V1. apply vertex_place in V2. rewrite <- (same_place _ _ _ (proj2 V1) (proj2 V2)) in Hq. destruct q; exact Hq.
        * intros y Hy Hr. apply in_map_iff in Hy. apply in_map_iff in Hr. destruct Hy as (e & <- & He), Hr as (q & Eq & Hq). destruct A as (_ & A & _). rewrite Forall_forall in A. destruct (event_pass e (A e He)) as (_ & _ & (w & Hw & _) & _). destruct (Top q Hq) as [_ Hp]. rewrite Eq in Hp. apply (Hp w Hw).
      + intro v. rewrite in_app_iff, in_seq. split.
        * intros [H|H]; apply in_map_iff in H; destruct H as (x & <- & Hx).
          -- destruct A as (_ & A & _). rewrite Forall_forall in A. destruct (event_pass x (A x Hx)) as (Hl & _). lia.
          -- destruct (Top x Hx) as [V _]. apply vertex_place in V. lia.
        * intros [_ Hv]. cbn in Hv. destruct (vertex_exists v Hv) as (i & V). destruct (top_exists ltac:(lia)) as (i' & r & V' & P').
          destruct (Nat.eq_dec v r) as [->|Hne]; [right; apply in_map_iff; exists (i', r); split; [reflexivity|]; apply B2; apply root_top; auto|].
          left. pose proof V' as V''. apply vertex_place in V''. destruct (higher_total v r Hv (proj1 V'') Hne) as [H|H]; [exfalso; apply (P' v H)|]. apply (younger_event evs v r A Hv H).
    - intro Hn. destruct (top_exists Hn) as (i & r & V & P). assert (Hin : In (i, r) rs) by (apply B2; apply root_top; auto).
      assert (Hall : forall q, In q rs -> q = (i, r)).
      { intros [i' r'] Hq. destruct (Top _ Hq) as [V' P']. cbn [fst snd] in V', P'. assert (r' = r).
        { destruct (Nat.eq_dec r' r) as [E|E]; [exact E|]. exfalso. pose proof V as V1. pose proof V' as V2. apply vertex_place in V1. apply vertex_place in V2. destruct (higher_total r' r (proj1 V2) (proj1 V1) E) as [H|H]; [apply (P r' H)|apply (P' r H)]. }
        subst r'. f_equal. apply vertex_place in V. apply vertex_place in V'. apply (same_place _ _ _ (proj2 V') (proj2 V)). }
      destruct rs as [|q1 [|q2 rs]]; [destruct Hin|reflexivity|]. exfalso. pose proof (Hall q1 (or_introl eq_refl)). pose proof (Hall q2 (or_intror (or_introl eq_refl))). subst. apply NoDup_cons_iff in B1. apply (proj1 B1). left. reflexivity.
  Qed.
End Path.

Lemma pass_unique f v o o' : pass f v o -> pass f v o' -> o = o'.
Proof.
  destruct o as [m|], o' as [m'|]; cbn [pass]; intros H H'; [|exfalso|exfalso|reflexivity].
  - destruct H as [(w & Hw & Lw) B], H' as [(w' & Hw' & Lw') B']. pose proof (B w' m' Hw' Lw'). pose proof (B' w m Hw Lw). f_equal. lia.
  - destruct H as [(w & Hw & _) _]. apply (H' w Hw).
  - destruct H' as [(w & Hw & _) _]. apply (H w Hw).
Qed.

(** ** The map *)
Definition keyed (m : list (Z * Z)) : Prop := StronglySorted (fun a b => (fst a < fst b)%Z) m.
Lemma put_in x y m a b : keyed m -> In (a, b) (put x y m) <-> (a = x /\ b = y) \/ (a <> x /\ In (a, b) m).
Proof.
  intro S. induction S as [|[k v] m S IH F]; cbn [put].
  - cbn [In]. split; [intros [E|[]]; injection E as -> ->; auto|intros [[-> ->]|[_ []]]; auto].
  - rewrite Forall_forall in F. destruct (Z.ltb_spec x k) as [H|H]; [|destruct (Z.eqb_spec x k) as [->|Hne]].
    + cbn [In]. split.
      * intros [E|[E|E]]; [injection E as -> ->; auto|injection E as -> ->; right; split; [lia|auto]|]. right. pose proof (F _ E) as G. cbn [fst] in G. split; [lia|auto].
      * intros [[-> ->]|[_ H']]; auto.
    + cbn [In]. split.
      * intros [E|E]; [injection E as -> ->; auto|]. right. pose proof (F _ E) as G. cbn [fst] in G. split; [lia|auto].
      * intros [[-> ->]|[Hn [E|E]]]; [auto|injection E as -> ->; congruence|auto].
    + cbn [In]. rewrite IH. split.
      * intros [E|[E|E]]; [injection E as -> ->; right; split; [congruence|auto]|auto|]. right. split; [apply E|right; apply E].
      * intros [E|[Hn [E|E]]]; [auto|auto|auto].
Qed.
Lemma put_keyed x y m : keyed m -> keyed (put x y m).
Proof.
  intro S. pose proof S as S0. induction S as [|[k v] m S IH F]; cbn [put]; [constructor; constructor|].
  destruct (Z.ltb_spec x k) as [H|H]; [|destruct (Z.eqb_spec x k) as [->|Hne]].
  - constructor; [exact S0|]. constructor; [exact H|]. rewrite Forall_forall in F |- *. intros q Hq. specialize (F q Hq). cbn [fst] in *. lia.
  - constructor; [exact S|exact F].
  - constructor; [apply IH; exact S|]. rewrite Forall_forall in F |- *. intros [a b] Hq. apply (put_in x y m a b S) in Hq. cbn [fst]. destruct Hq as [[-> _]|[_ Hq]]; [lia|apply (F _ Hq)].
Qed.
Definition put_all (items m : list (Z * Z)) : list (Z * Z) := fold_left (fun m q => put (fst q) (snd q) m) items m.
Lemma put_all_ok items : forall m, keyed m -> keyed (put_all items m) /\ (forall q, In q (put_all items m) -> In q items \/ In q m) /\
  (forall a, In a (map fst items) \/ In a (map fst m) -> In a (map fst (put_all items m))).
Proof.
  induction items as [|[x y] items IH]; intros m S; [split; [exact S|split; [auto|intros a [[]|H]; exact H]]|].
  destruct (IH (put x y m) (put_keyed x y m S)) as (A & B & C). cbn [put_all fold_left fst snd] in *. fold (put_all items (put x y m)) in *. split; [exact A|split].
  - intros [a b] H. destruct (B _ H) as [H'|H']; [left; right; exact H'|]. apply (put_in x y m a b S) in H'. destruct H' as [[-> ->]|[_ H']]; [left; left; reflexivity|right; exact H'].
  - intros a H. apply C. cbn [map fst In] in H. assert (X : forall b, In b (map fst m) -> In b (map fst (put x y m))).
    { intros b Hb. apply in_map_iff in Hb. destruct Hb as ([b' c] & <- & Hb). cbn [fst]. destruct (Z.eq_dec b' x) as [->|Hn]; apply in_map_iff; [exists (x, y)|exists (b', c)]; (split; [reflexivity|]); apply put_in; auto. }
    destruct H as [[<-|H]|H]; [right|left; exact H|right; apply X; exact H]. apply in_map_iff. exists (x, y). split; [reflexivity|]. apply put_in; auto.
Qed.
Lemma foldM_put K xs l items : Forall2 (fun q x => forall m, transform_step K xs m q = Ok (put (fst x) (snd x) m)) l items ->
  forall m, foldM (transform_step K xs) l m = Ok (put_all items m).
Proof. induction 1 as [|q x l items H F IH]; intro m; [reflexivity|]. cbn [foldM]. rewrite H. cbn [bind]. apply IH. Qed.

Lemma forall2_map {A B C D} (R : C -> D -> Prop) (g : A -> C) (k : B -> D) l l' : Forall2 (fun a b => R (g a) (k b)) l l' -> Forall2 R (map g l) (map k l').
Proof. induction 1; constructor; auto. Qed.
Lemma forall2_same {A} (R : A -> A -> Prop) l : (forall a, In a l -> R a a) -> Forall2 R l l.
Proof. induction l as [|a l IH]; intro H; constructor; [apply H; left; reflexivity|apply IH; intros b Hb; apply H; right; exact Hb]. Qed.

Lemma step_ok f K xs i w j d m : length xs = length f -> Permutation (by_index K) (spectrum_vertices f ++ spectrum_edges f) ->
  vertex_at K i w -> match j with Some k => exists a, edge_at K k (S a) a /\ data_of K k d | None => d = 0%Z end ->
  transform_step K xs m (i, j) = Ok (put (nth w xs 0%Z) (Z.abs (height f w - d)) m).
Proof.
  intros Hl HP V Hj. apply (vertex_place f K HP) in V. destruct V as [Lw Hw]. unfold transform_step, k_at, at_. cbn [fst snd]. rewrite Hw. cbn [bind].
  assert (T : exists tau, (match j with Some k => if k <? k_size K then match nth_error (by_index K) k with Some s => Ok s | None => Throw OutOfRange end else Ok (simplex_of [0; 1] 0%Z) | None => Ok (simplex_of [0; 1] 0%Z) end) = Ok tau /\ s_dimension tau = Ok 1 /\ data tau = d).
  { destruct j as [k|].
    - destruct Hj as (a & Ea & Hd). apply (edge_place f K HP) in Ea. destruct Ea as (_ & _ & Ea). unfold data_of in Hd. rewrite nth_error_map, Ea in Hd. cbn in Hd. rewrite Ea.
      destruct (Nat.ltb_spec k (k_size K)) as [H|H]; [|exfalso; unfold k_size in H; apply nth_error_None in H; rewrite H in Ea; discriminate Ea]. eexists. split; [reflexivity|]. split; [reflexivity|]. cbn [data]. injection Hd as Hd. exact Hd.
    - subst d. eexists. split; [reflexivity|]. split; reflexivity. }
  destruct T as (tau & ET & Dt & Et). rewrite ET. cbn [bind]. rewrite Dt. cbn. rewrite (nth_error_nth' xs 0%Z) by lia. cbn [bind]. rewrite Et. reflexivity.
Qed.

(** Transformation: the lines are sorted by their position, every position of the file occurs once, and a
    position has the prominence of one of its lines in the file. *)
Theorem C171_lines : forall inf order pts, (forall l, Permutation (order l) l) -> exists out,
  spectrum_transformation inf order pts = Ok out /\ StronglySorted (fun a b => (fst a < fst b)%Z) out /\
  (forall x, In x (map fst out) <-> In x (map fst pts)) /\
  (forall x p, In (x, p) out -> exists v y, nth_error pts v = Some (x, y) /\ prominence (map snd pts) v p).
Proof.
  intros inf order pts Ho. set (f := map snd pts). destruct (complex_ok f) as (K & EK & HR & HC & HK & HP & HS).
  destruct (pairing_ok f K HR HC HP HS inf order Ho) as (evs & rs & ds & EZ & HE & HF & HPm & _).
  set (xs := map fst pts). assert (Hl : length xs = length f) by (unfold xs, f; rewrite !map_length; reflexivity).
  set (items := map (fun e => (nth (ev_younger e) xs 0%Z, Z.abs (height f (ev_younger e) - ev_destruction e))) evs ++ map (fun q => (nth (snd q) xs 0%Z, Z.abs (height f (snd q) - 0))) rs).
  assert (RT : forall q, In q rs -> vertex_at K (fst q) (snd q) /\ pass f (snd q) None) by (intros q Hq; clear -HF Hq; induction HF as [|a b rs ds (V & _ & P) F IH]; [destruct Hq|]; destruct Hq as [<-|Hq]; auto).
  assert (ES : spectrum_transformation inf order pts = Ok (put_all items [])).
  { unfold spectrum_transformation. fold f. fold xs. rewrite EK. cbn [bind]. rewrite EZ. cbn [bind]. apply foldM_put. apply Forall2_app; apply forall2_map; apply forall2_same.
    - intros e He m. cbn [fst snd]. rewrite Forall_forall in HE. destruct (HE e He) as [Ie _ _ [Iy _] _ _ Id]. apply step_ok; [exact Hl|exact HP|exact Iy|]. pose proof Ie as Ie'. apply (edge_place f K HP) in Ie'. destruct Ie' as (Eu & _ & _). rewrite Eu in Ie. exists (ev_v e). auto.
    - intros q Hq m. cbn [fst snd]. apply step_ok; [exact Hl|exact HP|apply RT; exact Hq|reflexivity]. }
  exists (put_all items []). split; [exact ES|]. destruct (put_all_ok items [] ltac:(constructor)) as (A & B & C). split; [exact A|].
  assert (HI : forall x p, In (x, p) items -> exists v y, nth_error pts v = Some (x, y) /\ prominence f v p).
  { assert (G : forall v, v < length f -> exists y, nth_error pts v = Some (nth v xs 0%Z, y)).
    { intros v Hv. unfold f in Hv. rewrite map_length in Hv. destruct (nth_error pts v) as [[x y]|] eqn:E; [|apply nth_error_None in E; lia]. exists y. repeat f_equal. unfold xs. rewrite (nth_error_nth (map fst pts) v 0%Z (x := x)); [reflexivity|]. rewrite nth_error_map, E. reflexivity. }
    intros x p H. apply in_app_or in H. destruct H as [H|H]; apply in_map_iff in H.
    - destruct H as (e & E & He). injection E as <- <-. rewrite Forall_forall in HE. destruct (event_pass f K HP HS e (HE e He)) as (Hv & _ & Hpass). destruct (G _ Hv) as (y & Ey). exists (ev_younger e), y. split; [exact Ey|]. exists (Some (ev_destruction e)). split; [exact Hpass|].
      destruct Hpass as [(w & _ & _ & Hm) _]. apply Z.abs_eq. specialize (Hm (ev_younger e) ltac:(lia)). lia.
    - destruct H as (q & E & Hq). injection E as <- <-. destruct (RT q Hq) as [V P]. apply (vertex_place f K HP) in V. destruct (G _ (proj1 V)) as (y & Ey). exists (snd q), y. split; [exact Ey|]. exists None. split; [exact P|]. rewrite Z.sub_0_r. reflexivity. }
  split.
  - intro x. split.
    + intro H. apply in_map_iff in H. destruct H as ([x' p] & <- & H). destruct (B _ H) as [H'|[]]. destruct (HI _ _ H') as (v & y & Ev & _). apply in_map_iff. exists (x', y). split; [reflexivity|]. apply (nth_error_In _ _ Ev).
    + intro H. apply C. left. apply In_nth_error in H. destruct H as (v & Hv). assert (Lv : v < length f) by (rewrite <- Hl; apply nth_error_Some; fold xs in Hv; rewrite Hv; discriminate).
      assert (Hin : In v (map ev_younger evs ++ map snd rs)) by (apply (Permutation_in _ (Permutation_sym HPm)); apply in_seq; lia).
      assert (Ex : nth v xs 0%Z = x) by (apply nth_error_nth; exact Hv). unfold items. rewrite map_app, !map_map. cbn [fst]. apply in_app_or in Hin. apply in_or_app. destruct Hin as [Hin|Hin]; apply in_map_iff in Hin; destruct Hin as (e & Ee & He); [left|right]; apply in_map_iff; exists e; (split; [rewrite Ee; exact Ex|exact He]).
  - intros x p H. destruct (B _ H) as [H'|[]]. apply HI. exact H'.
Qed.

(** If no position occurs twice: every position has its prominence. *)
Theorem C171_prominence : forall inf order pts, (forall l, Permutation (order l) l) -> NoDup (map fst pts) -> exists out,
  spectrum_transformation inf order pts = Ok out /\ StronglySorted (fun a b => (fst a < fst b)%Z) out /\
  forall x p, In (x, p) out <-> exists v y, nth_error pts v = Some (x, y) /\ prominence (map snd pts) v p.
Proof.
  intros inf order pts Ho N. destruct (C171_lines inf order pts Ho) as (out & E & S & A & B). exists out. split; [exact E|]. split; [exact S|]. intros x p. split; [apply B|].
  intros (v & y & Ev & o & Hp & ->). assert (Hx : In x (map fst out)) by (apply A; apply in_map_iff; exists (x, y); split; [reflexivity|apply (nth_error_In _ _ Ev)]).
  apply in_map_iff in Hx. destruct Hx as ([x' p'] & Ex & Hin). cbn in Ex. subst x'. destruct (B _ _ Hin) as (v' & y' & Ev' & o' & Hp' & Ep').
  assert (v' = v). { apply (proj1 (NoDup_nth_error (map fst pts)) N); [apply nth_error_Some; rewrite nth_error_map, Ev'; discriminate|]. rewrite !nth_error_map, Ev, Ev'. reflexivity. }
  subst v'. rewrite (pass_unique _ _ _ _ Hp Hp'). rewrite <- Ep'. exact Hin.
Qed.

(** Diagram: a point for every position that lies higher than its highest pass, then the highest position
    with 0. *)
Theorem C171_diagram : forall inf order pts, (forall l, Permutation (order l) l) -> pts <> [] -> (forall q, In q pts -> snd q <> inf) ->
  let f := map snd pts in exists peaks top,
    NoDup (map fst peaks) /\ (forall v m, In (v, m) peaks <-> v < length f /\ pass f v (Some m) /\ height f v <> m) /\
    top < length f /\ pass f top None /\
    spectrum_diagram inf order pts = Ok (map (fun q => (height f (fst q), snd q)) peaks ++ [(height f top, 0%Z)]).
Proof.
  intros inf order pts Ho Hne Hinf f. destruct (complex_ok f) as (K & EK & HR & HC & HK & HP & HS).
  destruct (pairing_ok f K HR HC HP HS inf order Ho) as (evs & rs & ds & EZ & HE & HF & HPm & Hrs).
  assert (Hh : forall v, v < length f -> height f v <> inf).
  { intros v Hv E. unfold height in E. pose proof (nth_In f 0%Z Hv) as Hi. rewrite E in Hi. unfold f in Hi. apply in_map_iff in Hi. destruct Hi as (q & Eq & Hq). apply (Hinf q Hq Eq). }
  assert (Hn : 0 < length f) by (unfold f; rewrite map_length; destruct pts; [congruence|cbn; lia]). specialize (Hrs Hn).
  destruct rs as [|[i top] [|]]; try discriminate Hrs. clear Hrs. inversion HF as [|? d ? ds' (V & Ed & Ptop) F' E1 E2]. subst. inversion F'. subst. clear F' HF. cbn [fst snd] in V, Ptop, HPm, EZ |- *.
  set (kept := filter (fun e => negb (ev_creation e =? ev_destruction e)%Z) evs).
  assert (HE' : forall e, In e evs -> ev_younger e < length f /\ ev_creation e = height f (ev_younger e) /\ pass f (ev_younger e) (Some (ev_destruction e))) by (intros e He; rewrite Forall_forall in HE; apply (event_pass f K HP HS e (HE e He))).
  assert (Ltop : top < length f) by (apply (vertex_place f K HP) in V; apply V).
  assert (Hd : forall e, In e evs -> ev_destruction e <> inf).
  { intros e He. destruct (HE' e He) as (Ly & _ & (w & [Lw _] & (a & Ha & <-) & _) & _). apply Hh. lia. }
  exists (map (fun e => (ev_younger e, ev_destruction e)) kept), top.
  assert (Ny : NoDup (map ev_younger evs)).
  { pose proof (Permutation_NoDup (Permutation_sym HPm) (seq_NoDup _ _)) as N. cbn [map snd] in N. apply NoDup_remove_1 in N. rewrite app_nil_r in N. exact N. }
  refine (conj _ (conj _ (conj Ltop (conj Ptop _)))).
  - rewrite map_map. cbn [fst]. clear -Ny. unfold kept. induction evs as [|e evs IH]; [constructor|]. cbn [map filter] in *. apply NoDup_cons_iff in Ny. destruct Ny as [N1 N2]. destruct (negb (ev_creation e =? ev_destruction e)%Z); [|apply IH; exact N2]. cbn [map]. constructor; [|apply IH; exact N2].
    intro H. apply N1. apply in_map_iff in H. destruct H as (e' & E' & H). apply filter_In in H. apply in_map_iff. exists e'. split; [exact E'|apply H].
  - intros v m. rewrite in_map_iff. split.
    + intros (e & E & He). injection E as <- <-. apply filter_In in He. destruct He as [He Hk]. destruct (HE' e He) as (A & B & C). split; [exact A|]. split; [exact C|]. rewrite <- B. apply negb_true_iff in Hk. apply Z.eqb_neq in Hk. exact Hk.
    + intros (Hv & Hp & Hm). assert (Hin : In v (map ev_younger evs ++ [top])) by (apply (Permutation_in _ (Permutation_sym HPm)); apply in_seq; lia). apply in_app_or in Hin. destruct Hin as [Hin|[->|[]]]; [|exfalso; pose proof (pass_unique _ _ _ _ Hp Ptop) as X; discriminate X].
      apply in_map_iff in Hin. destruct Hin as (e & <- & He). destruct (HE' e He) as (_ & B & C). pose proof (pass_unique _ _ _ _ Hp C) as X. injection X as ->. exists e. split; [reflexivity|]. apply filter_In. split; [exact He|]. apply negb_true_iff. apply Z.eqb_neq. congruence.
  - unfold spectrum_diagram. fold f. rewrite EK. cbn [bind]. rewrite EZ. cbn [bind map]. unfold d_betti, removeDiagonal. cbn [points].
    assert (EB : filter (isUnpaired inf) (map (fun e => (ev_creation e, ev_destruction e)) evs) = []).
    { clear -Hd. induction evs as [|e evs IH]; [reflexivity|]. cbn [map filter]. unfold isUnpaired at 1. cbn [snd]. destruct (Z.eqb_spec (ev_destruction e) inf) as [E|E]; [exfalso; apply (Hd e (or_introl eq_refl) E)|]. apply IH. intros e' He'. apply Hd. right. exact He'. }
    change point with (Z * Z)%type in *. rewrite !filter_app, EB. cbn [app filter]. unfold isUnpaired at 1. cbn [fst snd]. rewrite Z.eqb_refl. cbn [length Nat.eqb]. destruct (Z.eqb_spec (height f top) inf) as [E|E]; [exfalso; apply (Hh top Ltop E)|]. cbn [negb]. rewrite map_app. cbn [map]. f_equal. f_equal.
    + rewrite map_map. cbn [fst snd]. clear -HE' Hd. unfold kept. induction evs as [|e evs IH]; [reflexivity|]. cbn [map filter fst snd]. assert (IH' := IH (fun e' He' => HE' e' (or_intror He')) (fun e' He' => Hd e' (or_intror He'))). destruct (negb (ev_creation e =? ev_destruction e)%Z); [|exact IH']. cbn [map]. f_equal; [|exact IH'].
      unfold close_point, isUnpaired. cbn [snd]. destruct (Z.eqb_spec (ev_destruction e) inf) as [E|E]; [exfalso; apply (Hd e (or_introl eq_refl) E)|]. destruct (HE' e (or_introl eq_refl)) as (_ & -> & _). reflexivity.
    + unfold close_point, isUnpaired. cbn [fst snd]. rewrite Z.eqb_refl. reflexivity.
Qed.

(** A spectrum without lines fails an assertion in the default mode; the other modes write nothing. *)
Theorem C171_empty : forall inf order, (forall l, Permutation (order l) l) ->
  spectrum_diagram inf order [] = Throw Terminated /\ spectrum_transformation inf order [] = Ok [] /\ spectrum_identity [] = Ok [].
Proof.
  intros inf order Ho. assert (E : forall l : list nat, l = [] -> order l = []) by (intros l ->; apply Permutation_nil; apply Permutation_sym; apply Ho).
  assert (Z0 : zeroDimensional inf true order k_empty = Ok ([], [])).
  { unfold zeroDimensional. cbn. unfold uf_roots. cbn. try rewrite (E [] eq_refl). reflexivity. }
  refine (conj _ (conj _ eq_refl)); unfold spectrum_diagram, spectrum_transformation, spectrum_complex; cbn [map length Nat.leb]; unfold spectrum_vertices; cbn [length seq map k_of_range k_insert bind]; unfold k_of_range; cbn [k_insert bind]; rewrite Z0; reflexivity.
Qed.

(** Identity: the lines of the file. *)
Theorem C171_identity : forall pts, spectrum_identity pts = Ok pts.
Proof.
  intro pts. unfold spectrum_identity. assert (G : forall l pre out, pts = pre ++ l ->
    foldM (fun out q => let* y := at_ (map snd pts) (fst q) in Ok (out ++ [(snd q, y)])) (combine (seq (length pre) (length l)) (map fst l)) out = Ok (out ++ l)).
  { induction l as [|[x y] l IH]; intros pre out E; [cbn; rewrite app_nil_r; reflexivity|]. cbn [length seq map combine foldM fst snd].
    assert (Ey : at_ (map snd pts) (length pre) = Ok y) by (unfold at_; rewrite nth_error_map, E, nth_error_app2 by lia; rewrite Nat.sub_diag; reflexivity).
    rewrite Ey. cbn [bind]. replace (S (length pre)) with (length (pre ++ [(x, y)])) by (rewrite app_length; cbn; lia). rewrite (IH (pre ++ [(x, y)])) by (rewrite <- app_assoc; exact E). rewrite <- app_assoc. reflexivity. }
  apply (G pts [] [] eq_refl).
Qed.

(** ** Connection to the reader *)
Lemma sort_map {A B} (g : A -> B) (cmp : A -> A -> bool) (cmp' : B -> B -> bool) l : (forall a b, In a l -> In b l -> cmp' (g a) (g b) = cmp a b) ->
  cpp_sort cmp' (map g l) = map g (cpp_sort cmp l).
Proof.
  assert (I : forall x l, (forall y, In y l -> cmp' (g y) (g x) = cmp y x) -> insert_sorted cmp' (g x) (map g l) = map g (insert_sorted cmp x l)).
  { intros x l0. induction l0 as [|y l0 IH]; intro H; [reflexivity|]. cbn [map insert_sorted]. rewrite H by (left; reflexivity). destruct (cmp y x); [|reflexivity]. cbn [map]. rewrite IH; [reflexivity|]. intros z Hz. apply H. right. exact Hz. }
  induction l as [|x l IH]; intro H; [reflexivity|]. cbn [map cpp_sort]. rewrite IH by (intros a b Ha Hb; apply H; right; assumption). apply I. intros y Hy. apply (Permutation_in _ (cpp_sort_perm cmp l)) in Hy. apply H; [right; exact Hy|left; reflexivity].
Qed.
Definition to_q (s : simplex) : qsimplex := (verts s, inject_Z (data s)).
Lemma min_q a b : qmin (inject_Z a) (inject_Z b) = inject_Z (Z.min a b).
Proof.
  unfold qmin, Qltb. destruct (Qle_bool (inject_Z a) (inject_Z b)) eqn:E; cbn [negb]; f_equal.
  - apply Qle_bool_iff in E. rewrite <- Zle_Qle in E. lia.
  - assert (~ (a <= b)%Z); [|lia]. intro H. rewrite Zle_Qle in H. apply Qle_bool_iff in H. congruence.
Qed.
(** The complex is the one of the reader if the numbers of the lines are integers. *)
Theorem C171_reader : forall parse text pts, map parse (filter is_data (getlines [] text)) = map (fun q => (inject_Z (fst q), inject_Z (snd q))) pts ->
  exists K, spectrum_complex (map snd pts) = Ok K /\ fst (readSpectrum parse (SpectrumReader false [] []) text) = map to_q (by_index K).
Proof.
  intros parse text pts E. set (f := map snd pts). destruct (of_range_new _ (good_parts f) (nodup_parts f)) as (K & EK & HK & HI).
  assert (Lf : length f = length pts) by (unfold f; apply map_length).
  assert (Ef : map snd (map (fun q : Z * Z => (inject_Z (fst q), inject_Z (snd q))) pts) = map inject_Z f) by (unfold f; rewrite !map_map; reflexivity).
  assert (En : forall i, nth i (map inject_Z f) 0%Q = inject_Z (nth i f 0%Z)) by (intro i; apply (map_nth inject_Z f 0%Z i)).
  assert (EV : map (fun i => ([i], nth i (map inject_Z f) 0%Q)) (seq 0 (length pts)) = map to_q (spectrum_vertices f)).
  { unfold spectrum_vertices. rewrite map_map. rewrite Lf. apply map_ext. intro i. rewrite En. reflexivity. }
  assert (EE : map (fun i => ([S i; i], qmin (nth i (map inject_Z f) 0%Q) (nth (S i) (map inject_Z f) 0%Q))) (seq 0 (length pts - 1)) = map to_q (spectrum_edges f)).
  { unfold spectrum_edges. rewrite map_map. rewrite Lf. apply map_ext. intro i. rewrite !En, min_q, edge_verts. reflexivity. }
  unfold readSpectrum. rewrite E. cbv zeta. rewrite Ef. rewrite !map_length. unfold spectrum_complex. replace (length f) with (length pts) by (unfold f; rewrite map_length; reflexivity). cbn [sr_normalize].
  destruct (Nat.leb_spec (length pts) 1) as [Hn|Hn].
  - assert (E0 : spectrum_edges f = []) by (unfold spectrum_edges, f; rewrite map_length; replace (length pts - 1) with 0 by lia; reflexivity). rewrite E0, app_nil_r in EK, HI. exists K. split; [exact EK|]. cbn [fst]. rewrite HI. exact EV.
  - rewrite EK. cbn [bind]. eexists. split; [reflexivity|]. cbn [fst k_sort by_index]. rewrite HI. etransitivity; [|apply (sort_map to_q data_cmp_greater spectrum_cmp)].
    + f_equal. rewrite map_app, <- EV, <- EE. reflexivity.
    + assert (QE : forall a b, Qeq_bool (inject_Z a) (inject_Z b) = (a =? b)%Z).
      { intros a b. destruct (Z.eqb_spec a b) as [->|H]; [apply Qeq_bool_iff; reflexivity|]. destruct (Qeq_bool (inject_Z a) (inject_Z b)) eqn:X; [|reflexivity]. exfalso. apply H. apply Qeq_bool_iff in X. apply inject_Z_injective. exact X. }
      assert (QL : forall a b, Qltb (inject_Z a) (inject_Z b) = (a <? b)%Z).
      { intros a b. unfold Qltb. destruct (Qle_bool (inject_Z b) (inject_Z a)) eqn:X; cbn [negb]; symmetry.
        - apply Z.ltb_ge. apply Qle_bool_iff in X. rewrite <- Zle_Qle in X. exact X.
        - apply Z.ltb_lt. assert (~ (b <= a)%Z); [|lia]. intro H. rewrite Zle_Qle in H. apply Qle_bool_iff in H. congruence. }
      intros s t Hs Ht. pose proof (good_parts f s Hs) as [_ Gs]. pose proof (good_parts f t Ht) as [_ Gt]. unfold spectrum_cmp, data_cmp_greater, to_q, s_ltb, sdim. cbn [fst snd]. rewrite QE, QL.
      destruct (verts s) as [|a l]; [congruence|]. destruct (verts t) as [|b l']; [congruence|]. cbn [length]. rewrite !Nat.sub_succ, !Nat.sub_0_r. reflexivity.
Qed.

(** A spectrum with peaks of heights 5, 7 and 4 *)
Definition three_peaks : list (Z * Z) := [(10, 1); (20, 5); (30, 2); (40, 7); (50, 3); (60, 4)]%Z.
Example C171_example :
  spectrum_transformation 99 (fun l => l) three_peaks = Ok [(10, 0); (20, 3); (30, 0); (40, 7); (50, 0); (60, 1)]%Z /\
  spectrum_diagram 99 (fun l => l) three_peaks = Ok [(4, 3); (5, 2); (7, 0)]%Z /\ NoDup (map fst three_peaks).
Proof. split; [vm_compute; reflexivity|]. split; [vm_compute; reflexivity|]. repeat constructor; cbn; lia. Qed.
Example C171_pass_example : pass (map snd three_peaks) 1 (Some 2%Z) /\ pass (map snd three_peaks) 3 None /\ prominence (map snd three_peaks) 1 3%Z.
Proof.
  assert (P : pass (map snd three_peaks) 1 (Some 2%Z)).
  { split.
    - exists 3. split; [split; [cbn; lia|left; reflexivity]|]. split; [exists 2; split; [cbn; lia|reflexivity]|]. intros a Ha. cbn in Ha. destruct a as [|[|[|[|a]]]]; cbv; try discriminate; lia.
    - intros w m' [Lw Hw] [_ Hm]. assert (3 <= w). { destruct w as [|[|[|w]]]; [| | |lia]; cbv in Hw; exfalso; destruct Hw as [Hw|[Hw H']]; try discriminate; lia. } apply (Hm 2). lia. }
  split; [exact P|]. split; [|exists (Some 2%Z); split; [exact P|reflexivity]].
  intros w [Lw Hw]. destruct w as [|[|[|[|[|[|w]]]]]]; cbv in Hw; try (destruct Hw as [Hw|[Hw H']]; try discriminate; lia). cbn in Lw. lia.
Qed.

(** FINDING: two lines with the same position: only the prominence of one of them is written, and it may be the smaller one. *)
Theorem C171_repeated_refuted : exists pts x p v y q,
  nth_error pts v = Some (x, y) /\ prominence (map snd pts) v p /\ (q < p)%Z /\
  exists out, spectrum_transformation 99 (fun l => l) pts = Ok out /\ In (x, q) out /\ ~ In (x, p) out.
Proof.
  exists [(1, 9); (2, 1); (3, 5); (3, 0); (4, 2)]%Z, 3%Z, 4%Z, 2, 5%Z, 0%Z. split; [reflexivity|]. split.
  - exists (Some 1%Z). split; [|reflexivity]. split.
    + exists 0. split; [split; [cbn; lia|left; reflexivity]|]. split; [exists 1; split; [cbn; lia|reflexivity]|]. intros a Ha. cbn in Ha. destruct a as [|[|[|a]]]; cbv; try discriminate; lia.
    + intros w m' [Lw Hw] [_ Hm]. assert (w = 0). { destruct w as [|[|[|[|[|w]]]]]; [reflexivity| | | | |cbn in Lw; lia]; cbv in Hw; exfalso; destruct Hw as [Hw|[Hw H']]; try discriminate; lia. } subst w. apply (Hm 1). cbn. lia.
  - split; [lia|]. eexists. split; [vm_compute; reflexivity|]. cbn. split; [tauto|]. intros H. repeat (destruct H as [H|H]; [discriminate H|]). exact H.
Qed.

(** FINDING: the highest position is paired with 0, not with the smallest intensity, as the comment says *)
Theorem C171_minimum_refuted : exists pts D, spectrum_diagram 99 (fun l => l) pts = Ok D /\ (exists q, In q pts /\ (snd q < 0)%Z) /\
  forall p, In p D -> (0 <= snd p)%Z.
Proof.
  exists [(1, 3); (2, -4)]%Z. eexists. split; [vm_compute; reflexivity|]. split; [exists (2, -4)%Z; cbn; split; [auto|lia]|]. intros p [<-|[]]. cbn. lia.
Qed.

Print Assumptions C171_lines.
Print Assumptions C171_prominence.
Print Assumptions C171_diagram.
Print Assumptions C171_empty.
Print Assumptions C171_identity.
Print Assumptions C171_reader.
Print Assumptions C171_repeated_refuted.
Print Assumptions C171_minimum_refuted.
