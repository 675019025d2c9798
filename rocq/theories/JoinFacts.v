(** * Facts on the homology of skeletons, cones and suspensions. *)
From Coq Require Import List Arith Bool ZArith Lia Sorted Permutation.
From Verif Require Import Base BaseFacts Simplex SpecComplex SpecHomology HomologyFacts SpecSimplicial SimplicialFacts.
Import ListNotations.

(** ** Linear algebra *)
Section Space.
  Context {I : Type}.
  Implicit Types x y v w : @pvec I.
  Definition additive (phi : @pvec I -> bool) : Prop := (forall x y, peq x y -> phi x = phi y) /\ (forall x y, phi (padd x y) = xorb (phi x) (phi y)).
  Lemma additive_zero phi : additive phi -> phi pzero = false.
  Proof. intros [E A]. pose proof (A pzero pzero) as H. rewrite (E (padd pzero pzero) pzero) in H by (intro; reflexivity). destruct (phi pzero); [discriminate|reflexivity]. Qed.
  Lemma phi_comb phi c (B : list (@pvec I)) : additive phi -> (forall b, In b B -> phi b = false) -> phi (pcomb c B) = false.
  Proof.
    intro H. revert B. induction c as [|a c IH]; intros [|b B] HB; cbn [pcomb]; try (apply additive_zero; exact H).
    assert (IH' : phi (pcomb c B) = false) by (apply IH; intros; apply HB; right; assumption). destruct a; [|exact IH']. rewrite (proj2 H), IH', (HB b) by (left; reflexivity). reflexivity.
  Qed.
  (** one more dimension *)
  Lemma p_dim_plus_phi (V W : pvec -> Prop) v phi n : additive phi -> (forall x, V x <-> exists (c : bool) w, W w /\ peq x (padd w (if c then v else pzero))) ->
    W pzero -> (forall w, W w -> phi w = false) -> phi v = true -> p_dim W n -> p_dim V (S n).
  Proof.
    intros HA HV W0 Wt Vt (B & E & HB & HI & HS). exists (v :: B). split; [cbn; rewrite E; reflexivity|]. split; [|split].
    - intros b [<-|Hb]; apply HV; [exists true, pzero; split; [exact W0|intro i; unfold padd, pzero; destruct (v i); reflexivity]|].
      exists false, b. split; [apply HB; exact Hb|]. intro i. unfold padd, pzero. destruct (b i); reflexivity.
    - intros [|a c] L H b Hb; [destruct Hb|]. cbn [length] in L. cbn [pcomb] in H.
      assert (Z : phi (pcomb c B) = false) by (apply phi_comb; [exact HA|intros b' Hb'; apply Wt, HB, Hb']).
      destruct a; [|destruct Hb as [<-|Hb]; [reflexivity|]; apply (HI c); auto]. exfalso. apply (proj1 HA) in H. rewrite (proj2 HA), Vt, Z, (additive_zero phi HA) in H. discriminate.
    - intros x Hx. apply HV in Hx. destruct Hx as (a & w & Hw & Ex). destruct (HS w Hw) as (c & L & Ew). exists (a :: c). split; [cbn; rewrite L; reflexivity|].
      intro i. rewrite (Ex i). unfold padd. rewrite (Ew i). cbn [pcomb]. destruct a; unfold padd, pzero; [apply xorb_comm|apply xorb_false_r].
  Qed.
  Definition subspace (W : pvec -> Prop) : Prop := W pzero /\ forall x y, W x -> W y -> W (padd x y).
  Lemma comb_in W c (B : list (@pvec I)) : subspace W -> (forall b, In b B -> W b) -> W (pcomb c B).
  Proof. intros [H0 HA]. revert B. induction c as [|a c IH]; intros [|b B] HB; cbn [pcomb]; auto. destruct a; [apply HA; [apply HB; left; reflexivity|]|]; apply IH; intros; apply HB; right; assumption. Qed.
  Definition linear (T : @pvec I -> @pvec I) : Prop := (forall x y, peq x y -> peq (T x) (T y)) /\ (forall x y, peq (T (padd x y)) (padd (T x) (T y))).
  Lemma linear_zero T : linear T -> peq (T pzero) pzero.
  Proof. intros [E A] i. pose proof (A pzero pzero i) as H. rewrite (E (padd pzero pzero) pzero (fun _ => eq_refl) i) in H. unfold padd in H. unfold pzero at 2. destruct (T pzero i); [discriminate|reflexivity]. Qed.
  Lemma linear_comb T c (B : list (@pvec I)) : linear T -> peq (T (pcomb c B)) (pcomb c (map T B)).
  Proof.
    intro H. revert B. induction c as [|a c IH]; intros [|b B] i; cbn [pcomb map]; try (apply linear_zero; exact H). destruct a; [|apply IH]. rewrite (proj2 H b (pcomb c B) i). unfold padd. rewrite (IH B i). reflexivity.
  Qed.
  Lemma comb_app c1 c2 (B1 B2 : list (@pvec I)) : length c1 = length B1 -> peq (pcomb (c1 ++ c2) (B1 ++ B2)) (padd (pcomb c1 B1) (pcomb c2 B2)).
  Proof.
    revert B1. induction c1 as [|a c1 IH]; intros [|b B1] L i; try discriminate; cbn [app pcomb]; [unfold padd, pzero; symmetry; apply xorb_false_l|].
    injection L as L. destruct a; [unfold padd at 1; rewrite (IH B1 L i); unfold padd; destruct (b i), (pcomb c1 B1 i), (pcomb c2 B2 i); reflexivity|apply IH; exact L].
  Qed.
  Lemma p_dim_sum (V W1 W2 : pvec -> Prop) T1 T2 n1 n2 : linear T1 -> linear T2 -> subspace W1 -> subspace W2 ->
    (forall x, V x <-> exists w1 w2, W1 w1 /\ W2 w2 /\ peq x (padd (T1 w1) (T2 w2))) ->
    (forall w1 w2, W1 w1 -> W2 w2 -> peq (padd (T1 w1) (T2 w2)) pzero -> peq w1 pzero /\ peq w2 pzero) ->
    p_dim W1 n1 -> p_dim W2 n2 -> p_dim V (n1 + n2).
  Proof.
    intros L1 L2 S1 S2 HV HI (B1 & E1 & HB1 & I1 & P1) (B2 & E2 & HB2 & I2 & P2). exists (map T1 B1 ++ map T2 B2). split; [rewrite app_length, !map_length; congruence|]. split; [|split].
    - intros b Hb. apply in_app_iff in Hb. apply HV. destruct Hb as [Hb|Hb]; apply in_map_iff in Hb; destruct Hb as (w & <- & Hw).
      + exists w, pzero. split; [apply HB1; exact Hw|]. split; [apply S2|]. intro i. unfold padd. rewrite (linear_zero T2 L2 i). unfold pzero. rewrite xorb_false_r. reflexivity.
      + exists pzero, w. split; [apply S1|]. split; [apply HB2; exact Hw|]. intro i. unfold padd. rewrite (linear_zero T1 L1 i). unfold pzero. rewrite xorb_false_l. reflexivity.
    - intros c L H b Hb. rewrite app_length, !map_length in L. set (c1 := firstn (length B1) c). set (c2 := skipn (length B1) c). assert (Ec : c = c1 ++ c2) by (symmetry; apply firstn_skipn).
      assert (Lc1 : length c1 = length B1) by (unfold c1; rewrite firstn_length; lia). assert (Lc2 : length c2 = length B2) by (unfold c2; rewrite skipn_length; lia).
      destruct (HI (pcomb c1 B1) (pcomb c2 B2)) as [Z1 Z2]; [apply comb_in; assumption|apply comb_in; assumption| |].
      + intro i. rewrite <- (H i). rewrite Ec. rewrite (comb_app c1 c2 (map T1 B1) (map T2 B2)) by (rewrite map_length; exact Lc1). unfold padd. rewrite (linear_comb T1 c1 B1 L1 i), (linear_comb T2 c2 B2 L2 i). reflexivity.
      + rewrite Ec in Hb. apply in_app_iff in Hb. destruct Hb as [Hb|Hb]; [apply (I1 c1 Lc1 Z1 b Hb)|apply (I2 c2 Lc2 Z2 b Hb)].
    - intros x Hx. apply HV in Hx. destruct Hx as (w1 & w2 & H1 & H2 & Ex). destruct (P1 w1 H1) as (c1 & Lc1 & Ew1). destruct (P2 w2 H2) as (c2 & Lc2 & Ew2). exists (c1 ++ c2). split; [rewrite !app_length, !map_length; congruence|].
      intro i. rewrite (comb_app c1 c2 (map T1 B1) (map T2 B2)) by (rewrite map_length; exact Lc1). rewrite (Ex i). unfold padd. rewrite <- (linear_comb T1 c1 B1 L1 i), <- (linear_comb T2 c2 B2 L2 i). rewrite (proj1 L1 w1 _ Ew1 i), (proj1 L2 w2 _ Ew2 i). reflexivity.
  Qed.
End Space.

(** spaces of chains on a finite set have one dimension *)
Lemma p_dim_unique l (V : (list nat -> bool) -> Prop) n m : (forall x f, V x -> x f = true -> In f l) -> p_dim V n -> p_dim V m -> n = m.
Proof.
  intros H A B. assert (G : forall k, p_dim V k -> has_dim (fun y => exists x, V x /\ peq y (pull (nth_error l) x)) k).
  { intros k Hk. apply p_dim_nat. apply (p_dim_map (nth_error l) V); [intros x Hx; exists x; split; [exact Hx|intro; reflexivity]|intros y (x & Hx & E); exists x; auto|intros x f Hx Hf; apply In_nth_error; apply (H x); assumption|exact Hk]. }
  apply (has_dim_unique _ _ _ (G n A) (G m B)).
Qed.
(** all functions on a finite set *)
Lemma p_dim_coord l : NoDup l -> p_dim (fun x : list nat -> bool => forall f, x f = true -> In f l) (length l).
Proof.
  induction l as [|a l IH]; intro N.
  - exists []. split; [reflexivity|]. split; [intros b []|]. split; [intros [|a' c'] L _ b Hb; [destruct Hb|discriminate]|]. intros x Hx. exists []. split; [reflexivity|]. intro i. destruct (x i) eqn:E; [destruct (Hx i E)|reflexivity].
  - inversion N as [|? ? N1 N2]; subst. apply (p_dim_plus _ (fun x => forall f, x f = true -> In f l) (fun f => if list_eq_dec Nat.eq_dec f a then true else false) a); [|intros f H; discriminate H| |destruct (list_eq_dec Nat.eq_dec a a); [reflexivity|easy]|apply IH; exact N2].
    + intro x. split.
      * intro H. exists (x a), (fun f => if list_eq_dec Nat.eq_dec f a then false else x f). split.
        -- intros f Hf. destruct (list_eq_dec Nat.eq_dec f a) as [|Ne]; [discriminate|]. apply H in Hf. destruct Hf as [Hf|Hf]; [congruence|exact Hf].
        -- intro f. unfold padd, pzero. destruct (list_eq_dec Nat.eq_dec f a) as [->|Ne].
           ++ destruct (x a); [destruct (list_eq_dec Nat.eq_dec a a); [reflexivity|easy]|reflexivity].
           ++ destruct (x a); [destruct (list_eq_dec Nat.eq_dec f a); [easy|]|]; destruct (x f); reflexivity.
      * intros (c & w & Hw & E) f Hf. rewrite (E f) in Hf. unfold padd, pzero in Hf. destruct (w f) eqn:Wf; [right; apply Hw; exact Wf|]. destruct c; [|discriminate]. destruct (list_eq_dec Nat.eq_dec f a) as [->|]; [left; reflexivity|discriminate].
    + intros w Hw. destruct (w a) eqn:E; [apply Hw in E; contradiction|reflexivity].
Qed.
Lemma p_dim_chain V d : NoDup V -> exists c, p_dim (s_chain V d) c.
Proof.
  intro N. exists (length (filter (fun s => length s =? S d) V)). eapply p_dim_ext; [|apply p_dim_coord; apply NoDup_filter; exact N]. intro x. unfold s_chain. split; intros H f Hf; specialize (H f Hf); [apply filter_In in H; rewrite Nat.eqb_eq in H; exact H|apply filter_In; rewrite Nat.eqb_eq; exact H].
Qed.
Lemma s_cycles_support V d x f : s_cycles V d x -> x f = true -> In f V.
Proof. intros [H _] Hf. apply (H f Hf). Qed.

(** ** Skeletons *)
Section Skeleton.
  Variables (V W : list (list nat)) (k : nat).
  Hypothesis HW : W = filter (fun s => length s <=? S k) V.
  Lemma skel_chain d x : d <= k -> (s_chain W d x <-> s_chain V d x).
  Proof. intro L. split; intros H f Hf; destruct (H f Hf) as [A B]; (split; [|exact B]); rewrite HW in *; [apply filter_In in A; apply A|apply filter_In; split; [exact A|apply Nat.leb_le; lia]]. Qed.
  Lemma skel_bd d x : d <= k -> s_chain V d x -> peq (s_bd W x) (s_bd V x).
  Proof.
    intros L H f. assert (G : forall l, incl l V -> psum (fun s => x s && facetb f s) (filter (fun s => length s <=? S k) l) = psum (fun s => x s && facetb f s) l).
    { induction l as [|s l IH]; intro J; [reflexivity|]. cbn [filter]. destruct (Nat.leb_spec (length s) (S k)) as [S|S]; [rewrite !psum_cons, IH; [reflexivity|intros u Hu; apply J; right; exact Hu]|]. rewrite psum_cons, IH by (intros u Hu; apply J; right; exact Hu).
      destruct (x s) eqn:X; [apply H in X; lia|]. rewrite andb_false_l, xorb_false_l. reflexivity. }
    destruct (in_dec (list_eq_dec Nat.eq_dec) f V) as [F|F].
    - rewrite (s_bd_in V) by exact F. destruct (in_dec (list_eq_dec Nat.eq_dec) f W) as [F'|F']; [rewrite s_bd_in by exact F'; rewrite HW; apply G, incl_refl|]. rewrite s_bd_out by exact F'. symmetry. apply psum_zero. intros s Hs. destruct (x s) eqn:X; [|reflexivity]. destruct (facetb f s) eqn:Q; [|reflexivity]. exfalso.
      apply H in X. apply facetb_iff in Q. apply F'. rewrite HW. apply filter_In. split; [exact F|apply Nat.leb_le; lia].
    - rewrite (s_bd_out V) by exact F. apply s_bd_out. rewrite HW. intro F'. apply filter_In in F'. apply F, F'.
  Qed.
  Lemma skel_cycles d x : d <= k -> (s_cycles W d x <-> s_cycles V d x).
  Proof.
    intro L. split; intros [H E].
    - apply (skel_chain d x L) in H. split; [exact H|]. intro f. rewrite <- (skel_bd d x L H f). apply E.
    - split; [apply skel_chain; assumption|]. intro f. rewrite (skel_bd d x L H f). apply E.
  Qed.
  Lemma skel_boundaries d x : d < k -> (s_boundaries W d x <-> s_boundaries V d x).
  Proof.
    intro L. split; intros (y & H & E); exists y.
    - apply (skel_chain (S d) y L) in H. split; [exact H|]. intro f. rewrite <- (skel_bd (S d) y L H f). apply E.
    - split; [apply skel_chain; assumption|]. intro f. rewrite (skel_bd (S d) y L H f). apply E.
  Qed.
End Skeleton.

(** ** Joins with single vertices *)
Lemma psum_app {A} (f : A -> bool) l m : psum f (l ++ m) = xorb (psum f l) (psum f m).
Proof. induction l as [|a l IH]; cbn [app]; [symmetry; apply xorb_false_l|]. rewrite !psum_cons, IH. rewrite xorb_assoc. reflexivity. Qed.
Lemma psum_flat {A B} (f : B -> bool) (h : A -> list B) l : psum f (flat_map h l) = psum (fun a => psum f (h a)) l.
Proof. induction l as [|a l IH]; [reflexivity|]. cbn [flat_map]. rewrite psum_app, psum_cons, IH. reflexivity. Qed.
Lemma psum_one {A} (f : A -> bool) l a : NoDup l -> In a l -> (forall b, In b l -> b <> a -> f b = false) -> psum f l = f a.
Proof.
  induction l as [|b l IH]; intros N I H; [destruct I|]. inversion N as [|? ? N1 N2]; subst. rewrite psum_cons. destruct I as [->|I].
  - rewrite psum_zero; [apply xorb_false_r|]. intros c Hc. apply H; [right; exact Hc|]. intros ->. contradiction.
  - rewrite (H b) by (try (left; reflexivity); intros ->; contradiction). rewrite xorb_false_l. apply IH; [exact N2|exact I|]. intros c Hc. apply H. right. exact Hc.
Qed.

Section Join.
  Variables (V W : list (list nat)) (A : list nat).
  Hypothesis HP : Permutation W (V ++ flat_map (fun a => [a] :: map (cons a) V) A).
  Hypothesis NA : NoDup A.
  Hypothesis NV : NoDup V.
  Hypothesis HV : forall s, In s V -> s <> [] /\ StronglySorted gt s.
  Hypothesis HA : forall a s u, In a A -> In s V -> In u s -> u < a.

  Lemma W_in f : In f W <-> In f V \/ exists a, In a A /\ (f = [a] \/ exists s, In s V /\ f = a :: s).
  Proof.
    assert (G : In f W <-> In f (V ++ flat_map (fun a => [a] :: map (cons a) V) A)) by (split; apply Permutation_in; [exact HP|apply Permutation_sym; exact HP]). rewrite G, in_app_iff, in_flat_map. apply or_iff_compat_l. split.
    - intros (a & Ha & [H|H]); exists a; (split; [exact Ha|]); [left; auto|right]. apply in_map_iff in H. destruct H as (s & <- & Hs). eauto.
    - intros (a & Ha & [->|(s & Hs & ->)]); exists a; (split; [exact Ha|]); [left; reflexivity|right; apply in_map; exact Hs].
  Qed.
  Lemma bd_sum x f : In f W -> s_bd W x f = xorb (psum (fun s => x s && facetb f s) V) (psum (fun a => xorb (x [a] && facetb f [a]) (psum (fun s => x (a :: s) && facetb f (a :: s)) V)) A).
  Proof.
    intro H. rewrite s_bd_in by exact H. rewrite (psum_perm _ _ _ HP), psum_app, psum_flat. f_equal. apply psum_ext. intros a _. rewrite psum_cons, psum_map. reflexivity.
  Qed.
  Lemma facet_base f a s : In f V -> In a A -> In s V -> facetb f (a :: s) = if list_eq_dec Nat.eq_dec s f then true else false.
  Proof.
    intros Hf Ha Hs. apply eq_true_iff_eq. rewrite facetb_iff. split.
    - intros [S L]. cbn [length] in L. destruct (list_eq_dec Nat.eq_dec s f) as [|N]; [reflexivity|]. exfalso. apply N.
      assert (S' : subset f s) by (intros v Hv; destruct (S v Hv) as [E|E]; [subst v; specialize (HA a f a Ha Hf Hv); lia|exact E]).
      symmetry. apply (SSgt_ext f s); [apply HV; exact Hf|apply HV; exact Hs|]. intro v. split; [apply S'|]. apply (NoDup_length_incl (l' := s) (SSgt_NoDup f (proj2 (HV f Hf)))); [lia|exact S'].
    - destruct (list_eq_dec Nat.eq_dec s f) as [->|]; [|discriminate]. intros _. split; [intros v Hv; right; exact Hv|reflexivity].
  Qed.
  Lemma short_facet f a : f <> [] -> facetb f [a] = false.
  Proof. intro N. destruct (facetb f [a]) eqn:E; [|reflexivity]. apply facetb_iff in E. destruct E as [_ E]. cbn in E. destruct f; [easy|discriminate]. Qed.
  Lemma bd_base x f : In f V -> s_bd W x f = xorb (s_bd V x f) (psum (fun a => x (a :: f)) A).
  Proof.
    intro Hf. rewrite bd_sum by (apply W_in; left; exact Hf). rewrite s_bd_in by exact Hf. f_equal. apply psum_ext. intros a Ha. rewrite short_facet by (apply HV; exact Hf). rewrite andb_false_r, xorb_false_l.
    rewrite (psum_one _ V f NV Hf); [rewrite facet_base by assumption; destruct (list_eq_dec Nat.eq_dec f f); [apply andb_true_r|easy]|]. intros s Hs N. rewrite facet_base by assumption. destruct (list_eq_dec Nat.eq_dec s f); [easy|apply andb_false_r].
  Qed.
  Definition aug (u : list nat -> bool) : bool := psum (fun s => u s && (length s =? 1)) V.
  Lemma facet_join a g b s : In a A -> In b A -> In s V -> (g = [] \/ In g V) -> facetb (a :: g) (b :: s) = (a =? b) && facetb g s.
  Proof.
    intros Ha Hb Hs Hg. apply eq_true_iff_eq. rewrite andb_true_iff, !facetb_iff, Nat.eqb_eq. cbn [length]. split.
    - intros [S L]. destruct (S a (or_introl eq_refl)) as [E|E]; [|specialize (HA a s a Ha Hs E); lia]. subst b. split; [reflexivity|]. split; [|lia]. intros v Hv. destruct (S v (or_intror Hv)) as [E|E]; [|exact E]. subst v. destruct Hg as [->|Hg]; [destruct Hv|]. specialize (HA a g a Ha Hg Hv). lia.
    - intros (-> & S & L). split; [|lia]. intros v [<-|Hv]; [left; reflexivity|right; apply S; exact Hv].
  Qed.
  Lemma facet_none a g s : In a A -> In s V -> facetb (a :: g) s = false.
  Proof. intros Ha Hs. destruct (facetb (a :: g) s) eqn:E; [|reflexivity]. apply facetb_iff in E. destruct E as [S _]. specialize (S a (or_introl eq_refl)). specialize (HA a s a Ha Hs S). lia. Qed.
  Lemma bd_gen x a g : In a A -> In (a :: g) W -> (g = [] \/ In g V) -> s_bd W x (a :: g) = psum (fun s => x (a :: s) && facetb g s) V.
  Proof.
    intros Ha Hw Hg. rewrite bd_sum by exact Hw. rewrite psum_zero; [|intros s Hs; rewrite facet_none by assumption; apply andb_false_r]. rewrite xorb_false_l. rewrite (psum_one _ A a NA Ha).
    - rewrite short_facet by discriminate. rewrite andb_false_r, xorb_false_l. apply psum_ext. intros s Hs. rewrite facet_join by assumption. rewrite Nat.eqb_refl. reflexivity.
    - intros b Hb N. rewrite short_facet by discriminate. rewrite andb_false_r, xorb_false_l. apply psum_zero. intros s Hs. rewrite facet_join by assumption. destruct (Nat.eqb_spec a b) as [E|E]; [congruence|]. apply andb_false_r.
  Qed.
  Lemma bd_apex x a : In a A -> s_bd W x [a] = aug (fun s => x (a :: s)).
  Proof.
    intro Ha. rewrite bd_gen; [|exact Ha|apply W_in; right; exists a; auto|auto]. apply psum_ext. intros s _. f_equal. apply eq_true_iff_eq. rewrite facetb_iff, Nat.eqb_eq. cbn [length]. split; [tauto|]. intro L. split; [intros v []|exact L].
  Qed.
  Lemma bd_join x a g : In a A -> In g V -> s_bd W x (a :: g) = s_bd V (fun s => x (a :: s)) g.
  Proof. intros Ha Hg. rewrite bd_gen; [|exact Ha|apply W_in; right; exists a; split; [exact Ha|right; eauto]|auto]. rewrite s_bd_in by exact Hg. reflexivity. Qed.

  (** chains that are joined with a vertex *)
  Definition lift (a : nat) (u : list nat -> bool) : list nat -> bool := fun f => match f with h :: s => (h =? a) && u s | [] => false end.
  Definition on (l : list (list nat)) (u : list nat -> bool) : Prop := forall s, u s = true -> In s l.
  Lemma on_nil u : on V u -> u [] = false.
  Proof. intro H. destruct (u []) eqn:E; [|reflexivity]. apply H in E. apply HV in E. easy. Qed.
  Lemma lift_same a u s : lift a u (a :: s) = u s.
  Proof. cbn. rewrite Nat.eqb_refl. reflexivity. Qed.
  Lemma lift_other a b u s : a <> b -> lift a u (b :: s) = false.
  Proof. intro N. cbn. destruct (Nat.eqb_spec b a); [congruence|reflexivity]. Qed.
  Lemma lift_base a u f : In a A -> In f V -> lift a u f = false.
  Proof. intros Ha Hf. destruct f as [|h s]; [reflexivity|]. cbn. destruct (Nat.eqb_spec h a) as [->|]; [|reflexivity]. specialize (HA a (a :: s) a Ha Hf (or_introl eq_refl)). lia. Qed.
  Lemma base_join a f s : In a A -> In f V -> f <> a :: s.
  Proof. intros Ha Hf ->. specialize (HA a (a :: s) a Ha Hf (or_introl eq_refl)). lia. Qed.
  Lemma lift_chain a d u : In a A -> s_chain V d u -> s_chain W (S d) (lift a u).
  Proof.
    intros Ha H f Hf. destruct f as [|h s]; [discriminate|]. cbn in Hf. apply andb_true_iff in Hf. destruct Hf as [E Hf]. apply Nat.eqb_eq in E. subst h. destruct (H s Hf) as [I L]. split; [apply W_in; right; exists a; split; [exact Ha|right; eauto]|cbn; lia].
  Qed.
  Lemma chain_base d u : s_chain V d u -> s_chain W d u.
  Proof. intros H f Hf. destruct (H f Hf). split; [apply W_in; left; assumption|assumption]. Qed.
  Lemma aug_ext u v : (forall s, In s V -> u s = v s) -> aug u = aug v.
  Proof. intro E. apply psum_ext. intros s Hs. rewrite (E s Hs). reflexivity. Qed.
  Lemma aug_add u v : aug (padd u v) = xorb (aug u) (aug v).
  Proof. unfold aug. rewrite <- psum_add. apply psum_ext. intros s _. unfold padd. destruct (u s), (v s), (length s =? 1); reflexivity. Qed.
  Lemma aug_zero u : (forall s, In s V -> u s = false) -> aug u = false.
  Proof. intro H. apply psum_zero. intros s Hs. rewrite (H s Hs). reflexivity. Qed.
  Lemma aug_high d u : s_chain V (S d) u -> aug u = false.
  Proof. intro H. apply psum_zero. intros s _. destruct (u s) eqn:E; [|reflexivity]. apply H in E. destruct E as [_ E]. rewrite E. reflexivity. Qed.
  Lemma s_bd_ext_in u v : (forall s, In s V -> u s = v s) -> peq (s_bd V u) (s_bd V v).
  Proof. intros E f. destruct (in_dec (list_eq_dec Nat.eq_dec) f V) as [H|H]; [|rewrite !s_bd_out by exact H; reflexivity]. rewrite !s_bd_in by exact H. apply psum_ext. intros s Hs. rewrite (E s Hs). reflexivity. Qed.
  Lemma s_bd_none u f : (forall s, In s V -> u s = false) -> s_bd V u f = false.
  Proof. intros E. destruct (in_dec (list_eq_dec Nat.eq_dec) f V) as [H|H]; [|apply s_bd_out; exact H]. rewrite s_bd_in by exact H. apply psum_zero. intros s Hs. rewrite (E s Hs). reflexivity. Qed.
  (** equality of chains on [W] *)
  Lemma W_eq x y : on W x -> on W y -> (forall f, In f V -> x f = y f) -> (forall a, In a A -> x [a] = y [a]) -> (forall a s, In a A -> In s V -> x (a :: s) = y (a :: s)) -> peq x y.
  Proof.
    intros Hx Hy E1 E2 E3 f. destruct (in_dec (list_eq_dec Nat.eq_dec) f W) as [H|H].
    - apply W_in in H. destruct H as [H|(a & Ha & [->|(s & Hs & ->)])]; auto.
    - destruct (x f) eqn:X; [apply Hx in X; contradiction|]. destruct (y f) eqn:Y; [apply Hy in Y; contradiction|reflexivity].
  Qed.
  Lemma on_chain d x : s_chain W d x -> on W x.
  Proof. intros H f Hf. apply (H f Hf). Qed.
  Lemma on_bd x : on W (s_bd W x).
  Proof. intros f Hf. apply (s_bd_support W x f Hf). Qed.
  Lemma on_padd x y : on W x -> on W y -> on W (padd x y).
  Proof. intros Hx Hy f Hf. unfold padd in Hf. destruct (x f) eqn:X; [apply Hx; exact X|]. apply Hy. destruct (y f); [reflexivity|discriminate]. Qed.
  Lemma bd_lift_base a u f : In a A -> In f V -> s_bd W (lift a u) f = u f.
  Proof.
    intros Ha Hf. rewrite bd_base by exact Hf. rewrite (s_bd_none _ f) by (intros s Hs; apply lift_base; assumption). rewrite xorb_false_l. rewrite (psum_one _ A a NA Ha); [apply lift_same|]. intros b Hb N. apply lift_other. congruence.
  Qed.
  Lemma bd_lift_apex a b u : In a A -> In b A -> s_bd W (lift a u) [b] = if a =? b then aug u else false.
  Proof.
    intros Ha Hb. rewrite bd_apex by exact Hb. destruct (Nat.eqb_spec a b) as [->|N]; [apply aug_ext; intros s _; apply lift_same|]. apply aug_zero. intros s _. apply lift_other. exact N.
  Qed.
  Lemma bd_lift_join a b u g : In a A -> In b A -> In g V -> s_bd W (lift a u) (b :: g) = if a =? b then s_bd V u g else false.
  Proof.
    intros Ha Hb Hg. rewrite bd_join by assumption. destruct (Nat.eqb_spec a b) as [->|N]; [apply s_bd_ext_in; intros s _; apply lift_same|]. apply s_bd_none. intros s _. apply lift_other. exact N.
  Qed.
  Hypothesis HZ : forall x, peq (s_bd W (s_bd W x)) pzero.
  Variable a0 : nat.
  Hypothesis Ha0 : In a0 A.
  Lemma base_bd_bd u : peq (s_bd V (s_bd V u)) pzero.
  Proof.
    intro g. destruct (in_dec (list_eq_dec Nat.eq_dec) g V) as [Hg|Hg]; [|apply s_bd_out; exact Hg].
    pose proof (HZ (lift a0 u) (a0 :: g)) as H. rewrite bd_join in H by assumption. etransitivity; [|exact H]. apply s_bd_ext_in. intros s Hs. rewrite bd_lift_join by assumption. rewrite Nat.eqb_refl. reflexivity.
  Qed.
  Lemma aug_bd u : aug (s_bd V u) = false.
  Proof.
    pose proof (HZ (lift a0 u) [a0]) as H. rewrite bd_apex in H by exact Ha0. etransitivity; [|exact H]. apply aug_ext. intros s Hs. rewrite bd_lift_join by assumption. rewrite Nat.eqb_refl. reflexivity.
  Qed.
End Join.

(** ** Cones *)
Lemma bd_chain_gen V d x : s_chain V (S d) x -> s_chain V d (s_bd V x).
Proof.
  intros H f Hf. assert (I : In f V) by (apply (s_bd_support V x f Hf)). split; [exact I|]. rewrite s_bd_in in Hf by exact I.
  destruct (Nat.eq_dec (length f) (S d)) as [E|N]; [exact E|]. rewrite psum_zero in Hf; [discriminate|]. intros u _. destruct (x u) eqn:X; [|reflexivity]. destruct (facetb f u) eqn:F; [|reflexivity]. exfalso. apply H in X. apply facetb_iff in F. lia.
Qed.
Lemma chain_add_gen V d x y : s_chain V d x -> s_chain V d y -> s_chain V d (padd x y).
Proof. intros H1 H2 u Hu. unfold padd in Hu. destruct (x u) eqn:X; [apply H1; exact X|]. apply H2. destruct (y u); [reflexivity|discriminate]. Qed.
Section Cone.
  Variables (V W : list (list nat)) (c : nat).
  Hypothesis HP : Permutation W (V ++ flat_map (fun a => [a] :: map (cons a) V) [c]).
  Hypothesis NV : NoDup V.
  Hypothesis HV : forall s, In s V -> s <> [] /\ StronglySorted gt s.
  Hypothesis HA : forall a s u, In a [c] -> In s V -> In u s -> u < a.
  Hypothesis HZ : forall x, peq (s_bd W (s_bd W x)) pzero.
  Let NA : NoDup [c].
  Proof. repeat constructor. intros []. Qed.
  Let Hc : In c [c] := or_introl eq_refl.
  Let part (x : list nat -> bool) : list nat -> bool := fun s => if in_dec (list_eq_dec Nat.eq_dec) s V then x s else false.
  Lemma part_in x s : In s V -> part x s = x s.
  Proof. intro H. unfold part. destruct (in_dec _ s V); [reflexivity|contradiction]. Qed.
  Lemma part_chain d x : s_chain W d x -> s_chain V d (part x).
  Proof. intros H s Hs. unfold part in Hs. destruct (in_dec _ s V) as [I|]; [|discriminate]. split; [exact I|apply (H s Hs)]. Qed.
  (** the boundary of the cone over a chain *)
  Lemma cone_fill d x : s_chain W (S d) x -> peq (s_bd W x) pzero -> peq x (s_bd W (lift c (part x))).
  Proof.
    intros H Z. apply (W_eq V W [c] HP); [apply (on_chain W (S d)); exact H|apply on_bd| | |].
    - intros f Hf. rewrite (bd_lift_base V W [c]); auto. symmetry. apply part_in. exact Hf.
    - intros a [<-|[]]. rewrite (bd_lift_apex V W [c]); auto. rewrite Nat.eqb_refl. rewrite (aug_high V d) by (apply part_chain; exact H). destruct (x [c]) eqn:X; [|reflexivity]. apply H in X. destruct X as [_ X]. discriminate X.
    - intros a s [<-|[]] Hs. rewrite (bd_lift_join V W [c]); auto. rewrite Nat.eqb_refl. pose proof (Z s) as Zs. rewrite (bd_base V W [c]) in Zs; auto. cbn [psum fold_right] in Zs. rewrite xorb_false_r in Zs. rewrite (s_bd_ext_in V (part x) x) by (intros u Hu; apply part_in; exact Hu).
      unfold pzero in Zs. destruct (s_bd V x s), (x (c :: s)); try reflexivity; discriminate Zs.
  Qed.
  Lemma cone_high d x : s_cycles W (S d) x <-> s_boundaries W (S d) x.
  Proof.
    split.
    - intros [H Z]. exists (lift c (part x)). split; [apply (lift_chain V W [c] HP); auto; apply part_chain; exact H|apply (cone_fill d); assumption].
    - intros (y & H & E). split; [|intro f; rewrite (s_bd_ext W x _ E f); apply HZ]. intros f Hf. rewrite (E f) in Hf. apply (bd_chain_gen W (S d) y H f Hf).
  Qed.
  Let phi (x : list nat -> bool) : bool := xorb (x [c]) (aug V x).
  Lemma phi_additive : additive phi.
  Proof.
    split; [intros x y E; unfold phi; rewrite (E [c]); f_equal; apply aug_ext; intros; apply E|]. intros x y. unfold phi. rewrite aug_add. unfold padd. destruct (x [c]), (y [c]), (aug V x), (aug V y); reflexivity.
  Qed.
  Lemma phi_bd y : phi (s_bd W y) = false.
  Proof.
    unfold phi. rewrite (bd_apex V W [c]); auto. rewrite (aug_ext V (s_bd W y) (padd (s_bd V y) (fun s => y (c :: s)))).
    - rewrite aug_add, (aug_bd V W [c]) with (a0 := c); auto. rewrite xorb_false_l. apply xorb_nilpotent.
    - intros s Hs. rewrite (bd_base V W [c]); auto. unfold padd. cbn [psum fold_right]. rewrite xorb_false_r. reflexivity.
  Qed.
  Let point : list nat -> bool := fun f => if list_eq_dec Nat.eq_dec f [c] then true else false.
  Lemma point_chain : s_chain W 0 point.
  Proof. intros f Hf. unfold point in Hf. destruct (list_eq_dec Nat.eq_dec f [c]) as [->|]; [|discriminate]. split; [apply (W_in V W [c] HP); right; exists c; auto|reflexivity]. Qed.
  Lemma vertices_cycle x : s_chain W 0 x -> peq (s_bd W x) pzero.
  Proof.
    intros H f. destruct (in_dec (list_eq_dec Nat.eq_dec) f W) as [I|I]; [|apply s_bd_out; exact I]. rewrite s_bd_in by exact I. apply psum_zero. intros s _. destruct (x s) eqn:X; [|reflexivity]. destruct (facetb f s) eqn:F; [|reflexivity]. exfalso.
    apply H in X. apply facetb_iff in F. assert (f = []) by (destruct f; [reflexivity|cbn in F; lia]). subst f. apply (W_in V W [c] HP) in I. destruct I as [I|(a & _ & [I|(? & _ & I)])]; try discriminate. apply HV in I. easy.
  Qed.
  Lemma cone_low x : s_cycles W 0 x <-> exists (b : bool) w, s_boundaries W 0 w /\ peq x (padd w (if b then point else pzero)).
  Proof.
    split.
    - intros [H _]. exists (phi x), (s_bd W (lift c (part x))). split; [exists (lift c (part x)); split; [apply (lift_chain V W [c] HP); auto; apply part_chain; exact H|intro; reflexivity]|].
      apply (W_eq V W [c] HP); [apply (on_chain W 0); exact H|apply on_padd; [apply on_bd|destruct (phi x); [apply (on_chain W 0), point_chain|intros f Hf; discriminate Hf]]| | |].
      + intros f Hf. unfold padd. rewrite (bd_lift_base V W [c]); auto. rewrite part_in by exact Hf. destruct (phi x); [|apply (eq_sym (xorb_false_r _))]. unfold point. destruct (list_eq_dec Nat.eq_dec f [c]) as [->|]; [exfalso; apply (base_join V [c] HA c [c] []); auto|]. symmetry. apply xorb_false_r.
      + intros a [<-|[]]. unfold padd. rewrite (bd_lift_apex V W [c]); auto. rewrite Nat.eqb_refl. rewrite (aug_ext V (part x) x) by (intros; apply part_in; assumption). assert (Ph : forall b : bool, (if b then point else pzero) [c] = b) by (intros [|]; [unfold point; destruct (list_eq_dec Nat.eq_dec [c] [c]); [reflexivity|easy]|reflexivity]).
        rewrite Ph. unfold phi. destruct (x [c]), (aug V x); reflexivity.
      + intros a s [<-|[]] Hs. unfold padd. rewrite (bd_lift_join V W [c]); auto. rewrite Nat.eqb_refl. destruct (HV s Hs) as [Ns _].
        assert (X : x (c :: s) = false) by (destruct (x (c :: s)) eqn:X; [|reflexivity]; apply H in X; destruct X as [_ X]; cbn in X; destruct s; [easy|discriminate]). rewrite X.
        rewrite s_bd_in by exact Hs. rewrite psum_zero.
        * destruct (phi x); [|reflexivity]. unfold point. destruct (list_eq_dec Nat.eq_dec (c :: s) [c]) as [E|]; [injection E as E; easy|reflexivity].
        * intros u Hu. rewrite part_in by exact Hu. destruct (x u) eqn:Xu; [|reflexivity]. destruct (facetb s u) eqn:F; [|reflexivity]. exfalso. apply H in Xu. apply facetb_iff in F. destruct s; [easy|cbn in F; lia].
    - intros (b & w & (y & Hy & E) & Ex). assert (G : s_chain W 0 x).
      { intros f Hf. rewrite (Ex f) in Hf. apply (chain_add_gen W 0 w (if b then point else pzero)); [|destruct b; [exact point_chain|intros g Hg; discriminate Hg]|exact Hf]. intros g Hg. rewrite (E g) in Hg. apply (bd_chain_gen W 0 y Hy g Hg). }
      split; [exact G|apply vertices_cycle; exact G].
  Qed.
  Lemma cone_dims d z b : p_dim (s_boundaries W d) b -> p_dim (s_cycles W d) z -> z = (if d =? 0 then 1 else 0) + b.
  Proof.
    intros Hb Hz. apply (p_dim_unique W (s_cycles W d)); [intros x f; apply s_cycles_support|exact Hz|]. destruct d as [|d]; cbn [Nat.eqb].
    - apply (p_dim_plus_phi _ (s_boundaries W 0) point phi); [apply phi_additive|apply cone_low| | | |exact Hb].
      + exists pzero. split; [intros f Hf; discriminate Hf|]. intro f. destruct (in_dec (list_eq_dec Nat.eq_dec) f W) as [I|I]; [rewrite s_bd_in by exact I; symmetry; apply psum_zero; intros; reflexivity|rewrite s_bd_out by exact I; reflexivity].
      + intros w (y & _ & E). rewrite (proj1 phi_additive _ _ E). apply phi_bd.
      + unfold phi, point. rewrite aug_zero; [destruct (list_eq_dec Nat.eq_dec [c] [c]); [reflexivity|easy]|]. intros s Hs. destruct (list_eq_dec Nat.eq_dec s [c]) as [->|]; [exfalso; apply (base_join V [c] HA c [c] []); auto|reflexivity].
    - eapply p_dim_ext; [|exact Hb]. intro x. symmetry. apply cone_high.
  Qed.
End Cone.

(** ** Suspensions *)
Section Suspension.
  Variables (V W : list (list nat)) (a b v0 : nat).
  Hypothesis HP : Permutation W (V ++ flat_map (fun a => [a] :: map (cons a) V) [a; b]).
  Hypothesis Nab : a <> b.
  Hypothesis NV : NoDup V.
  Hypothesis HV : forall s, In s V -> s <> [] /\ StronglySorted gt s.
  Hypothesis HA : forall h s u, In h [a; b] -> In s V -> In u s -> u < h.
  Hypothesis HZ : forall x, peq (s_bd W (s_bd W x)) pzero.
  Hypothesis H0 : In [v0] V.
  Let NA : NoDup [a; b].
  Proof. repeat constructor; [intros [E|[]]; congruence|intros []]. Qed.
  Let Ia : In a [a; b] := or_introl eq_refl.
  Let Ib : In b [a; b] := or_intror (or_introl eq_refl).
  Let Nba : b <> a := fun E => Nab (eq_sym E).
  Let part (x : list nat -> bool) : list nat -> bool := fun s => if in_dec (list_eq_dec Nat.eq_dec) s V then x s else false.
  Lemma spart_in x s : In s V -> part x s = x s.
  Proof. intro H. unfold part. destruct (in_dec _ s V); [reflexivity|contradiction]. Qed.
  Lemma spart_out x s : ~ In s V -> part x s = false.
  Proof. intro H. unfold part. destruct (in_dec _ s V); [contradiction|reflexivity]. Qed.
  Lemma spart_chain d x : s_chain W d x -> s_chain V d (part x).
  Proof. intros H s Hs. unfold part in Hs. destruct (in_dec _ s V) as [I|]; [|discriminate]. split; [exact I|apply (H s Hs)]. Qed.
  Lemma spart_join h d x : s_chain W (S d) x -> s_chain V d (part (fun s => x (h :: s))).
  Proof. intros H s Hs. unfold part in Hs. destruct (in_dec _ s V) as [I|]; [|discriminate]. split; [exact I|]. apply H in Hs. destruct Hs as [_ L]. cbn in L. lia. Qed.
  Lemma not_apex h s : In h [a; b] -> ~ In (h :: s) V.
  Proof. intros Hh I. apply (base_join V [a; b] HA h (h :: s) s Hh I). reflexivity. Qed.
  Let T1 (u : list nat -> bool) : list nat -> bool := padd (lift a u) (lift b u).
  Let T2 (v : list nat -> bool) : list nat -> bool := padd v (lift b (s_bd V v)).
  Lemma lift_ext h u v : peq u v -> peq (lift h u) (lift h v).
  Proof. intros E [|k s]; [reflexivity|]. cbn. rewrite (E s). reflexivity. Qed.
  Lemma lift_add h u v : peq (lift h (padd u v)) (padd (lift h u) (lift h v)).
  Proof. intros [|k s]; [reflexivity|]. cbn. unfold padd. cbn. destruct (k =? h), (u s), (v s); reflexivity. Qed.
  Lemma T1_linear : linear T1.
  Proof.
    split; [intros x y E f; unfold T1, padd; rewrite (lift_ext a x y E f), (lift_ext b x y E f); reflexivity|]. intros x y f. unfold T1, padd at 1. rewrite (lift_add a x y f), (lift_add b x y f). unfold padd. destruct (lift a x f), (lift b x f), (lift a y f), (lift b y f); reflexivity.
  Qed.
  Lemma T2_linear : linear T2.
  Proof.
    split; [intros x y E f; unfold T2, padd; rewrite (E f), (lift_ext b _ _ (s_bd_ext V x y E) f); reflexivity|]. intros x y f. unfold T2, padd at 1. rewrite (lift_ext b _ _ (s_bd_add V x y) f), (lift_add b _ _ f). unfold padd. destruct (x f), (y f), (lift b (s_bd V x) f), (lift b (s_bd V y) f); reflexivity.
  Qed.
  (** values *)
  Lemma T1_base u f : In f V -> T1 u f = false.
  Proof. intro Hf. unfold T1, padd. rewrite !(lift_base V [a; b] HA); auto. Qed.
  Lemma T1_join h u s : In h [a; b] -> T1 u (h :: s) = u s.
  Proof. intros [<-|[<-|[]]]; unfold T1, padd; rewrite lift_same, lift_other by congruence; [apply xorb_false_r|apply xorb_false_l]. Qed.
  Lemma T2_base v f : In f V -> T2 v f = v f.
  Proof. intro Hf. unfold T2, padd. rewrite (lift_base V [a; b] HA); auto. apply xorb_false_r. Qed.
  Lemma T2_a v s : on V v -> T2 v (a :: s) = false.
  Proof. intro Hv. unfold T2, padd. rewrite lift_other by congruence. rewrite xorb_false_r. destruct (v (a :: s)) eqn:E; [apply Hv in E; exfalso; apply (not_apex a s Ia E)|reflexivity]. Qed.
  Lemma T2_b v s : on V v -> T2 v (b :: s) = s_bd V v s.
  Proof. intro Hv. unfold T2, padd. rewrite lift_same. destruct (v (b :: s)) eqn:E; [apply Hv in E; exfalso; apply (not_apex b s Ib E)|apply xorb_false_l]. Qed.
  Lemma T1_chain d u : s_chain V d u -> s_chain W (S d) (T1 u).
  Proof. intro H. apply chain_add_gen; apply (lift_chain V W [a; b] HP); auto. Qed.
  Lemma T2_chain d v : s_chain V (S d) v -> s_chain W (S d) (T2 v).
  Proof. intro H. apply chain_add_gen; [apply (chain_base V W [a; b] HP); exact H|]. apply (lift_chain V W [a; b] HP); auto. apply bd_chain_gen. exact H. Qed.
  Lemma on_of d v : s_chain V d v -> on V v.
  Proof. intros H s Hs. apply (H s Hs). Qed.
  (** boundaries *)
  Lemma T1_bd_base u f : In f V -> s_bd W (T1 u) f = false.
  Proof. intro Hf. unfold T1. rewrite (s_bd_add W _ _ f). unfold padd. rewrite !(bd_lift_base V W [a; b]); auto. apply xorb_nilpotent. Qed.
  Lemma T1_bd_apex h u : In h [a; b] -> s_bd W (T1 u) [h] = aug V u.
  Proof.
    intros Hh. unfold T1. rewrite (s_bd_add W _ _ [h]). unfold padd. rewrite !(bd_lift_apex V W [a; b]); auto. destruct Hh as [<-|[<-|[]]]; rewrite Nat.eqb_refl; [rewrite (proj2 (Nat.eqb_neq b a) Nba); apply xorb_false_r|rewrite (proj2 (Nat.eqb_neq a b) Nab); apply xorb_false_l].
  Qed.
  Lemma T1_bd_join h u g : In h [a; b] -> In g V -> s_bd W (T1 u) (h :: g) = s_bd V u g.
  Proof.
    intros Hh Hg. unfold T1. rewrite (s_bd_add W _ _ (h :: g)). unfold padd. rewrite !(bd_lift_join V W [a; b]); auto. destruct Hh as [<-|[<-|[]]]; rewrite Nat.eqb_refl; [rewrite (proj2 (Nat.eqb_neq b a) Nba); apply xorb_false_r|rewrite (proj2 (Nat.eqb_neq a b) Nab); apply xorb_false_l].
  Qed.
  Lemma bd_on v : on V v -> (forall f, In f V -> s_bd W v f = s_bd V v f) /\ (forall h, In h [a; b] -> s_bd W v [h] = false) /\ (forall h g, In h [a; b] -> In g V -> s_bd W v (h :: g) = false).
  Proof.
    intro Hv. assert (Z : forall h s, In h [a; b] -> v (h :: s) = false) by (intros h s Hh; destruct (v (h :: s)) eqn:E; [apply Hv in E; exfalso; apply (not_apex h s Hh E)|reflexivity]). split; [|split].
    - intros f Hf. rewrite (bd_base V W [a; b]); auto. rewrite psum_zero; [apply xorb_false_r|]. intros h Hh. apply Z. exact Hh.
    - intros h Hh. rewrite (bd_apex V W [a; b]); auto. apply aug_zero. intros s _. apply Z. exact Hh.
    - intros h g Hh Hg. rewrite (bd_join V W [a; b]); auto. apply s_bd_none. intros s _. apply Z. exact Hh.
  Qed.
  Lemma T2_bd v : on V v -> peq (s_bd W (T2 v)) pzero.
  Proof.
    intro Hv. destruct (bd_on v Hv) as (B1 & B2 & B3). apply (W_eq V W [a; b] HP); [apply on_bd|intros f Hf; discriminate Hf| | |].
    - intros f Hf. unfold T2. rewrite (s_bd_add W _ _ f). unfold padd. rewrite B1 by exact Hf. rewrite (bd_lift_base V W [a; b]); auto. apply xorb_nilpotent.
    - intros h Hh. unfold T2. rewrite (s_bd_add W _ _ [h]). unfold padd. rewrite B2 by exact Hh. rewrite (bd_lift_apex V W [a; b]); auto. rewrite (aug_bd V W [a; b]) with (a0 := a); auto. destruct (b =? h); reflexivity.
    - intros h g Hh Hg. unfold T2. rewrite (s_bd_add W _ _ (h :: g)). unfold padd. rewrite B3 by assumption. rewrite (bd_lift_join V W [a; b]); auto. rewrite (base_bd_bd V W [a; b]) with (a0 := a); auto. destruct (b =? h); reflexivity.
  Qed.
  Lemma chain_apex e x h : s_chain W (S e) x -> x [h] = false.
  Proof. intro H. destruct (x [h]) eqn:X; [|reflexivity]. apply H in X. destruct X as [_ X]. discriminate X. Qed.
  Lemma susp_split e x : s_chain W (S e) x -> (forall f, In f V -> s_bd W x f = false) -> peq x (padd (T1 (part (fun s => x (a :: s)))) (T2 (part x))).
  Proof.
    intros H Z. pose proof (spart_chain (S e) x H) as Hp. pose proof (spart_join a e x H) as Hj.
    apply (W_eq V W [a; b] HP); [apply (on_chain W (S e)); exact H|apply on_padd; [apply (on_chain W (S e)), T1_chain; exact Hj|apply (on_chain W (S e)), T2_chain; exact Hp]| | |].
    - intros f Hf. unfold padd. rewrite T1_base, T2_base, spart_in by exact Hf. symmetry. apply xorb_false_l.
    - intros h Hh. rewrite (chain_apex e x h H). symmetry. apply (chain_apex e). apply chain_add_gen; [apply T1_chain; exact Hj|apply T2_chain; exact Hp].
    - intros h s Hh Hs. unfold padd. rewrite T1_join by exact Hh. rewrite spart_in by exact Hs. destruct Hh as [<-|[<-|[]]].
      + rewrite T2_a by (apply (on_of (S e)); exact Hp). symmetry. apply xorb_false_r.
      + rewrite T2_b by (apply (on_of (S e)); exact Hp). rewrite (s_bd_ext_in V (part x) x) by (intros; apply spart_in; assumption). specialize (Z s Hs). rewrite (bd_base V W [a; b]) in Z; auto. cbn [psum fold_right] in Z.
        destruct (s_bd V x s), (x (a :: s)), (x (b :: s)); try reflexivity; discriminate Z.
  Qed.
  Lemma susp_cycles e x : s_cycles W (S e) x <-> exists u v, (s_cycles V e u /\ aug V u = false) /\ s_chain V (S e) v /\ peq x (padd (T1 u) (T2 v)).
  Proof.
    split.
    - intros [H Z]. exists (part (fun s => x (a :: s))), (part x). split; [split; [split; [apply spart_join; exact H|]|]|split; [apply spart_chain; exact H|apply (susp_split e); [exact H|intros f _; apply Z]]].
      + intro g. destruct (in_dec (list_eq_dec Nat.eq_dec) g V) as [Hg|Hg]; [|apply s_bd_out; exact Hg]. rewrite (s_bd_ext_in V _ (fun s => x (a :: s))) by (intros s Hs; apply (spart_in (fun s => x (a :: s)) s Hs)). pose proof (Z (a :: g)) as Zg. rewrite (bd_join V W [a; b]) in Zg; auto.
      + rewrite (aug_ext V _ (fun s => x (a :: s))) by (intros s Hs; apply (spart_in (fun s => x (a :: s)) s Hs)). pose proof (Z [a]) as Zg. rewrite (bd_apex V W [a; b]) in Zg; auto.
    - intros (u & v & [[Hu Zu] Au] & Hv & E). split; [intros f Hf; rewrite (E f) in Hf; apply (chain_add_gen W (S e) _ _ (T1_chain e u Hu) (T2_chain e v Hv) f Hf)|].
      intro f. rewrite (s_bd_ext W x _ E f), (s_bd_add W _ _ f). unfold padd. rewrite (T2_bd v (on_of _ v Hv) f). unfold pzero. rewrite xorb_false_r.
      destruct (in_dec (list_eq_dec Nat.eq_dec) f W) as [I|I]; [|apply s_bd_out; exact I]. apply (W_in V W [a; b] HP) in I. destruct I as [I|(h & Hh & [->|(s & Hs & ->)])]; [apply T1_bd_base; exact I|rewrite T1_bd_apex by exact Hh; exact Au|rewrite T1_bd_join by assumption; apply Zu].
  Qed.
  Lemma susp_boundaries e x : s_boundaries W (S e) x <-> exists p q, s_boundaries V e p /\ s_chain V (S e) q /\ peq x (padd (T1 p) (T2 q)).
  Proof.
    split.
    - intros (y & Hy & E). assert (G : s_cycles W (S e) x).
      { split; [intros f Hf; rewrite (E f) in Hf; apply (bd_chain_gen W (S e) y Hy f Hf)|]. intro f. rewrite (s_bd_ext W x _ E f). apply HZ. }
      exists (part (fun s => x (a :: s))), (part x). split; [|split; [apply spart_chain; apply G|apply (susp_split e); [apply G|intros f _; apply G]]].
      exists (part (fun s => y (a :: s))). split; [apply spart_join; exact Hy|]. intro g. destruct (in_dec (list_eq_dec Nat.eq_dec) g V) as [Hg|Hg]; [|rewrite s_bd_out by exact Hg; apply spart_out; exact Hg].
      rewrite (spart_in (fun s => x (a :: s)) g Hg), (E (a :: g)), (bd_join V W [a; b]); auto. apply s_bd_ext_in. intros s Hs. symmetry. apply (spart_in (fun s => y (a :: s)) s Hs).
    - intros (p & q & (u & Hu & Ep) & Hq & E). exists (padd (T1 u) (lift b q)). split; [apply chain_add_gen; [apply T1_chain; exact Hu|apply (lift_chain V W [a; b] HP); auto]|].
      intro f. rewrite (E f). assert (G : peq (padd (T1 p) (T2 q)) (s_bd W (padd (T1 u) (lift b q)))); [|apply G].
      assert (Hp : s_chain V e p) by (intros s Hs; rewrite (Ep s) in Hs; apply (bd_chain_gen V e u Hu s Hs)).
      apply (W_eq V W [a; b] HP); [apply on_padd; [apply (on_chain W (S e)), T1_chain; exact Hp|apply (on_chain W (S e)), T2_chain; exact Hq]|apply on_bd| | |].
      + intros g Hg. rewrite (s_bd_add W _ _ g). unfold padd. rewrite T1_base, T2_base, T1_bd_base by exact Hg. rewrite (bd_lift_base V W [a; b]); auto.
      + intros h Hh. rewrite (s_bd_add W _ _ [h]). unfold padd. rewrite T1_bd_apex by exact Hh. rewrite (bd_lift_apex V W [a; b]); auto. rewrite (aug_high V e u Hu), (aug_high V e q Hq). rewrite (chain_apex e _ h (T1_chain e p Hp)), (chain_apex e _ h (T2_chain e q Hq)). destruct (b =? h); reflexivity.
      + intros h s Hh Hs. rewrite (s_bd_add W _ _ (h :: s)). unfold padd. rewrite T1_join by exact Hh. rewrite T1_bd_join by assumption. rewrite (bd_lift_join V W [a; b]); auto. rewrite (Ep s). destruct Hh as [<-|[<-|[]]].
        * rewrite T2_a by (apply (on_of (S e)); exact Hq). rewrite (proj2 (Nat.eqb_neq b a) Nba). reflexivity.
        * rewrite T2_b by (apply (on_of (S e)); exact Hq). rewrite Nat.eqb_refl. reflexivity.
  Qed.
  Lemma sub_chain d : subspace (s_chain V d).
  Proof. split; [intros f Hf; discriminate Hf|]. intros x y. apply chain_add_gen. Qed.
  Lemma bd_zero_gen l f : s_bd l pzero f = false.
  Proof. destruct (in_dec (list_eq_dec Nat.eq_dec) f l) as [I|I]; [rewrite s_bd_in by exact I; apply psum_zero; intros; reflexivity|apply s_bd_out; exact I]. Qed.
  Lemma sub_cycles d : subspace (s_cycles V d).
  Proof. split; [split; [intros f Hf; discriminate Hf|intro f; apply bd_zero_gen]|]. intros x y [H1 Z1] [H2 Z2]. split; [apply chain_add_gen; assumption|]. intro f. rewrite (s_bd_add V x y f). unfold padd. rewrite (Z1 f), (Z2 f). reflexivity. Qed.
  Lemma sub_boundaries d : subspace (s_boundaries V d).
  Proof.
    split; [exists pzero; split; [intros f Hf; discriminate Hf|intro f; rewrite bd_zero_gen; reflexivity]|]. intros x y (u & Hu & Eu) (v & Hv & Ev). exists (padd u v). split; [apply chain_add_gen; assumption|]. intro f. rewrite (s_bd_add V u v f). unfold padd. rewrite (Eu f), (Ev f). reflexivity.
  Qed.
  Lemma T_injective u v : on V u -> on V v -> peq (padd (T1 u) (T2 v)) pzero -> peq u pzero /\ peq v pzero.
  Proof.
    intros Hu Hv Z. split; intro s.
    - destruct (u s) eqn:E; [|reflexivity]. pose proof (Z (a :: s)) as Zs. unfold padd in Zs. rewrite T1_join, T2_a in Zs by auto. rewrite E in Zs. discriminate Zs.
    - destruct (v s) eqn:E; [|reflexivity]. pose proof (Hv s E) as Hs. pose proof (Z s) as Zs. unfold padd in Zs. rewrite T1_base, T2_base in Zs by exact Hs. rewrite E in Zs. discriminate Zs.
  Qed.
  Lemma boundaries_on d x : s_boundaries V d x -> on V x.
  Proof. intros (y & _ & E) s Hs. rewrite (E s) in Hs. apply (s_bd_support V y s Hs). Qed.
  Lemma susp_dim_boundaries e p c : p_dim (s_boundaries V e) p -> p_dim (s_chain V (S e)) c -> p_dim (s_boundaries W (S e)) (p + c).
  Proof.
    intros H1 H2. apply (p_dim_sum _ (s_boundaries V e) (s_chain V (S e)) T1 T2); [apply T1_linear|apply T2_linear|apply sub_boundaries|apply sub_chain|apply susp_boundaries| |exact H1|exact H2].
    intros w1 w2 G1 G2. apply T_injective; [apply (boundaries_on e); exact G1|apply (on_of (S e)); exact G2].
  Qed.
  Let E (e : nat) (x : list nat -> bool) : Prop := exists u v, s_cycles V e u /\ s_chain V (S e) v /\ peq x (padd (T1 u) (T2 v)).
  Lemma susp_dim_all e z c : p_dim (s_cycles V e) z -> p_dim (s_chain V (S e)) c -> p_dim (E e) (z + c).
  Proof.
    intros H1 H2. apply (p_dim_sum _ (s_cycles V e) (s_chain V (S e)) T1 T2); [apply T1_linear|apply T2_linear|apply sub_cycles|apply sub_chain|intro; reflexivity| |exact H1|exact H2].
    intros w1 w2 G1 G2. apply T_injective; [apply (on_of e); apply G1|apply (on_of (S e)); exact G2].
  Qed.
  Lemma susp_dim_high e z c : p_dim (s_cycles V (S e)) z -> p_dim (s_chain V (S (S e))) c -> p_dim (s_cycles W (S (S e))) (z + c).
  Proof.
    intros H1 H2. eapply p_dim_ext; [|apply (susp_dim_all (S e)); eassumption]. intro x. rewrite susp_cycles. split; intros (u & v & G1 & G2 & G3); exists u, v; (split; [|split; assumption]); [split; [exact G1|apply (aug_high V e); apply G1]|apply G1].
  Qed.
  Let point : list nat -> bool := fun f => if list_eq_dec Nat.eq_dec f [v0] then true else false.
  Lemma spoint_chain : s_chain V 0 point.
  Proof. intros f Hf. unfold point in Hf. destruct (list_eq_dec Nat.eq_dec f [v0]) as [->|]; [|discriminate]. split; [exact H0|reflexivity]. Qed.
  Lemma spoint_aug : aug V point = true.
  Proof.
    unfold aug. rewrite (psum_one _ V [v0] NV H0); [unfold point; destruct (list_eq_dec Nat.eq_dec [v0] [v0]); [reflexivity|easy]|]. intros s _ N. unfold point. destruct (list_eq_dec Nat.eq_dec s [v0]); [easy|reflexivity].
  Qed.
  Lemma low_bd l x : (forall s, In s l -> s <> []) -> s_chain l 0 x -> peq (s_bd l x) pzero.
  Proof.
    intros N H f. destruct (in_dec (list_eq_dec Nat.eq_dec) f l) as [I|I]; [|apply s_bd_out; exact I]. rewrite s_bd_in by exact I. apply psum_zero. intros s _. destruct (x s) eqn:X; [|reflexivity]. destruct (facetb f s) eqn:F; [|reflexivity]. exfalso.
    apply H in X. apply facetb_iff in F. destruct f as [|h f]; [apply (N [] I); reflexivity|cbn in F; lia].
  Qed.
  Lemma point_cycle : s_cycles V 0 point.
  Proof. split; [apply spoint_chain|]. apply low_bd; [intros s Hs; apply HV; exact Hs|apply spoint_chain]. Qed.
  Let phi (x : list nat -> bool) : bool := aug V (fun s => x (a :: s)).
  Lemma sphi_additive : additive phi.
  Proof. split; [intros x y Q; apply aug_ext; intros; apply Q|]. intros x y. unfold phi. rewrite <- aug_add. reflexivity. Qed.
  Lemma sphi_T u v : on V v -> phi (padd (T1 u) (T2 v)) = aug V u.
  Proof. intro Hv. apply aug_ext. intros s Hs. unfold padd. rewrite T1_join by exact Ia. rewrite T2_a by exact Hv. apply xorb_false_r. Qed.
  Lemma susp_dim_low z c w : p_dim (s_cycles V 0) z -> p_dim (s_chain V 1) c -> p_dim (s_cycles W 1) w -> S w = z + c.
  Proof.
    intros H1 H2 Hw. assert (G : p_dim (E 0) (S w)).
    { apply (p_dim_plus_phi _ (s_cycles W 1) (T1 point) phi); [apply sphi_additive| | | | |exact Hw].
      - intro x. split.
        + intros (u & v & Hu & Hv & Q). exists (aug V u), (padd (T1 (padd u (if aug V u then point else pzero))) (T2 v)). split.
          * apply susp_cycles. exists (padd u (if aug V u then point else pzero)), v. split; [split; [apply sub_cycles; [exact Hu|destruct (aug V u); [apply point_cycle|apply sub_cycles]]|]|split; [exact Hv|intro; reflexivity]].
            rewrite aug_add. destruct (aug V u); [rewrite spoint_aug; reflexivity|]. rewrite xorb_false_l. apply aug_zero. reflexivity.
          * intro f. rewrite (Q f). unfold padd at 1 2 3. rewrite (proj2 T1_linear u _ f). unfold padd. destruct (aug V u); [|rewrite (linear_zero T1 T1_linear f)]; unfold pzero; destruct (T1 u f), (T2 v f); try destruct (T1 point f); reflexivity.
        + intros (k & x' & Hx' & Q). apply susp_cycles in Hx'. destruct Hx' as (u & v & [Hu _] & Hv & Q'). exists (padd u (if k then point else pzero)), v. split; [apply sub_cycles; [exact Hu|destruct k; [apply point_cycle|apply sub_cycles]]|]. split; [exact Hv|].
          intro f. rewrite (Q f). unfold padd at 1 2. rewrite (proj2 T1_linear u _ f). rewrite (Q' f). unfold padd. destruct k; [|rewrite (linear_zero T1 T1_linear f)]; unfold pzero; destruct (T1 u f), (T2 v f); try destruct (T1 point f); reflexivity.
      - apply susp_cycles. exists pzero, pzero. split; [split; [apply sub_cycles|apply aug_zero; reflexivity]|]. split; [apply sub_chain|]. intro f. unfold padd. rewrite (linear_zero T1 T1_linear f), (linear_zero T2 T2_linear f). reflexivity.
      - intros x' Hx'. apply susp_cycles in Hx'. destruct Hx' as (u & v & [_ Au] & Hv & Q'). rewrite (proj1 sphi_additive _ _ Q'). rewrite sphi_T by (apply (on_of 1); exact Hv). exact Au.
      - unfold phi. rewrite (aug_ext V _ point); [apply spoint_aug|]. intros s _. apply T1_join. exact Ia. }
    apply (p_dim_unique W (E 0)); [|exact G|apply susp_dim_all; assumption].
    intros x f (u & v & [Hu _] & Hv & Q) Hf. rewrite (Q f) in Hf. apply (chain_add_gen W 1 _ _ (T1_chain 0 u Hu) (T2_chain 0 v Hv) f Hf).
  Qed.
  (** the suspension is connected *)
  Let total (x : list nat -> bool) : bool := xorb (xorb (x [a]) (x [b])) (aug V x).
  Let apex : list nat -> bool := fun f => if list_eq_dec Nat.eq_dec f [a] then true else false.
  Lemma total_additive : additive total.
  Proof.
    split; [intros x y Q; unfold total; rewrite (Q [a]), (Q [b]); f_equal; apply aug_ext; intros; apply Q|]. intros x y. unfold total. rewrite aug_add. unfold padd. destruct (x [a]), (y [a]), (x [b]), (y [b]), (aug V x), (aug V y); reflexivity.
  Qed.
  Lemma total_bd y : total (s_bd W y) = false.
  Proof.
    unfold total. rewrite !(bd_apex V W [a; b]); auto. rewrite (aug_ext V (s_bd W y) (padd (s_bd V y) (padd (fun s => y (a :: s)) (fun s => y (b :: s))))).
    - rewrite !aug_add, (aug_bd V W [a; b]) with (a0 := a); auto. destruct (aug V (fun s => y (a :: s))), (aug V (fun s => y (b :: s))); reflexivity.
    - intros s Hs. rewrite (bd_base V W [a; b]); auto. unfold padd. cbn [psum fold_right]. rewrite xorb_false_r. reflexivity.
  Qed.
  Lemma apex_chain : s_chain W 0 apex.
  Proof. intros f Hf. unfold apex in Hf. destruct (list_eq_dec Nat.eq_dec f [a]) as [->|]; [|discriminate]. split; [apply (W_in V W [a; b] HP); right; exists a; auto|reflexivity]. Qed.
  Lemma susp_vertices x : s_cycles W 0 x <-> exists (k : bool) w, s_boundaries W 0 w /\ peq x (padd w (if k then apex else pzero)).
  Proof.
    assert (NW : forall s, In s W -> s <> []) by (intros s Hs; apply (W_in V W [a; b] HP) in Hs; destruct Hs as [Hs|(h & _ & [->|(? & _ & ->)])]; [apply HV; exact Hs|discriminate|discriminate]).
    split.
    - intros [H _]. set (g := if x [b] then point else pzero). assert (Hg : s_chain V 0 g) by (unfold g; destruct (x [b]); [apply spoint_chain|apply sub_chain]). assert (Ag : aug V g = x [b]) by (unfold g; destruct (x [b]); [apply spoint_aug|apply aug_zero; reflexivity]).
      pose proof (spart_chain 0 x H) as Hp. set (y := padd (lift a (part x)) (T1 g)). assert (Hy : s_chain W 1 y) by (apply chain_add_gen; [apply (lift_chain V W [a; b] HP); auto|apply T1_chain; exact Hg]).
      exists (total x), (s_bd W y). split; [exists y; split; [exact Hy|intro; reflexivity]|].
      assert (Pb : forall f, f <> [a] -> (if total x then apex else pzero) f = false) by (intros f N; destruct (total x); [unfold apex; destruct (list_eq_dec Nat.eq_dec f [a]); [easy|reflexivity]|reflexivity]).
      assert (Pa : (if total x then apex else pzero) [a] = total x) by (destruct (total x); [unfold apex; destruct (list_eq_dec Nat.eq_dec [a] [a]); [reflexivity|easy]|reflexivity]).
      assert (Lw : forall l u s, (forall t, In t l -> t <> []) -> s_chain l 0 u -> s_bd l u s = false) by (intros l u s N Hu; apply low_bd; assumption).
      apply (W_eq V W [a; b] HP); [apply (on_chain W 0); exact H|apply on_padd; [apply on_bd|destruct (total x); [apply (on_chain W 0), apex_chain|intros f Hf; discriminate Hf]]| | |].
      + intros f Hf. unfold padd at 1. rewrite Pb by (intros ->; apply (not_apex a [] Ia Hf)). rewrite xorb_false_r. unfold y. rewrite (s_bd_add W _ _ f). unfold padd. rewrite T1_bd_base by exact Hf. rewrite (bd_lift_base V W [a; b]); auto. rewrite spart_in by exact Hf. symmetry. apply xorb_false_r.
      + intros h Hh. unfold padd at 1. unfold y. rewrite (s_bd_add W _ _ [h]). unfold padd. rewrite T1_bd_apex by exact Hh. rewrite (bd_lift_apex V W [a; b]); auto. rewrite Ag. destruct Hh as [<-|[<-|[]]].
        * rewrite Nat.eqb_refl. transitivity (xorb (xorb (aug V (part x)) (x [b])) (total x)); [|f_equal; symmetry; exact Pa]. rewrite (aug_ext V (part x) x) by (intros; apply spart_in; assumption). unfold total. destruct (x [a]), (x [b]), (aug V x); reflexivity.
        * rewrite (proj2 (Nat.eqb_neq a b) Nab). rewrite Pb by congruence. destruct (x [b]); reflexivity.
      + intros h s Hh Hs. destruct (HV s Hs) as [Ns _]. unfold padd at 1. rewrite Pb by (intro Q; injection Q as _ Q; easy). rewrite xorb_false_r. unfold y. rewrite (s_bd_add W _ _ (h :: s)). unfold padd. rewrite T1_bd_join by assumption. rewrite (bd_lift_join V W [a; b]); auto.
        rewrite !(Lw V) by (try assumption; intros t Ht; apply HV; exact Ht). destruct (x (h :: s)) eqn:X; [|destruct (a =? h); reflexivity]. apply H in X. destruct X as [_ X]. cbn in X. destruct s; [easy|discriminate].
    - intros (k & w & (y & Hy & Q) & Ex). assert (G : s_chain W 0 x).
      { intros f Hf. rewrite (Ex f) in Hf. apply (chain_add_gen W 0 w (if k then apex else pzero)); [|destruct k; [exact apex_chain|intros g Hg; discriminate Hg]|exact Hf]. intros g Hg. rewrite (Q g) in Hg. apply (bd_chain_gen W 0 y Hy g Hg). }
      split; [exact G|apply low_bd; assumption].
  Qed.
  Lemma susp_connected z w : p_dim (s_boundaries W 0) w -> p_dim (s_cycles W 0) z -> z = 1 + w.
  Proof.
    intros Hw Hz. apply (p_dim_unique W (s_cycles W 0)); [intros x f; apply s_cycles_support|exact Hz|].
    apply (p_dim_plus_phi _ (s_boundaries W 0) apex total); [apply total_additive|apply susp_vertices| | | |exact Hw].
    - exists pzero. split; [intros f Hf; discriminate Hf|]. intro f. rewrite bd_zero_gen. reflexivity.
    - intros x (y & _ & Q). rewrite (proj1 total_additive _ _ Q). apply total_bd.
    - unfold total, apex. rewrite aug_zero; [|intros s Hs; destruct (list_eq_dec Nat.eq_dec s [a]) as [->|]; [exfalso; apply (not_apex a [] Ia Hs)|reflexivity]].
      destruct (list_eq_dec Nat.eq_dec [a] [a]); [|easy]. destruct (list_eq_dec Nat.eq_dec [b] [a]) as [Q|]; [injection Q as Q; congruence|reflexivity].
  Qed.
End Suspension.
