(** * Facts on simplicial homology: it is the homology of the boundary matrix, and is kept by collapses. *)
From Coq Require Import List Arith Bool ZArith Lia Sorted Permutation Relations.
From Verif Require Import Base BaseFacts Simplex SimplexFacts SpecComplex Complex ComplexFacts Subcomplex SubcomplexFacts History PropertiesComplex
  Matrix SpecMatrix ReductionFacts AlgorithmFacts FiltrationFacts PropertiesStratified SpecHomology HomologyFacts PropertiesHomology SpecCollapse Spine SpineFacts PropertiesSpine DowkerFacts SpecSimplicial.
Import ListNotations.

(** ** Linear algebra *)
Section Space.
  Context {I : Type}.
  Implicit Types x y v w : @pvec I.
  Lemma pcomb_false_at c (B : list (@pvec I)) i : (forall b, In b B -> b i = false) -> pcomb c B i = false.
  Proof.
    revert B. induction c as [|a c IH]; intros [|b B] H; try reflexivity. cbn [pcomb]. destruct a; [unfold padd; rewrite (H b) by (left; reflexivity); rewrite xorb_false_l|]; apply IH; intros b' Hb; apply H; right; exact Hb.
  Qed.
  Lemma p_dim_ext (V W : pvec -> Prop) n : (forall x, V x <-> W x) -> p_dim V n -> p_dim W n.
  Proof. intros H (B & E & HB & HI & HS). exists B. split; [exact E|]. split; [intros b Hb; apply H, HB, Hb|]. split; [exact HI|]. intros x Hx. apply HS, H, Hx. Qed.
  (** one more dimension *)
  Lemma p_dim_plus (V W : pvec -> Prop) v t n : (forall x, V x <-> exists (c : bool) w, W w /\ peq x (padd w (if c then v else pzero))) ->
    W pzero -> (forall w, W w -> w t = false) -> v t = true -> p_dim W n -> p_dim V (S n).
  Proof.
    intros HV W0 Wt Vt (B & E & HB & HI & HS). exists (v :: B). split; [cbn; rewrite E; reflexivity|]. split; [|split].
    - intros b [<-|Hb]; apply HV; [exists true, pzero; split; [exact W0|intro i; unfold padd, pzero; destruct (v i); reflexivity]|].
      exists false, b. split; [apply HB; exact Hb|]. intro i. unfold padd, pzero. destruct (b i); reflexivity.
    - intros [|a c] L H b Hb; [destruct Hb|]. cbn [length] in L. cbn [pcomb] in H.
      assert (Z : pcomb c B t = false) by (apply pcomb_false_at; intros b' Hb'; apply Wt, HB, Hb').
      destruct a; [specialize (H t); unfold padd, pzero in H; rewrite Vt, Z in H; discriminate H|]. destruct Hb as [<-|Hb]; [reflexivity|]. apply (HI c); auto.
    - intros x Hx. apply HV in Hx. destruct Hx as (a & w & Hw & Ex). destruct (HS w Hw) as (c & L & Ew). exists (a :: c). split; [cbn; rewrite L; reflexivity|].
      intro i. rewrite (Ex i). unfold padd. rewrite (Ew i). cbn [pcomb]. destruct a; unfold padd, pzero; [apply xorb_comm|apply xorb_false_r].
  Qed.
End Space.
Definition pull {I J} (g : J -> option I) (x : I -> bool) : J -> bool := fun j => match g j with Some i => x i | None => false end.
Lemma pull_comb {I J} (g : J -> option I) c : forall B, peq (pcomb c (map (pull g) B)) (pull g (pcomb c B)).
Proof.
  induction c as [|a c IH]; intros [|b B] j; cbn [map pcomb]; try (unfold pull, pzero; destruct (g j); reflexivity).
  destruct a; [unfold padd; rewrite (IH B j); unfold pull; destruct (g j); reflexivity|apply IH].
Qed.
Lemma p_dim_map {I J} (g : J -> option I) (V : (I -> bool) -> Prop) (W : (J -> bool) -> Prop) n :
  (forall x, V x -> W (pull g x)) -> (forall y, W y -> exists x, V x /\ peq y (pull g x)) -> (forall x i, V x -> x i = true -> exists j, g j = Some i) ->
  p_dim V n -> p_dim W n.
Proof.
  intros H1 H2 H3 (B & E & HB & HI & HS). exists (map (pull g) B). split; [rewrite map_length; exact E|]. split; [|split].
  - intros b Hb. apply in_map_iff in Hb. destruct Hb as (x & <- & Hx). apply H1, HB, Hx.
  - intros c L H. rewrite map_length in L. apply (HI c L). intro i. destruct (pcomb c B i) eqn:X; [|reflexivity].
    assert (Y : exists b, In b B /\ b i = true).
    { destruct (existsb (fun b : I -> bool => b i) B) eqn:Z; [apply existsb_exists in Z; exact Z|]. rewrite pcomb_false_at in X; [discriminate|]. intros b Hb. destruct (b i) eqn:F; [|reflexivity]. assert (Z' : existsb (fun b : I -> bool => b i) B = true) by (apply existsb_exists; exists b; auto). congruence. }
    destruct Y as (b & Hb & Hi). destruct (H3 b i (HB b Hb) Hi) as (j & Gj). specialize (H j). rewrite (pull_comb g c B j) in H. unfold pull, pzero in H. rewrite Gj in H. congruence.
  - intros y Hy. destruct (H2 y Hy) as (x & Hx & Ey). destruct (HS x Hx) as (c & L & Ex). exists c. split; [rewrite map_length; exact L|]. intro j. rewrite (Ey j), (pull_comb g c B j). unfold pull. destruct (g j); [apply Ex|reflexivity].
Qed.
Lemma p_dim_nat (V : vec -> Prop) n : p_dim V n <-> has_dim V n.
Proof. split; intros (B & H1 & H2 & H3 & H4); exists B; (split; [exact H1|split; [exact H2|split; [exact H3|exact H4]]]). Qed.

(** ** Sums *)
Definition psum {A} (f : A -> bool) (l : list A) : bool := fold_right (fun a acc => xorb (f a) acc) false l.
Lemma psum_cons {A} (f : A -> bool) a l : psum f (a :: l) = xorb (f a) (psum f l).
Proof. reflexivity. Qed.
Lemma psum_perm {A} (f : A -> bool) l m : Permutation l m -> psum f l = psum f m.
Proof. induction 1 as [|x l m H IH|x y l|l m k H1 IH1 H2 IH2]; [reflexivity|rewrite !psum_cons, IH; reflexivity|rewrite !psum_cons; destruct (f x), (f y), (psum f l); reflexivity|congruence]. Qed.
Lemma psum_zero {A} (f : A -> bool) l : (forall a, In a l -> f a = false) -> psum f l = false.
Proof. induction l as [|a l IH]; intro H; [reflexivity|]. rewrite ?psum_cons; rewrite (H a) by (left; reflexivity). rewrite xorb_false_l. apply IH. intros b Hb. apply H. right. exact Hb. Qed.
Lemma psum_ext {A} (f g : A -> bool) l : (forall a, In a l -> f a = g a) -> psum f l = psum g l.
Proof. induction l as [|a l IH]; intro H; [reflexivity|]. rewrite ?psum_cons; rewrite (H a) by (left; reflexivity). f_equal. apply IH. intros b Hb. apply H. right. exact Hb. Qed.
Lemma psum_add {A} (f g : A -> bool) l : psum (fun a => xorb (f a) (g a)) l = xorb (psum f l) (psum g l).
Proof. induction l as [|a l IH]; [reflexivity|]. rewrite ?psum_cons, IH. destruct (f a), (g a), (psum f l), (psum g l); reflexivity. Qed.
Lemma psum_map {A B} (h : A -> B) f l : psum f (map h l) = psum (fun a => f (h a)) l.
Proof. induction l as [|a l IH]; [reflexivity|]. cbn [map]. rewrite ?psum_cons, IH. reflexivity. Qed.
Lemma psum_seq {A} (f : A -> bool) (d : A) l : psum (fun k => f (nth k l d)) (seq 0 (length l)) = psum f l.
Proof.
  rewrite <- (psum_map (fun k => nth k l d) f). f_equal. clear f. induction l as [|a l IH]; [reflexivity|]. cbn [length seq map nth]. f_equal. rewrite <- seq_shift, map_map. exact IH.
Qed.

Lemma facetb_iff f s : facetb f s = true <-> subset f s /\ length s = S (length f).
Proof.
  unfold facetb. rewrite andb_true_iff, Nat.eqb_eq, forallb_forall. split; intros [A B]; (split; [|]); try assumption; intros v Hv; specialize (B v) || specialize (A v); [apply B in Hv|]; [apply existsb_exists in Hv; destruct Hv as (w & Hw & E); apply Nat.eqb_eq in E; subst; exact Hw|].
  apply existsb_exists. exists v. split; [apply A; exact Hv|apply Nat.eqb_refl].
Qed.
Lemma s_bd_in V x f : In f V -> s_bd V x f = psum (fun s => x s && facetb f s) V.
Proof. intro H. unfold s_bd. destruct (in_dec _ f V); [reflexivity|contradiction]. Qed.
Lemma s_bd_out V x f : ~ In f V -> s_bd V x f = false.
Proof. intro H. unfold s_bd. destruct (in_dec _ f V); [contradiction|reflexivity]. Qed.
Lemma s_bd_add V x y : peq (s_bd V (padd x y)) (padd (s_bd V x) (s_bd V y)).
Proof.
  intro f. unfold padd. destruct (in_dec (list_eq_dec Nat.eq_dec) f V) as [H|H]; [|rewrite !s_bd_out by exact H; reflexivity]. rewrite !s_bd_in by exact H. rewrite <- psum_add. apply psum_ext. intros s _. destruct (x s), (y s), (facetb f s); reflexivity.
Qed.
Lemma s_bd_ext V x y : peq x y -> peq (s_bd V x) (s_bd V y).
Proof. intros E f. destruct (in_dec (list_eq_dec Nat.eq_dec) f V) as [H|H]; [|rewrite !s_bd_out by exact H; reflexivity]. rewrite !s_bd_in by exact H. apply psum_ext. intros s _. rewrite (E s). reflexivity. Qed.

(** ** The order of the simplices does not matter *)
Lemma s_bd_perm V W x : Permutation V W -> peq (s_bd V x) (s_bd W x).
Proof.
  intros P f. destruct (in_dec (list_eq_dec Nat.eq_dec) f V) as [H|H].
  - rewrite !s_bd_in; [apply psum_perm; exact P|eapply Permutation_in; eauto|exact H].
  - rewrite !s_bd_out; [reflexivity| |exact H]. intro Q. apply H. eapply Permutation_in; [apply Permutation_sym; exact P|exact Q].
Qed.
Lemma s_chain_perm V W d x : Permutation V W -> s_chain V d x -> s_chain W d x.
Proof. intros P H s Hs. destruct (H s Hs). split; [eapply Permutation_in; eauto|assumption]. Qed.
Lemma s_cycles_perm V W d x : Permutation V W -> s_cycles V d x -> s_cycles W d x.
Proof. intros P [H E]. split; [eapply s_chain_perm; eauto|]. intro f. rewrite <- (s_bd_perm V W x P f). apply E. Qed.
Lemma s_boundaries_perm V W d x : Permutation V W -> s_boundaries V d x -> s_boundaries W d x.
Proof. intros P (y & H & E). exists y. split; [eapply s_chain_perm; eauto|]. intro f. rewrite <- (s_bd_perm V W y P f). apply E. Qed.
Lemma simplicial_betti_perm L P d n : Permutation L P -> simplicial_betti L d n -> simplicial_betti P d n.
Proof.
  intros H (z & b & Hz & Hb & E). pose proof (Permutation_map verts H) as Q. pose proof (Permutation_sym Q) as Q'. exists z, b. split; [|split; [|exact E]].
  - eapply p_dim_ext; [|exact Hz]. intro x. split; apply s_cycles_perm; assumption.
  - eapply p_dim_ext; [|exact Hb]. intro x. split; apply s_boundaries_perm; assumption.
Qed.

(** ** The boundary matrix *)
Fixpoint find_pos (f : list nat) (l : list (list nat)) : option nat :=
  match l with
  | [] => None
  | g :: l' => if list_eq_dec Nat.eq_dec f g then Some 0 else option_map S (find_pos f l')
  end.
Lemma find_pos_some f l r : find_pos f l = Some r -> nth_error l r = Some f.
Proof.
  revert r. induction l as [|g l IH]; intros r H; [discriminate|]. cbn [find_pos] in H. destruct (list_eq_dec Nat.eq_dec f g) as [->|N]; [injection H as <-; reflexivity|].
  destruct (find_pos f l) as [k|]; [|discriminate]. injection H as <-. cbn. apply IH. reflexivity.
Qed.
Lemma find_pos_nth f l r : NoDup l -> nth_error l r = Some f -> find_pos f l = Some r.
Proof.
  revert r. induction l as [|g l IH]; intros r N H; [destruct r; discriminate|]. inversion N as [|? ? N1 N2]; subst. cbn [find_pos]. destruct r as [|r]; cbn in H.
  - injection H as ->. destruct (list_eq_dec Nat.eq_dec f f); [reflexivity|easy].
  - destruct (list_eq_dec Nat.eq_dec f g) as [->|_]; [apply nth_error_In in H; contradiction|]. rewrite (IH r N2 H). reflexivity.
Qed.

Section Link.
  Variables (V : list (list nat)) (C : list (list nat)) (ds : list nat).
  Hypothesis HN : NoDup V.
  Hypothesis HL : length C = length V.
  Hypothesis HD : forall r f, nth_error V r = Some f -> S (nth r ds 0) = length f.
  Hypothesis HE : forall r k f s, nth_error V r = Some f -> nth_error V k = Some s -> entry C r k = facetb f s.
  Hypothesis HO : forall r k, entry C r k = true -> r < length C.
  Let up (x : list nat -> bool) : vec := pull (nth_error V) x.
  Let down (y : vec) : list nat -> bool := pull (fun f => find_pos f V) y.
  Lemma up_down y d : chain ds (length V) d y -> veq y (up (down y)).
  Proof.
    intros H r. unfold up, down, pull. destruct (nth_error V r) as [f|] eqn:E; [rewrite (find_pos_nth f V r HN E); reflexivity|].
    destruct (y r) eqn:Y; [|reflexivity]. apply H in Y. apply nth_error_None in E. lia.
  Qed.
  Lemma down_up x : (forall f, x f = true -> In f V) -> peq x (down (up x)).
  Proof.
    intros H f. unfold up, down, pull. destruct (find_pos f V) as [r|] eqn:E; [rewrite (find_pos_some f V r E); reflexivity|].
    destruct (x f) eqn:X; [|reflexivity]. apply H in X. apply In_nth_error in X. destruct X as (r & X). rewrite (find_pos_nth f V r HN X) in E. discriminate.
  Qed.
  Lemma bd_up x : veq (bd C (up x)) (up (s_bd V x)).
  Proof.
    intro r. unfold up at 2, pull. destruct (nth_error V r) as [f|] eqn:E.
    - rewrite s_bd_in by (eapply nth_error_In; exact E). unfold bd. rewrite HL. rewrite <- (psum_seq _ [] V). apply psum_ext. intros k Hk. apply in_seq in Hk. cbn [plus] in Hk.
      assert (Ek : nth_error V k = Some (nth k V [])) by (apply nth_error_nth'; lia). unfold up, pull. rewrite Ek, (HE r k f _ E Ek). reflexivity.
    - apply nth_error_None in E. apply psum_zero. intros k _. destruct (entry C r k) eqn:X; [apply HO in X; lia|apply andb_false_r].
  Qed.
  Lemma chain_up d x : s_chain V d x -> chain ds (length V) d (up x).
  Proof.
    intros H r Hr. unfold up, pull in Hr. destruct (nth_error V r) as [f|] eqn:E; [|discriminate]. split; [apply nth_error_Some; congruence|]. apply H in Hr. pose proof (HD r f E). lia.
  Qed.
  Lemma chain_down d y : chain ds (length V) d y -> s_chain V d (down y).
  Proof.
    intros H f Hf. unfold down, pull in Hf. destruct (find_pos f V) as [r|] eqn:E; [|discriminate]. apply find_pos_some in E. split; [eapply nth_error_In; exact E|]. apply H in Hf. pose proof (HD r f E). lia.
  Qed.
  Lemma s_bd_support x f : s_bd V x f = true -> In f V.
  Proof. unfold s_bd. destruct (in_dec _ f V); [auto|discriminate]. Qed.
  Lemma up_zero x : (forall f, x f = true -> In f V) -> veq (up x) vzero -> peq x pzero.
  Proof. intros H E f. rewrite (down_up x H f). unfold down, pull. destruct (find_pos f V); [apply E|reflexivity]. Qed.
  Lemma bd_down d y : chain ds (length V) d y -> peq (s_bd V (down y)) (down (bd C y)).
  Proof.
    intros H f. rewrite (down_up (s_bd V (down y)) (s_bd_support _) f). unfold down at 1 3, pull. destruct (find_pos f V) as [r|]; [|reflexivity].
    rewrite <- (bd_up (down y) r). apply (psum_ext (fun k => up (down y) k && entry C r k) (fun k => y k && entry C r k)). intros k _. rewrite (up_down y d H k). reflexivity.
  Qed.
  Lemma cycles_up d x : s_cycles V d x -> cycles C ds (length V) d (up x).
  Proof. intros [H E]. split; [apply chain_up; exact H|]. intro r. rewrite (bd_up x r). unfold up, pull. destruct (nth_error V r); [apply E|reflexivity]. Qed.
  Lemma cycles_down d y : cycles C ds (length V) d y -> s_cycles V d (down y).
  Proof. intros [H E]. split; [apply chain_down; exact H|]. intro f. rewrite (bd_down d y H f). unfold down, pull. destruct (find_pos f V); [apply E|reflexivity]. Qed.
  Lemma boundaries_up d x : s_boundaries V d x -> boundaries C ds (length V) d (up x).
  Proof. intros (y & H & E). exists (up y). split; [apply chain_up; exact H|]. intro r. rewrite (bd_up y r). unfold up, pull. destruct (nth_error V r); [apply E|reflexivity]. Qed.
  Lemma boundaries_down d y : boundaries C ds (length V) d y -> s_boundaries V d (down y).
  Proof. intros (w & H & E). exists (down w). split; [apply chain_down; exact H|]. intro f. rewrite (bd_down _ w H f). unfold down, pull. destruct (find_pos f V); [apply E|reflexivity]. Qed.
  Lemma boundaries_chain d y : boundaries C ds (length V) d y -> forall r, y r = true -> r < length V.
  Proof.
    intros (w & _ & E) r Hr. rewrite (E r) in Hr. rewrite <- HL. destruct (le_lt_dec (length C) r) as [G|G]; [|exact G]. exfalso.
    assert (X : bd C w r = false); [|congruence]. apply psum_zero. intros k _. destruct (entry C r k) eqn:X; [apply HO in X; lia|apply andb_false_r].
  Qed.
  Lemma up_down' y : (forall r, y r = true -> r < length V) -> veq y (up (down y)).
  Proof.
    intros H r. unfold up, down, pull. destruct (nth_error V r) as [f|] eqn:E; [rewrite (find_pos_nth f V r HN E); reflexivity|].
    destruct (y r) eqn:Y; [|reflexivity]. apply H in Y. apply nth_error_None in E. lia.
  Qed.
  Lemma s_boundaries_support d x : s_boundaries V d x -> forall f, x f = true -> In f V.
  Proof. intros (y & _ & E) f Hf. rewrite (E f) in Hf. eapply s_bd_support; exact Hf. Qed.
  Lemma pos_ex f : In f V -> exists r, nth_error V r = Some f.
  Proof. apply In_nth_error. Qed.
  Lemma pos_ex' r : r < length V -> exists f, find_pos f V = Some r.
  Proof. intro H. destruct (nth_error V r) as [f|] eqn:E; [|apply nth_error_None in E; lia]. exists f. apply find_pos_nth; assumption. Qed.
  Lemma dim_cycles d n : p_dim (s_cycles V d) n <-> has_dim (cycles C ds (length V) d) n.
  Proof.
    rewrite <- p_dim_nat. split.
    - apply (p_dim_map (nth_error V)); [apply cycles_up| |].
      + intros y Hy. exists (down y). split; [apply cycles_down; exact Hy|]. apply (up_down y d). apply Hy.
      + intros x f [H _] Hf. apply pos_ex. apply (H f Hf).
    - apply (p_dim_map (fun f => find_pos f V)); [apply cycles_down| |].
      + intros x Hx. exists (up x). split; [apply cycles_up; exact Hx|]. apply down_up. intros f Hf. apply (proj1 Hx f Hf).
      + intros y r [H _] Hr. apply pos_ex'. apply (H r Hr).
  Qed.
  Lemma dim_boundaries d n : p_dim (s_boundaries V d) n <-> has_dim (boundaries C ds (length V) d) n.
  Proof.
    rewrite <- p_dim_nat. split.
    - apply (p_dim_map (nth_error V)); [apply boundaries_up| |].
      + intros y Hy. exists (down y). split; [apply boundaries_down; exact Hy|]. apply up_down'. apply (boundaries_chain d y Hy).
      + intros x f H Hf. apply pos_ex. apply (s_boundaries_support d x H f Hf).
    - apply (p_dim_map (fun f => find_pos f V)); [apply boundaries_down| |].
      + intros x Hx. exists (up x). split; [apply boundaries_up; exact Hx|]. apply down_up. apply (s_boundaries_support d x Hx).
      + intros y r H Hr. apply pos_ex'. apply (boundaries_chain d y H r Hr).
  Qed.
  Lemma s_bd_bd x : (forall y, veq (bd C (bd C y)) vzero) -> peq (s_bd V (s_bd V x)) pzero.
  Proof.
    intro H. apply up_zero; [apply s_bd_support|]. intro r. rewrite <- (bd_up (s_bd V x) r). rewrite <- (H (up x) r). apply (psum_ext (fun k => up (s_bd V x) k && entry C r k) (fun k => bd C (up x) k && entry C r k)). intros k _. rewrite (bd_up x k). reflexivity.
  Qed.
End Link.

(** ** Collapses *)
Section Step.
  Variables (V W : list (list nat)) (s t : list nat).
  Hypothesis HP : Permutation V (s :: t :: W).
  Hypothesis HN : NoDup V.
  Hypothesis HF : facetb t s = true.
  Hypothesis HT : forall u, In u V -> facetb t u = true -> u = s.
  Hypothesis HS : forall u, In u V -> facetb s u = false.
  Hypothesis HX : t <> [].
  Hypothesis HZ : forall x, peq (s_bd V (s_bd V x)) pzero.
  Let e := length t - 1.
  Let Lt : length t = S e.
  Proof. unfold e. destruct t; [contradiction|cbn; lia]. Qed.
  Let Ls : length s = S (S e).
  Proof. apply facetb_iff in HF. rewrite (proj2 HF), Lt. reflexivity. Qed.
  Let Is : In s V.
  Proof. eapply Permutation_in; [apply Permutation_sym; exact HP|left; reflexivity]. Qed.
  Let It : In t V.
  Proof. eapply Permutation_in; [apply Permutation_sym; exact HP|right; left; reflexivity]. Qed.
  Lemma W_iff u : In u W <-> In u V /\ u <> s /\ u <> t.
  Proof.
    assert (N : NoDup (s :: t :: W)) by (eapply Permutation_NoDup; [exact HP|exact HN]). inversion N as [|? ? N1 N2]; subst. inversion N2 as [|? ? N3 N4]; subst. split.
    - intro H. split; [eapply Permutation_in; [apply Permutation_sym; exact HP|right; right; exact H]|]. split; intro E; subst u; [apply N1; right; exact H|apply N3; exact H].
    - intros (H & E1 & E2). apply (Permutation_in _ HP) in H. destruct H as [H|[H|H]]; [congruence|congruence|exact H].
  Qed.
  Lemma bd_t x : s_bd V x t = x s.
  Proof.
    rewrite s_bd_in by exact It. rewrite (psum_perm _ _ _ HP), psum_cons, HF, andb_true_r. rewrite psum_zero; [apply xorb_false_r|].
    intros u Hu. destruct (facetb t u) eqn:F; [|apply andb_false_r]. exfalso.
    assert (N : NoDup (s :: t :: W)) by (eapply Permutation_NoDup; [exact HP|exact HN]). inversion N as [|? ? N1 N2]; subst.
    apply N1. rewrite <- (HT u); [exact Hu| |exact F]. eapply Permutation_in; [apply Permutation_sym; exact HP|right; exact Hu].
  Qed.
  Lemma bd_s x : s_bd V x s = false.
  Proof. rewrite s_bd_in by exact Is. apply psum_zero. intros u Hu. rewrite (HS u Hu). apply andb_false_r. Qed.
  (** chains which avoid the pair have the same boundary *)
  Lemma bd_W x : x s = false -> x t = false -> peq (s_bd V x) (s_bd W x).
  Proof.
    intros Xs Xt f. destruct (in_dec (list_eq_dec Nat.eq_dec) f W) as [H|H].
    - rewrite (s_bd_in W) by exact H. rewrite s_bd_in by (apply W_iff in H; apply H). rewrite (psum_perm _ _ _ HP), !psum_cons, Xs, Xt. cbn [andb]. rewrite !xorb_false_l. reflexivity.
    - rewrite (s_bd_out W) by exact H. destruct (in_dec (list_eq_dec Nat.eq_dec) f V) as [I|I]; [|apply s_bd_out; exact I].
      destruct (list_eq_dec Nat.eq_dec f s) as [->|Ns]; [apply bd_s|]. destruct (list_eq_dec Nat.eq_dec f t) as [->|Nt]; [rewrite bd_t; exact Xs|]. exfalso. apply H, W_iff. auto.
  Qed.
  Lemma chain_W d x : s_chain W d x <-> s_chain V d x /\ x s = false /\ x t = false.
  Proof.
    split.
    - intro H. split; [intros u Hu; destruct (H u Hu) as [A B]; split; [apply W_iff in A; apply A|exact B]|].
      split; [destruct (x s) eqn:E|destruct (x t) eqn:E]; try reflexivity; apply H in E; destruct E as [E _]; apply W_iff in E; destruct E as (_ & E1 & E2); easy.
    - intros (H & Xs & Xt) u Hu. destruct (H u Hu) as [A B]. split; [|exact B]. apply W_iff. split; [exact A|]. split; intros ->; congruence.
  Qed.
  Lemma chain_s d x : s_chain V d x -> d <> S e -> x s = false.
  Proof. intros H N. destruct (x s) eqn:E; [|reflexivity]. apply H in E. lia. Qed.
  Lemma chain_t d x : s_chain V d x -> d <> e -> x t = false.
  Proof. intros H N. destruct (x t) eqn:E; [|reflexivity]. apply H in E. lia. Qed.
  Lemma chain_add d x y : s_chain V d x -> s_chain V d y -> s_chain V d (padd x y).
  Proof. intros H1 H2 u Hu. unfold padd in Hu. destruct (x u) eqn:X; [apply H1; exact X|]. apply H2. destruct (y u); [reflexivity|discriminate]. Qed.
  Let one : list nat -> bool := fun u => if list_eq_dec Nat.eq_dec u s then true else false.
  Let ds := s_bd V one.
  Lemma one_chain : s_chain V (S e) one.
  Proof. intros u Hu. unfold one in Hu. destruct (list_eq_dec Nat.eq_dec u s) as [->|]; [|discriminate]. split; [exact Is|exact Ls]. Qed.
  Lemma one_s : one s = true.
  Proof. unfold one. destruct (list_eq_dec Nat.eq_dec s s); [reflexivity|easy]. Qed.
  Lemma one_t : one t = false.
  Proof. unfold one. destruct (list_eq_dec Nat.eq_dec t s) as [E|]; [|reflexivity]. rewrite E in Lt. lia. Qed.
  Lemma ds_t : ds t = true.
  Proof. unfold ds. rewrite bd_t. apply one_s. Qed.
  Lemma ds_s : ds s = false.
  Proof. apply bd_s. Qed.
  Lemma bd_chain d x : s_chain V (S d) x -> s_chain V d (s_bd V x).
  Proof.
    intros H f Hf. assert (I : In f V) by (apply (s_bd_support V x f Hf)). split; [exact I|]. rewrite s_bd_in in Hf by exact I.
    destruct (Nat.eq_dec (length f) (S d)) as [E|N]; [exact E|]. rewrite psum_zero in Hf; [discriminate|]. intros u _. destruct (x u) eqn:X; [|reflexivity]. destruct (facetb f u) eqn:F; [|reflexivity]. exfalso. apply H in X. apply facetb_iff in F. lia.
  Qed.
  Lemma ds_chain : s_chain V e ds.
  Proof. apply bd_chain, one_chain. Qed.

  Lemma cycles_other d : d <> e -> forall x, s_cycles W d x <-> s_cycles V d x.
  Proof.
    intros N x. split.
    - intros [H E]. apply chain_W in H. destruct H as (H & Xs & Xt). split; [exact H|]. intro f. rewrite (bd_W x Xs Xt f). apply E.
    - intros [H E]. assert (Xt : x t = false) by (apply (chain_t d); auto). assert (Xs : x s = false) by (rewrite <- (bd_t x); apply E).
      split; [apply chain_W; auto|]. intro f. rewrite <- (bd_W x Xs Xt f). apply E.
  Qed.
  Lemma boundaries_other d : d <> e -> forall x, s_boundaries W d x <-> s_boundaries V d x.
  Proof.
    intros N x. split.
    - intros (y & H & E). apply chain_W in H. destruct H as (H & Xs & Xt). exists y. split; [exact H|]. intro f. rewrite (bd_W y Xs Xt f). apply E.
    - intros (y & H & E). assert (Xs : y s = false) by (apply (chain_s (S d)); auto). destruct (y t) eqn:Xt.
      + assert (De : S d = e) by (apply H in Xt; lia). exists (padd y ds).
        assert (Ys : padd y ds s = false) by (unfold padd; rewrite Xs, ds_s; reflexivity). assert (Yt : padd y ds t = false) by (unfold padd; rewrite Xt, ds_t; reflexivity).
        split; [apply chain_W; split; [apply chain_add; [exact H|rewrite De; exact ds_chain]|auto]|].
        intro f. rewrite <- (bd_W _ Ys Yt f), (s_bd_add V y ds f). unfold padd. unfold ds. rewrite (HZ one f). unfold pzero. rewrite xorb_false_r. apply E.
      + exists y. split; [apply chain_W; auto|]. intro f. rewrite <- (bd_W y Xs Xt f). apply E.
  Qed.
  Lemma cycles_same x : s_cycles V e x <-> exists (c : bool) w, s_cycles W e w /\ peq x (padd w (if c then ds else pzero)).
  Proof.
    split.
    - intros [H E]. exists (x t), (padd x (if x t then ds else pzero)). assert (Xs : x s = false) by (apply (chain_s e); [exact H|lia]). split.
      + assert (A : s_chain V e (padd x (if x t then ds else pzero))) by (apply chain_add; [exact H|destruct (x t); [exact ds_chain|intros u Hu; discriminate Hu]]).
        assert (Ys : padd x (if x t then ds else pzero) s = false) by (unfold padd; rewrite Xs; destruct (x t); [rewrite ds_s|]; reflexivity).
        assert (Yt : padd x (if x t then ds else pzero) t = false) by (unfold padd; destruct (x t); [rewrite ds_t|]; reflexivity).
        split; [apply chain_W; auto|]. intro f. rewrite <- (bd_W _ Ys Yt f), (s_bd_add V x _ f). unfold padd. rewrite (E f). destruct (x t); [unfold ds; rewrite (HZ one f); reflexivity|].
        unfold pzero at 1. rewrite xorb_false_l. destruct (in_dec (list_eq_dec Nat.eq_dec) f V) as [I|I]; [rewrite s_bd_in by exact I; apply psum_zero; intros; reflexivity|apply s_bd_out; exact I].
      + intro f. unfold padd, pzero. destruct (x t), (x f); try destruct (ds f); reflexivity.
    - intros (c & w & [H E] & Ex). apply chain_W in H. destruct H as (H & Ws & Wt). split.
      + intros u Hu. rewrite (Ex u) in Hu. apply (chain_add e w (if c then ds else pzero)); [exact H| |exact Hu]. destruct c; [exact ds_chain|intros v Hv; discriminate Hv].
      + intro f. rewrite (s_bd_ext V x _ Ex f), (s_bd_add V w _ f). unfold padd. rewrite (bd_W w Ws Wt f), (E f). destruct c; [unfold ds; rewrite (HZ one f); reflexivity|].
        unfold pzero at 1. rewrite xorb_false_l. destruct (in_dec (list_eq_dec Nat.eq_dec) f V) as [I|I]; [rewrite s_bd_in by exact I; apply psum_zero; intros; reflexivity|apply s_bd_out; exact I].
  Qed.
  Lemma bd_pzero f : s_bd V pzero f = false.
  Proof. destruct (in_dec (list_eq_dec Nat.eq_dec) f V) as [I|I]; [rewrite s_bd_in by exact I; apply psum_zero; intros; reflexivity|apply s_bd_out; exact I]. Qed.
  Lemma boundaries_same x : s_boundaries V e x <-> exists (c : bool) w, s_boundaries W e w /\ peq x (padd w (if c then ds else pzero)).
  Proof.
    split.
    - intros (y & H & E). set (y' := padd y (if y s then one else pzero)). assert (Yt' : y t = false) by (apply (chain_t (S e)); [exact H|lia]).
      assert (A : s_chain V (S e) y') by (apply chain_add; [exact H|destruct (y s); [exact one_chain|intros u Hu; discriminate Hu]]).
      assert (Ys : y' s = false) by (unfold y', padd; destruct (y s); [rewrite one_s|]; reflexivity).
      assert (Yt : y' t = false) by (unfold y', padd; rewrite Yt'; destruct (y s); [rewrite one_t|]; reflexivity).
      exists (y s), (s_bd W y'). split; [exists y'; split; [apply chain_W; auto|intro f; reflexivity]|].
      intro f. rewrite (E f). unfold padd at 1. rewrite <- (bd_W y' Ys Yt f). unfold y'. rewrite (s_bd_add V y _ f). unfold padd. destruct (y s); [unfold ds|rewrite bd_pzero; unfold pzero]; destruct (s_bd V y f); try destruct (s_bd V one f); reflexivity.
    - intros (c & w & (y & H & E) & Ex). apply chain_W in H. destruct H as (H & Ws & Wt). exists (padd y (if c then one else pzero)). split.
      + apply chain_add; [exact H|]. destruct c; [exact one_chain|intros v Hv; discriminate Hv].
      + intro f. rewrite (Ex f). unfold padd at 1. rewrite (E f), <- (bd_W y Ws Wt f), (s_bd_add V y _ f). unfold padd. destruct c; [reflexivity|rewrite bd_pzero; reflexivity].
  Qed.
  Lemma cycles_W_t d w : s_cycles W d w -> w t = false.
  Proof. intros [H _]. apply chain_W in H. apply H. Qed.
  Lemma W_zero f : s_bd W pzero f = false.
  Proof. destruct (in_dec (list_eq_dec Nat.eq_dec) f W) as [I|I]; [rewrite s_bd_in by exact I; apply psum_zero; intros; reflexivity|apply s_bd_out; exact I]. Qed.
  Lemma step_dims d z b : p_dim (s_cycles W d) z -> p_dim (s_boundaries W d) b ->
    exists k, p_dim (s_cycles V d) (k + z) /\ p_dim (s_boundaries V d) (k + b).
  Proof.
    intros Hz Hb. destruct (Nat.eq_dec d e) as [->|N].
    - exists 1. split.
      + apply (p_dim_plus _ (s_cycles W e) ds t); [apply cycles_same| |apply cycles_W_t|apply ds_t|exact Hz]. split; [intros u Hu; discriminate Hu|intro f; apply W_zero].
      + apply (p_dim_plus _ (s_boundaries W e) ds t); [apply boundaries_same| | |apply ds_t|exact Hb].
        * exists pzero. split; [intros u Hu; discriminate Hu|intro f; rewrite W_zero; reflexivity].
        * intros w (y & H & E). rewrite (E t). apply s_bd_out. intro I. apply W_iff in I. destruct I as (_ & _ & I). easy.
    - exists 0. split; [eapply p_dim_ext; [apply cycles_other; exact N|exact Hz]|eapply p_dim_ext; [apply boundaries_other; exact N|exact Hb]].
  Qed.
End Step.

(** ** Complexes *)
Lemma matrix_link K : reachable K -> closed (by_index K) -> filtration_order (by_index K) -> exists M, makeBoundaryMatrix K 0 = Ok M /\ valid_boundary (cols M) (dims M) /\
  length (cols M) = length (map verts (by_index K)) /\
  (forall r f, nth_error (map verts (by_index K)) r = Some f -> S (nth r (dims M) 0) = length f) /\
  (forall r k f s, nth_error (map verts (by_index K)) r = Some f -> nth_error (map verts (by_index K)) k = Some s -> entry (cols M) r k = facetb f s) /\
  (forall r k, entry (cols M) r k = true -> r < length (cols M)).
Proof.
  intros HR HC HF. pose proof (reachable_kwf K HR) as HK. destruct (C09_boundary_matrix K HR HC HF) as (M & EM & _ & EL & HM & HV). exists M. split; [exact EM|]. split; [exact HV|].
  split; [rewrite map_length; exact EL|]. split; [|split].
  - intros r f H. rewrite nth_error_map in H. destruct (nth_error (by_index K) r) as [s|] eqn:E; [|discriminate]. injection H as <-. destruct (HM r s E) as [D _].
    unfold getDimension, at_ in D. unfold s_dimension in D. destruct (nth_error (dims M) r) as [d|] eqn:F; [|destruct (verts s); discriminate].
    rewrite (nth_error_nth _ _ _ F). destruct (verts s) as [|v l]; [discriminate|]. injection D as ->. reflexivity.
  - intros r k f s Hr Hk. rewrite nth_error_map in Hr, Hk. destruct (nth_error (by_index K) r) as [a|] eqn:Ea; [|discriminate]. destruct (nth_error (by_index K) k) as [b|] eqn:Eb; [|discriminate]. injection Hr as <-. injection Hk as <-.
    destruct (HM k b Eb) as (_ & c & Ec & _ & _ & Hc). unfold getColumn, at_ in Ec. destruct (nth_error (cols M) k) as [c'|] eqn:Ek; [|discriminate]. injection Ec as ->.
    apply eq_true_iff_eq. rewrite facetb_iff. unfold entry. rewrite (nth_error_nth _ _ _ Ek). rewrite existsb_exists. split.
    + intros (x & Hx & E). apply Nat.eqb_eq in E. subst x. apply Hc in Hx. destruct Hx as (t & Et & H1 & H2). rewrite Ea in Et. injection Et as <-. split; [exact H1|lia].
    + intros [H1 H2]. exists r. split; [|apply Nat.eqb_refl]. apply Hc. exists a. split; [exact Ea|]. split; [exact H1|lia].
  - intros r k H. apply (entry_square (cols M) r k); [|exact H]. apply (HB_square (cols M) (dims M) HV).
Qed.

(** the Betti numbers of the matrix are those of the complex *)
Lemma betti_link K : reachable K -> closed (by_index K) -> filtration_order (by_index K) -> exists M, makeBoundaryMatrix K 0 = Ok M /\
  (forall d z, p_dim (s_cycles (map verts (by_index K)) d) z <-> has_dim (cycles (cols M) (dims M) (k_size K) d) z) /\
  (forall d z, p_dim (s_boundaries (map verts (by_index K)) d) z <-> has_dim (boundaries (cols M) (dims M) (k_size K) d) z) /\
  forall x, peq (s_bd (map verts (by_index K)) (s_bd (map verts (by_index K)) x)) pzero.
Proof.
  intros HR HC HF. pose proof (kwf_nodup K (reachable_kwf K HR)) as HN. destruct (matrix_link K HR HC HF) as (M & EM & HV & L & D & E & O). exists M. split; [exact EM|].
  assert (S : k_size K = length (map verts (by_index K))) by (rewrite map_length; reflexivity). rewrite S. split; [|split].
  - intros d z. apply dim_cycles; assumption.
  - intros d z. apply dim_boundaries; assumption.
  - intro x. apply (s_bd_bd _ (cols M)); try assumption. intro y. apply (bd_bd (cols M) (dims M) HV).
Qed.

Lemma closed_perm L P : Permutation L P -> closed L -> closed P.
Proof.
  intros H C s vs Hs N S. destruct (C s vs) as (u & Hu & E); [eapply Permutation_in; [apply Permutation_sym; exact H|exact Hs]|exact N|exact S|]. exists u. split; [eapply Permutation_in; [exact H|exact Hu]|exact E].
Qed.
Definition by_length (a b : simplex) : bool := length (verts a) <? length (verts b).
Lemma by_length_swo : swo by_length.
Proof. unfold swo, by_length. repeat split; intros; rewrite ?Nat.ltb_ge, ?Nat.ltb_lt in *; lia. Qed.
(** any complex can be put into filtration order *)
Lemma sorted_complex K : kwf K -> closed (by_index K) -> exists P, reachable P /\ Permutation (by_index P) (by_index K) /\ closed (by_index P) /\ filtration_order (by_index P).
Proof.
  intros HK HC. pose proof (cpp_sort_perm by_length (by_index K)) as HP. set (L := cpp_sort by_length (by_index K)) in *.
  destruct (insert_into_new L) as (P & _ & HR & EP).
  - intros s Hs. apply (kwf_good K HK). eapply Permutation_in; [exact HP|exact Hs].
  - eapply Permutation_NoDup; [apply Permutation_map, Permutation_sym, HP|]. apply kwf_nodup; exact HK.
  - exists P. rewrite EP. split; [exact HR|]. split; [exact HP|]. split; [eapply closed_perm; [apply Permutation_sym; exact HP|exact HC]|].
    intros i j s t Hi Hj [S NS]. pose proof (reachable_kwf P HR) as HK'.
    assert (Ws : wf s) by (apply (kwf_good P HK'); rewrite EP; eapply nth_error_In; exact Hi). assert (Wt : wf t) by (apply (kwf_good P HK'); rewrite EP; eapply nth_error_In; exact Hj).
    assert (Q : length (verts t) < length (verts s)).
    { pose proof (subset_length _ _ Wt S). destruct (Nat.eq_dec (length (verts t)) (length (verts s))) as [E|]; [|lia]. exfalso. apply NS. intros v Hv. apply (NoDup_length_incl (l' := verts s) (SSgt_NoDup _ Wt)); [lia|exact S|exact Hv]. }
    destruct (lt_eq_lt_dec i j) as [[G|G]|G]; [|subst j; rewrite Hi in Hj; injection Hj as ->; lia|exact G]. exfalso.
    pose proof (StronglySorted_nth _ _ _ _ _ _ (cpp_sort_sorted by_length (by_index K) by_length_swo) G Hi Hj) as X. cbn beta in X. unfold by_length in X. apply Nat.ltb_ge in X. lia.
Qed.

Lemma betti_facts K : kwf K -> closed (by_index K) ->
  (forall x, peq (s_bd (map verts (by_index K)) (s_bd (map verts (by_index K)) x)) pzero) /\
  (forall d, exists n, simplicial_betti (by_index K) d n) /\
  (forall d n m, simplicial_betti (by_index K) d n -> simplicial_betti (by_index K) d m -> n = m).
Proof.
  intros HK HC. destruct (sorted_complex K HK HC) as (P & HR & HP & HCP & HF). destruct (betti_link P HR HCP HF) as (M & EM & Hz & Hb & HZ). split; [|split].
  - intros x f. pose proof (Permutation_map verts HP) as Q. rewrite <- (HZ x f). rewrite <- (s_bd_perm _ _ (s_bd (map verts (by_index K)) x) Q f). apply s_bd_ext. intro g. symmetry. apply s_bd_perm. exact Q.
  - intro d. destruct (C17_complex (fun l => l) AStandard P) as (M' & p & EM' & _ & _ & B); [intro; apply Permutation_refl|exact HR|exact HCP|exact HF|].
    rewrite EM in EM'. injection EM' as <-. destruct (B d) as (z & b & H1 & H2 & E). eexists. apply (simplicial_betti_perm _ _ _ _ HP). exists z, b. split; [apply Hz; exact H1|]. split; [apply Hb; exact H2|exact E].
  - intros d n m H1 H2. apply (simplicial_betti_perm _ _ _ _ (Permutation_sym HP)) in H1. apply (simplicial_betti_perm _ _ _ _ (Permutation_sym HP)) in H2.
    destruct H1 as (z & b & A & B & E). destruct H2 as (z' & b' & A' & B' & E'). apply Hz in A. apply Hz in A'. apply Hb in B. apply Hb in B'.
    pose proof (has_dim_unique _ _ _ A A'). pose proof (has_dim_unique _ _ _ B B'). lia.
Qed.

Lemma collapse_betti K L d n : kwf K -> closed (by_index K) -> elementary_collapse (by_index K) L ->
  simplicial_betti L d n -> simplicial_betti (by_index K) d n.
Proof.
  intros HK HC (s & t & A & B & D & Hf & -> & E) (z & b & Hz & Hb & En). pose proof (free_adm_ok K s t HK HC Hf) as Ha. pose proof Ha as (Hs & Ht & Hst & Hu).
  destruct (stored_good K s HK Hs) as [Ws Ns]. destruct (stored_good K t HK Ht) as [Wt Nt].
  assert (HP : Permutation (map verts (by_index K)) (verts s :: verts t :: map verts (A ++ B ++ D))).
  { change (Permutation (map verts (by_index K)) (map verts (s :: t :: A ++ B ++ D))). apply Permutation_map. destruct E as [-> | ->].
    - eapply perm_trans; [apply Permutation_sym, Permutation_middle|]. constructor. rewrite app_assoc. eapply perm_trans; [apply Permutation_sym, Permutation_middle|]. rewrite <- app_assoc. apply Permutation_refl.
    - eapply perm_trans; [apply Permutation_sym, Permutation_middle|]. eapply perm_trans; [|apply perm_swap]. constructor. rewrite app_assoc. eapply perm_trans; [apply Permutation_sym, Permutation_middle|]. rewrite <- app_assoc. apply Permutation_refl. }
  destruct (step_dims (map verts (by_index K)) (map verts (A ++ B ++ D)) (verts s) (verts t) HP) with (d := d) (z := z) (b := b) as (k & H1 & H2).
  - apply kwf_nodup; exact HK.
  - apply facetb_iff. exact Hst.
  - intros u Iu F. apply in_map_iff in Iu. destruct Iu as (u' & <- & Iu). apply Hu; [exact Iu|]. apply facetb_iff in F. exact F.
  - intros u Iu. destruct (facetb (verts s) u) eqn:F; [|reflexivity]. exfalso. apply in_map_iff in Iu. destruct Iu as (u' & <- & Iu). apply facetb_iff in F. destruct F as [F1 F2]. destruct Hst as [G1 G2].
    destruct (adm_ok_coface K s t u' HK HC Ha Iu) as [X|X]; [intros v Hv; apply F1, G1, Hv|rewrite X in F2; lia|rewrite X in F2; lia].
  - exact Nt.
  - apply betti_facts; assumption.
  - exact Hz.
  - exact Hb.
  - exists (k + z), (k + b). split; [exact H1|]. split; [exact H2|]. lia.
Qed.

Lemma collapses_betti L1 L2 : collapses L1 L2 -> forall K, by_index K = L1 -> kwf K -> closed (by_index K) -> forall d n, simplicial_betti L2 d n -> simplicial_betti L1 d n.
Proof.
  induction 1 as [|L1 L L2 Hs _ IH]; auto. intros K E HK Hc d n H. subst L1. destruct (step_kwf K L HK Hc Hs) as (K' & E' & W & Cl).
  apply (collapse_betti K L); auto. apply (IH K'); auto. rewrite E'. exact Cl.
Qed.
