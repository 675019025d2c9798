(** * Homology of initial parts of a filtration. *)
From Coq Require Import List Arith Bool ZArith Lia Permutation.
From Verif Require Import Base Simplex SimplexFacts SpecComplex Complex ComplexFacts FiltrationFacts SubcomplexFacts History Matrix SpecMatrix ReductionFacts SpecHomology HomologyFacts PropertiesHomology
  SpecSimplicial SimplicialFacts.
Import ListNotations.

Section Prefix.
  Variables (V : list (list nat)) (C : list (list nat)) (ds : list nat).
  Hypothesis HN : NoDup V.
  Hypothesis HL : length C = length V.
  Hypothesis HD : forall r f, nth_error V r = Some f -> S (nth r ds 0) = length f.
  Hypothesis HE : forall r k f s, nth_error V r = Some f -> nth_error V k = Some s -> entry C r k = facetb f s.
  Hypothesis HO : forall r k, entry C r k = true -> r < length C.
  Hypothesis HP : forall r k, entry C r k = true -> r < k.
  Let up (x : list nat -> bool) : vec := pull (nth_error V) x.
  Let down (y : vec) : list nat -> bool := pull (fun f => find_pos f V) y.

  Lemma in_prefix i f : In f (firstn i V) <-> exists r, r < i /\ nth_error V r = Some f.
  Proof.
    split.
    - intro H. apply In_nth_error in H. destruct H as (r & H). destruct (le_lt_dec i r) as [G|G]; [rewrite (proj2 (nth_error_None _ _)) in H; [discriminate|rewrite firstn_length; lia]|].
      exists r. split; [exact G|]. rewrite <- (firstn_skipn i V), nth_error_app1; [exact H|]. apply nth_error_Some. congruence.
    - intros (r & G & H). assert (r < length V) by (apply nth_error_Some; congruence). rewrite <- (firstn_skipn i V), nth_error_app1 in H by (rewrite firstn_length; lia). eapply nth_error_In. exact H.
  Qed.
  Lemma prefix_in i f : In f (firstn i V) -> In f V.
  Proof. intro H. apply in_prefix in H. destruct H as (r & _ & H). eapply nth_error_In. exact H. Qed.
  Lemma position i r f : nth_error V r = Some f -> In f (firstn i V) -> r < i.
  Proof.
    intros H I. apply in_prefix in I. destruct I as (k & G & K). replace r with k; [exact G|]. apply (proj1 (NoDup_nth_error V) HN); [apply nth_error_Some; congruence|congruence].
  Qed.
  Lemma rest_out i f : In f (skipn i V) -> ~ In f (firstn i V).
  Proof.
    intros H I. apply In_nth_error in H. destruct H as (k & H). assert (L : length (firstn i V) = Nat.min i (length V)) by apply firstn_length.
    assert (E : nth_error V (i + k) = Some f). { clear - H. revert i H. induction V as [|a l IH]; intros i H; [destruct i, k; discriminate|]. destruct i as [|i]; [exact H|]. cbn in *. apply IH. exact H. }
    pose proof (position i _ f E I). lia.
  Qed.
  Lemma prefix_bd i x : (forall f, x f = true -> In f (firstn i V)) -> peq (s_bd (firstn i V) x) (s_bd V x).
  Proof.
    intros H f. destruct (in_dec (list_eq_dec Nat.eq_dec) f (firstn i V)) as [I|I].
    - rewrite s_bd_in by exact I. rewrite s_bd_in by (apply (prefix_in i); exact I). rewrite <- (firstn_skipn i V) at 2. unfold psum. rewrite fold_right_app.
      fold (psum (fun s => x s && facetb f s) (skipn i V)). rewrite (psum_zero _ (skipn i V)); [reflexivity|]. intros s Hs. destruct (x s) eqn:X; [|reflexivity]. apply H in X. apply rest_out in Hs. contradiction.
    - rewrite s_bd_out by exact I. symmetry. destruct (in_dec (list_eq_dec Nat.eq_dec) f V) as [J|J]; [|apply s_bd_out; exact J]. rewrite s_bd_in by exact J. apply psum_zero. intros s Hs.
      destruct (x s) eqn:X; [|reflexivity]. destruct (facetb f s) eqn:F; [|reflexivity]. exfalso. apply I. apply H in X. apply in_prefix in X. destruct X as (k & Gk & Ek). apply In_nth_error in J. destruct J as (r & Er).
      apply in_prefix. exists r. split; [|exact Er]. rewrite <- (HE r k f s Er Ek) in F. apply HP in F. lia.
  Qed.
  Lemma up_prefix i x : (forall f, x f = true -> In f (firstn i V)) -> forall r, up x r = true -> r < i.
  Proof. intros H r Hr. unfold up, pull in Hr. destruct (nth_error V r) as [f|] eqn:E; [|discriminate]. apply (position i r f E). apply H. exact Hr. Qed.
  Lemma down_prefix i y : (forall r, y r = true -> r < i) -> forall f, down y f = true -> In f (firstn i V).
  Proof. intros H f Hf. unfold down, pull in Hf. destruct (find_pos f V) as [r|] eqn:E; [|discriminate]. apply find_pos_some in E. apply in_prefix. exists r. split; [apply H; exact Hf|exact E]. Qed.
  Lemma chain_prefix i d x : s_chain (firstn i V) d x <-> s_chain V d x /\ forall f, x f = true -> In f (firstn i V).
  Proof.
    split; [intro H; split; intros f Hf; [split; [apply (prefix_in i)|]; apply (H f Hf)|apply (H f Hf)]|]. intros [H G] f Hf. split; [apply G; exact Hf|apply (H f Hf)].
  Qed.
  Lemma chain_upto i d y : i <= length V -> (chain ds i d y <-> chain ds (length V) d y /\ forall r, y r = true -> r < i).
  Proof. intro Hi. split; [intro H; split; intros r Hr; destruct (H r Hr); [split; [lia|assumption]|assumption]|]. intros [H G] r Hr. split; [apply G; exact Hr|apply (H r Hr)]. Qed.

  Lemma cycles_up_prefix i d x : i <= length V -> s_cycles (firstn i V) d x -> cycles C ds i d (up x).
  Proof.
    intros Hi [H E]. apply chain_prefix in H. destruct H as [H G]. destruct (cycles_up V C ds HL HD HE HO d x) as [A B]; [split; [exact H|intro f; rewrite <- (prefix_bd i x G f); apply E]|].
    split; [apply (chain_upto i d _ Hi); split; [exact A|apply up_prefix; exact G]|exact B].
  Qed.
  Lemma cycles_down_prefix i d y : i <= length V -> cycles C ds i d y -> s_cycles (firstn i V) d (down y).
  Proof.
    intros Hi [H E]. apply (chain_upto i d y Hi) in H. destruct H as [H G]. destruct (cycles_down V C ds HN HL HD HE HO d y) as [A B]; [split; assumption|].
    assert (S : forall f, down y f = true -> In f (firstn i V)) by (apply down_prefix; exact G). split; [apply chain_prefix; split; [exact A|exact S]|]. intro f. rewrite (prefix_bd i _ S f). apply B.
  Qed.
  Lemma boundaries_up_prefix j d x : j <= length V -> s_boundaries (firstn j V) d x -> boundaries C ds j d (up x).
  Proof.
    intros Hj (y & H & E). apply chain_prefix in H. destruct H as [H G]. exists (up y). split; [apply (chain_upto j _ _ Hj); split; [apply (chain_up V C ds HL HD); exact H|apply up_prefix; exact G]|].
    intro r. unfold up. rewrite (bd_up V C HL HE HO y r). unfold pull. destruct (nth_error V r) as [f|]; [|reflexivity]. rewrite (E f). apply prefix_bd. exact G.
  Qed.
  Lemma boundaries_down_prefix j d y : j <= length V -> boundaries C ds j d y -> s_boundaries (firstn j V) d (down y).
  Proof.
    intros Hj (w & H & E). apply (chain_upto j _ w Hj) in H. destruct H as [H G]. exists (down w). assert (S : forall f, down w f = true -> In f (firstn j V)) by (apply down_prefix; exact G).
    split; [apply chain_prefix; split; [apply (chain_down V C ds HL HD); exact H|exact S]|]. intro f. rewrite (prefix_bd j _ S f). unfold down. rewrite (bd_down V C ds HN HL HE HO _ w H f). unfold pull. destruct (find_pos f V); [apply E|reflexivity].
  Qed.
  Lemma dim_cycles_prefix i d n : i <= length V -> (p_dim (s_cycles (firstn i V) d) n <-> has_dim (cycles C ds i d) n).
  Proof.
    intro Hi. rewrite <- p_dim_nat. split.
    - apply (p_dim_map (nth_error V)); [intros x; apply (cycles_up_prefix i d x Hi)| |].
      + intros y Hy. exists (down y). split; [apply cycles_down_prefix; assumption|]. apply (up_down' V C HN HL). intros r Hr. destruct (proj1 Hy r Hr). lia.
      + intros x f [H _] Hf. apply (pos_ex V). apply (prefix_in i). apply (H f Hf).
    - apply (p_dim_map (fun f => find_pos f V)); [intros y; apply (cycles_down_prefix i d y Hi)| |].
      + intros x Hx. exists (up x). split; [apply cycles_up_prefix; assumption|]. apply (down_up V HN). intros f Hf. apply (prefix_in i). apply (proj1 Hx f Hf).
      + intros y r [H _] Hr. apply (pos_ex' V C HN HL). destruct (H r Hr). lia.
  Qed.
  Lemma dim_both_prefix i j d n : i <= length V -> j <= length V ->
    (p_dim (fun x => s_cycles (firstn i V) d x /\ s_boundaries (firstn j V) d x) n <-> has_dim (fun y => cycles C ds i d y /\ boundaries C ds j d y) n).
  Proof.
    intros Hi Hj. rewrite <- p_dim_nat. split.
    - apply (p_dim_map (nth_error V)).
      + intros x [H G]. split; [apply cycles_up_prefix|apply boundaries_up_prefix]; assumption.
      + intros y [H G]. exists (down y). split; [split; [apply cycles_down_prefix|apply boundaries_down_prefix]; assumption|]. apply (up_down' V C HN HL). intros r Hr. destruct (proj1 H r Hr). lia.
      + intros x f [[H _] _] Hf. apply (pos_ex V). apply (prefix_in i). apply (H f Hf).
    - apply (p_dim_map (fun f => find_pos f V)).
      + intros y [H G]. split; [apply cycles_down_prefix|apply boundaries_down_prefix]; assumption.
      + intros x [H G]. exists (up x). split; [split; [apply cycles_up_prefix|apply boundaries_up_prefix]; assumption|]. apply (down_up V HN). intros f Hf. apply (prefix_in i). apply (proj1 H f Hf).
      + intros y r [[H _] _] Hr. apply (pos_ex' V C HN HL). destruct (H r Hr). lia.
  Qed.
End Prefix.
