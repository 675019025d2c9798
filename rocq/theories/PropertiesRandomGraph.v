(** * Random graphs. *)
From Coq Require Import List Arith Bool ZArith Lia Sorted Permutation.
From Verif Require Import Base BaseFacts Simplex SimplexFacts SpecComplex Complex ComplexFacts FiltrationFacts EnumerateFacts FloydFacts RipsFacts BottleneckFacts PropertiesDescriptors RandomGraph.
Import ListNotations.

Definition edge_of (w : nat) (e : nat * nat) : simplex := Simplex [snd e; fst e] (Z.of_nat w).

Lemma simplex_of_edge u v d : u < v -> simplex_of [u; v] d = Simplex [v; u] d.
Proof.
  intro H. unfold simplex_of. f_equal. assert (E : cpp_sort greater [u; v] = [v; u]).
  { cbn [cpp_sort insert_sorted]. unfold greater. destruct (Nat.ltb_spec u v); [reflexivity|lia]. }
  rewrite E. cbn [cpp_unique]. destruct (Nat.eqb_spec v u); [lia|reflexivity].
Qed.

Lemma graph_nodup n es : NoDup es -> (forall e, In e es -> fst e < snd e < n) -> forall f,
  NoDup (map verts (map (fun i => simplex_vertex i 0) (seq 0 n) ++ map (fun e => Simplex [snd e; fst e] (f e)) es)).
Proof.
  intros Hn Hl f. rewrite map_app, !map_map. apply NoDup_app_intro.
  - apply NoDup_map_inj; [apply seq_NoDup|]. intros x y _ _ E. cbn in E. injection E as ->. reflexivity.
  - apply NoDup_map_inj; [exact Hn|]. intros [a b] [c d] _ _ E. cbn in E. injection E as -> ->. reflexivity.
  - intros vs H1 H2. apply in_map_iff in H1. apply in_map_iff in H2. destruct H1 as (i & <- & _), H2 as (e & E & _). discriminate.
Qed.
Lemma graph_good n es : (forall e, In e es -> fst e < snd e < n) -> forall f s,
  In s (map (fun i => simplex_vertex i 0) (seq 0 n) ++ map (fun e => Simplex [snd e; fst e] (f e)) es) -> good s.
Proof.
  intros Hl f s Hs. apply in_app_or in Hs. destruct Hs as [Hs|Hs]; apply in_map_iff in Hs.
  - destruct Hs as (i & <- & _). split; [unfold wf; cbn; repeat constructor|discriminate].
  - destruct Hs as (e & <- & He). apply Hl in He. split; [unfold wf; cbn; repeat constructor; lia|discriminate].
Qed.

(** ** C121: graphs with independent edges *)
Fixpoint chosen {A} (draw : nat -> bool) (k : nat) (l : list A) : list A :=
  match l with [] => [] | a :: l => if draw k then a :: chosen draw (S k) l else chosen draw (S k) l end.

Lemma chosen_in {A} draw (l : list A) : forall k a, In a (chosen draw k l) <-> exists i, nth_error l i = Some a /\ draw (k + i) = true.
Proof.
  induction l as [|b l IH]; intros k a; cbn [chosen]; [split; [intros []|intros ([|i] & H & _); discriminate]|].
  assert (T : In a (chosen draw (S k) l) <-> exists i, nth_error (b :: l) (S i) = Some a /\ draw (k + S i) = true).
  { rewrite IH. split; intros (i & H1 & H2); exists i; (split; [exact H1|]); [rewrite <- plus_n_Sm|rewrite <- plus_n_Sm in H2]; exact H2. }
  destruct (draw k) eqn:D.
  - cbn [In]. rewrite T. split.
    + intros [<-|(i & H)]; [exists 0; rewrite Nat.add_0_r; auto|exists (S i); exact H].
    + intros ([|i] & H1 & H2); [left; injection H1; auto|right; exists i; auto].
  - rewrite T. split; [intros (i & H); exists (S i); exact H|]. intros ([|i] & H1 & H2); [rewrite Nat.add_0_r in H2; congruence|exists i; auto].
Qed.
Lemma chosen_NoDup {A} draw (l : list A) : forall k, NoDup l -> NoDup (chosen draw k l).
Proof.
  induction l as [|b l IH]; intros k H; cbn [chosen]; [constructor|]. inversion H; subst. destruct (draw k); [|auto]. constructor; [|auto]. intro Hin. apply chosen_in in Hin. destruct Hin as (i & Hi & _). apply nth_error_In in Hi. contradiction.
Qed.

(** The graph has all vertices, and the edge between [u < v] exactly if the number that was drawn
    for this pair is below the probability; the pairs are considered in lexicographic order. *)
Theorem C121_erdos_renyi : forall n draw, exists K es, generateErdosRenyiGraph n draw = Ok K /\ kwf K /\ NoDup es /\
  by_index K = map (fun i => Simplex [i] 0%Z) (seq 0 n) ++ map (edge_of 0) es /\
  (forall e, In e es <-> exists k, nth_error (pairs n) k = Some e /\ draw k = true).
Proof.
  intros n draw. set (es := chosen draw 0 (pairs n)).
  assert (F : forall ps k l, (forall e, In e ps -> fst e < snd e) -> fold_left (fun st p => let '(k, simplices) := st in (S k, if draw k then simplices ++ [simplex_of [fst p; snd p] 0] else simplices)) ps (k, l) = (k + length ps, l ++ map (edge_of 0) (chosen draw k ps))).
  { induction ps as [|[u v] ps IH]; intros k l H; cbn [fold_left chosen length map]; [rewrite app_nil_r, Nat.add_0_r; reflexivity|]. rewrite IH by (intros; apply H; simpl; auto). pose proof (H (u, v) (or_introl eq_refl)) as Huv. cbn [fst snd] in *. rewrite <- plus_n_Sm. rewrite simplex_of_edge by exact Huv. f_equal. destruct (draw k); [cbn [map]; rewrite <- app_assoc; reflexivity|reflexivity]. }
  assert (Hes : forall e, In e es -> fst e < snd e < n). { intros [u v] He. apply chosen_in in He. destruct He as (i & Hi & _). apply nth_error_In in Hi. apply In_pairs in Hi. exact Hi. }
  assert (N : NoDup es) by (apply chosen_NoDup, NoDup_pairs).
  destruct (of_range_new (map (fun i => simplex_vertex i 0) (seq 0 n) ++ map (edge_of 0) es)) as (K & EK & WK & BK).
  - intros s Hs. apply (graph_good n es Hes (fun _ => 0%Z) s). exact Hs.
  - apply (graph_nodup n es N Hes (fun _ => 0%Z)).
  - exists K, es. refine (conj _ (conj WK (conj N (conj BK _)))).
    + unfold generateErdosRenyiGraph. rewrite (fold_nested (fun u st v => let '(k, simplices) := st in (S k, if draw k then simplices ++ [simplex_of [u; v] 0] else simplices)) (fun u => seq (u + 1) (n - (u + 1)))). fold (pairs n). rewrite F; [exact EK|]. intros [u v] H. apply In_pairs in H. cbn. lia.
    + intro e. unfold es. rewrite chosen_in. reflexivity.
Qed.

(** Probability 1 gives the complete graph and probability 0 a graph without edges. *)
Theorem C121_extremes : forall n draw, 
  ((forall k, draw k = true) -> exists K, generateErdosRenyiGraph n draw = Ok K /\ 2 * length (by_index K) = n * (n + 1)) /\
  ((forall k, draw k = false) -> exists K, generateErdosRenyiGraph n draw = Ok K /\ by_index K = map (fun i => Simplex [i] 0%Z) (seq 0 n)).
Proof.
  intros n draw. destruct (C121_erdos_renyi n draw) as (K & es & EK & _ & N & BK & H). split; intro D; exists K; (split; [exact EK|]).
  - rewrite BK, app_length, !map_length, seq_length. assert (P : Permutation es (pairs n)).
    { apply NoDup_Permutation; [exact N|apply NoDup_pairs|]. intro e. rewrite H. split; [intros (k & Hk & _); apply nth_error_In in Hk; exact Hk|]. intro He. apply In_nth_error in He. destruct He as (k & Hk). exists k. auto. }
    rewrite (Permutation_length P). pose proof (length_pairs n). destruct n; [cbn in *; lia|]. replace (S n - 1) with n in H0 by lia. nia.
  - rewrite BK. destruct es as [|e es]; [rewrite app_nil_r; reflexivity|]. destruct (proj1 (H e) (or_introl eq_refl)) as (k & _ & Hk). rewrite D in Hk. discriminate.
Qed.

(** *** weights *)
Lemma trials_spec fuel draw : forall k w k' w', trials fuel draw k w = Ok (k', w') -> w <= w' /\ k' = k + (w' - w) + 1 /\ (forall i, i < w' - w -> draw (k + i) = true) /\ draw (k + (w' - w)) = false.
Proof.
  induction fuel as [|fuel IH]; intros k w k' w' H; cbn [trials] in H; [discriminate|]. destruct (draw k) eqn:D.
  - apply IH in H. destruct H as (H1 & H2 & H3 & H4). replace (w' - w) with (S (w' - S w)) by lia. refine (conj _ (conj _ (conj _ _))); [lia|lia| |].
    + intros [|i] Hi; [rewrite Nat.add_0_r; exact D|]. replace (k + S i) with (S k + i) by lia. apply H3. lia.
    + replace (k + S (w' - S w)) with (S k + (w' - S w)) by lia. exact H4.
  - injection H as <- <-. rewrite Nat.sub_diag, Nat.add_0_r. refine (conj _ (conj _ (conj _ D))); [lia|lia|lia].
Qed.
Lemma trials_total draw : forall m k w, draw (k + m) = false -> exists r, forall fuel, m < fuel -> trials fuel draw k w = Ok r.
Proof.
  induction m as [|m IH]; intros k w H.
  - rewrite Nat.add_0_r in H. exists (S k, w). intros [|fuel] Hf; [lia|]. cbn [trials]. rewrite H. reflexivity.
  - destruct (draw k) eqn:D.
    + destruct (IH (S k) (S w)) as (r & Hr); [replace (S k + m) with (k + S m) by lia; exact H|]. exists r. intros [|fuel] Hf; [lia|]. cbn [trials]. rewrite D. apply Hr. lia.
    + exists (S k, w). intros [|fuel] Hf; [lia|]. cbn [trials]. rewrite D. reflexivity.
Qed.

(** the draws that give the weights [ws] *)
Definition draws (ws : list nat) : list bool := flat_map (fun w => repeat true w ++ [false]) ws.
Definition starts (draw : nat -> bool) (k : nat) (l : list bool) : Prop := forall i b, nth_error l i = Some b -> draw (k + i) = b.

Lemma starts_app draw l l' : forall k, starts draw k l -> starts draw (k + length l) l' -> starts draw k (l ++ l').
Proof.
  intros k H H' i b Hi. destruct (Nat.lt_ge_cases i (length l)) as [L|L].
  - rewrite nth_error_app1 in Hi by exact L. apply H. exact Hi.
  - rewrite nth_error_app2 in Hi by exact L. apply H' in Hi. rewrite <- Hi. f_equal. lia.
Qed.
Lemma trials_starts fuel draw k k' w' : trials fuel draw k 0 = Ok (k', w') -> starts draw k (repeat true w' ++ [false]) /\ k' = k + length (repeat true w' ++ [false]).
Proof.
  intro H. apply trials_spec in H. rewrite Nat.sub_0_r in H. destruct H as (_ & H2 & H3 & H4). split.
  - intros i b Hi. destruct (Nat.lt_ge_cases i w') as [L|L].
    + rewrite nth_error_app1 in Hi by (rewrite repeat_length; exact L). rewrite (nth_error_nth' _ true) in Hi by (rewrite repeat_length; exact L). rewrite nth_repeat in Hi. injection Hi as <-. apply H3. exact L.
    + rewrite nth_error_app2 in Hi by (rewrite repeat_length; exact L). rewrite repeat_length in Hi. destruct (i - w') as [|m] eqn:E; [|destruct m; discriminate]. injection Hi as <-. replace i with w' by lia. exact H4.
  - rewrite app_length, repeat_length. cbn. lia.
Qed.

Definition weighted_edges (ps : list (nat * nat)) (ws : list nat) : list (nat * nat * nat) := filter (fun x => negb (snd x =? 0)) (combine ps ws).

Lemma weighted_loop fuel draw : forall ps k l k' l', (forall e, In e ps -> fst e < snd e) ->
  foldM (fun st p => let '(k, simplices) := st in let* r := trials fuel draw k 0 in let '(k, w) := r in Ok (k, if negb (w =? 0) then simplices ++ [simplex_of [fst p; snd p] (Z.of_nat w)] else simplices)) ps (k, l) = Ok (k', l') ->
  exists ws, length ws = length ps /\ starts draw k (draws ws) /\ l' = l ++ map (fun x => edge_of (snd x) (fst x)) (weighted_edges ps ws).
Proof.
  induction ps as [|[u v] ps IH]; intros k l k' l' Hp H; cbn [foldM bind] in H.
  - injection H as <- <-. exists []. rewrite app_nil_r. refine (conj eq_refl (conj _ eq_refl)). intros [|i] b Hb; discriminate.
  - destruct (trials fuel draw k 0) as [[k1 w]| | |] eqn:T; cbn [bind] in H; try discriminate. apply trials_starts in T. destruct T as [T1 T2]. apply IH in H; [|intros; apply Hp; simpl; auto]. destruct H as (ws & L & S1 & ->).
    exists (w :: ws). refine (conj _ (conj _ _)).
    + cbn [length]. f_equal. exact L.
    + cbn [draws flat_map]. apply starts_app; [exact T1|]. rewrite <- T2. exact S1.
    + pose proof (Hp (u, v) (or_introl eq_refl)) as Huv. cbn [fst snd] in Huv |- *. rewrite simplex_of_edge by exact Huv. unfold weighted_edges. cbn [combine filter snd]. destruct (negb (w =? 0)); [|reflexivity]. cbn [map fst snd]. rewrite <- app_assoc. reflexivity.
Qed.
Lemma weighted_loop_total draw : (forall k, exists m, k <= m /\ draw m = false) -> forall ps k l, exists r N, forall fuel, N <= fuel -> 
  foldM (fun st p => let '(k, simplices) := st in let* r := trials fuel draw k 0 in let '(k, w) := r in Ok (k, if negb (w =? 0) then simplices ++ [simplex_of [fst p; snd p] (Z.of_nat w)] else simplices)) ps (k, l) = Ok r.
Proof.
  intro HF. induction ps as [|[u v] ps IH]; intros k l.
  - exists (k, l), 0. reflexivity.
  - destruct (HF k) as (m & Hm & Dm). destruct (trials_total draw (m - k) k 0) as ([k1 w] & Hr); [replace (k + (m - k)) with m by lia; exact Dm|].
    destruct (IH k1 (if negb (w =? 0) then l ++ [simplex_of [u; v] (Z.of_nat w)] else l)) as (r & N & HN). exists r, (N + (m - k) + 1). intros fuel Hf. cbn [foldM fst snd]. rewrite Hr by lia. cbn [bind]. apply HN. lia.
Qed.

(** The weight of an edge is the number of successes before the first failure, edges of weight 0
    are missing, and the simplices are sorted by their weights. *)
Theorem C121_weighted : forall n draw, (forall k, exists m, k <= m /\ draw m = false) -> exists N K ws, (forall fuel, N <= fuel -> generateWeightedRandomGraph fuel n draw = Ok K) /\ kwf K /\
  length ws = length (pairs n) /\ (forall i b, nth_error (draws ws) i = Some b -> draw i = b) /\
  Permutation (by_index K) (map (fun i => Simplex [i] 0%Z) (seq 0 n) ++ map (fun x => edge_of (snd x) (fst x)) (weighted_edges (pairs n) ws)) /\
  StronglySorted (fun s t => (data s <= data t)%Z) (by_index K).
Proof.
  intros n draw HF. set (V := map (fun i => simplex_vertex i 0) (seq 0 n)). destruct (weighted_loop_total draw HF (pairs n) 0 V) as ([k' l'] & N & HN).
  assert (Hp : forall e, In e (pairs n) -> fst e < snd e < n) by (intros [u v] H; apply In_pairs in H; exact H).
  destruct (weighted_loop N draw (pairs n) 0 V k' l' (fun e He => proj1 (Hp e He)) (HN N (le_n N))) as (ws & L & ST & El).
  set (es := weighted_edges (pairs n) ws) in *. assert (Hin : forall x, In x es -> In (fst x) (pairs n)). { intros [[u v] w] Hx. apply filter_In in Hx. destruct Hx as [Hx _]. apply in_combine_l in Hx. exact Hx. }
  assert (Nes : NoDup (map fst es)).
  { unfold es, weighted_edges. pose proof (NoDup_pairs n) as NP. revert NP. generalize (pairs n). clear. intros ps. revert ws. induction ps as [|p ps IH]; intros ws NP; [constructor|]. destruct ws as [|w ws]; [constructor|]. inversion NP; subst. cbn [combine filter snd]. destruct (negb (w =? 0)); [|auto]. cbn [map fst]. constructor; [|auto].
    intro H. apply in_map_iff in H. destruct H as ([q w'] & <- & H). apply filter_In in H. destruct H as [H _]. apply in_combine_l in H. cbn in H. contradiction. }
  assert (Nv : NoDup (map verts l')).
  { rewrite El. unfold V. rewrite map_app, !map_map. apply NoDup_app_intro.
    - apply NoDup_map_inj; [apply seq_NoDup|]. intros x y _ _ E. cbn in E. injection E as ->. reflexivity.
    - change (NoDup (map (fun x : nat * nat * nat => [snd (fst x); fst (fst x)]) es)). rewrite <- (map_map fst (fun e : nat * nat => [snd e; fst e])). apply NoDup_map_inj; [exact Nes|]. intros [a b] [c d] _ _ E. injection E as -> ->. reflexivity.
    - intros vs H1 H2. apply in_map_iff in H1. apply in_map_iff in H2. destruct H1 as (i & <- & _), H2 as (e & E & _). discriminate. }
  assert (G : forall s, In s l' -> good s).
  { intros s Hs. rewrite El in Hs. apply in_app_or in Hs. destruct Hs as [Hs|Hs]; apply in_map_iff in Hs.
    - destruct Hs as (i & <- & _). split; [unfold wf; cbn; repeat constructor|discriminate].
    - destruct Hs as (e & <- & He). apply Hin, Hp in He. split; [unfold wf; cbn; repeat constructor; lia|discriminate]. }
  pose proof (cpp_sort_perm data_cmp l') as P. destruct (of_range_new (cpp_sort data_cmp l')) as (K & EK & WK & BK).
  - intros s Hs. apply G. apply (Permutation_in _ P Hs).
  - apply (Permutation_NoDup (Permutation_sym (Permutation_map verts P)) Nv).
  - exists N, K, ws. refine (conj _ (conj WK (conj L (conj ST (conj _ _))))).
    + intros fuel Hf. unfold generateWeightedRandomGraph. rewrite (foldM_nested (fun u st v => let '(k, simplices) := st in let* r := trials fuel draw k 0 in let '(k, w) := r in Ok (k, if negb (w =? 0) then simplices ++ [simplex_of [u; v] (Z.of_nat w)] else simplices)) (fun u => seq (u + 1) (n - (u + 1)))). fold (pairs n). fold V. rewrite (HN fuel Hf). cbn [bind snd]. exact EK.
    + rewrite BK. change (Permutation (cpp_sort data_cmp l') (V ++ map (fun x : nat * nat * nat => edge_of (snd x) (fst x)) es)). rewrite <- El. exact P.
    + rewrite BK. pose proof (cpp_sort_sorted data_cmp l' data_cmp_swo) as S. revert S. generalize (cpp_sort data_cmp l'). clear. induction 1 as [|s l _ IH H]; constructor; [exact IH|]. eapply Forall_impl; [|exact H]. intros t E. cbv beta in E. unfold data_cmp in E. destruct (Z.eqb_spec (data t) (data s)); [lia|]. apply Z.ltb_ge in E. exact E.
Qed.

(** FINDING: for probability 1 and at least two vertices, the loop does not end. *)
Theorem C121_loop_refuted : forall n draw, 2 <= n -> (forall k, draw k = true) -> forall fuel, generateWeightedRandomGraph fuel n draw = OutOfFuel.
Proof.
  intros n draw Hn D fuel. assert (T : forall fuel k w, trials fuel draw k w = OutOfFuel) by (induction fuel0 as [|f IH]; intros k w; cbn [trials]; [reflexivity|]; rewrite D; apply IH).
  unfold generateWeightedRandomGraph. destruct n as [|[|n]]; [lia|lia|]. cbn [seq map Nat.add Nat.sub foldM]. rewrite T. reflexivity.
Qed.

Example C121_example : exists K, generateWeightedRandomGraph 5 3 (fun k => nth k [true; true; false; false; true] false) = Ok K /\
  by_index K = [Simplex [0] 0%Z; Simplex [1] 0%Z; Simplex [2] 0%Z; Simplex [2; 1] 1%Z; Simplex [1; 0] 2%Z].
Proof. eexists. split; vm_compute; reflexivity. Qed.

Print Assumptions C121_erdos_renyi.
Print Assumptions C121_extremes.
Print Assumptions C121_weighted.
Print Assumptions C121_loop_refuted.
