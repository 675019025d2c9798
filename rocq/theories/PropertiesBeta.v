(** * C101, C102: beta-skeletons. *)
From Coq Require Import List Arith Bool ZArith QArith Lia Lqa Sorted Relations Permutation.
From Verif Require Import Base BaseFacts Simplex SimplexFacts Complex ComplexFacts History Subcomplex SubcomplexFacts SpecComplex SpecComponents BetaSkeleton SpecBeta PropertiesVietorisRips PairingFacts.
Import ListNotations.
Local Open Scope nat_scope.

(** ** the lune *)
Lemma qsum_S f d : (qsum f (S d) == f 0%nat + qsum (fun k => f (S k)) d)%Q.
Proof. unfold qsum. cbn [seq map fold_right]. rewrite <- seq_shift, map_map. reflexivity. Qed.
Lemma qsum_ext f g d : (forall k, k < d -> (f k == g k)%Q) -> (qsum f d == qsum g d)%Q.
Proof.
  revert f g. induction d as [|d IH]; intros f g H; [reflexivity|]. rewrite !qsum_S. rewrite (H 0) by lia. rewrite (IH (fun k => f (S k)) (fun k => g (S k))); [reflexivity|].
  intros k Hk. apply H. lia.
Qed.

Lemma ball_sum cs : forall rs, length cs = length rs -> forall acc pre1 pre2, length pre1 = length pre2 ->
  exists t, foldM (fun distance i => let* c := get_ (pre1 ++ cs) i in let* o := get_ (pre2 ++ rs) i in Ok (distance + (c - inject_Z o) * (c - inject_Z o))%Q)
    (seq (length pre1) (length cs)) acc = Ok t /\ (t == acc + qsum (fun k => (nth k cs 0 - coord rs k) * (nth k cs 0 - coord rs k)) (length cs))%Q.
Proof.
  induction cs as [|c cs IH]; intros rs HL acc pre1 pre2 HP.
  - exists acc. split; [reflexivity|]. unfold qsum. simpl. ring.
  - destruct rs as [|o rs]; [discriminate|]. cbn [length seq foldM bind].
    assert (E1 : get_ (pre1 ++ c :: cs) (length pre1) = Ok c) by (unfold get_; rewrite nth_error_app2, Nat.sub_diag by lia; reflexivity).
    assert (E2 : get_ (pre2 ++ o :: rs) (length pre1) = Ok o) by (unfold get_; rewrite HP, nth_error_app2, Nat.sub_diag by lia; reflexivity).
    rewrite E1. cbn [bind]. rewrite E2. cbn [bind].
    destruct (IH rs ltac:(cbn [length] in HL; lia) (acc + (c - inject_Z o) * (c - inject_Z o))%Q (pre1 ++ [c]) (pre2 ++ [o]) ltac:(rewrite !app_length; cbn [length]; lia)) as (t & Et & Qt).
    rewrite <- !app_assoc in Et. cbn [app] in Et. rewrite app_length in Et. cbn [length] in Et. rewrite Nat.add_1_r in Et. exists t. split; [exact Et|].
    rewrite Qt, qsum_S. unfold coord. cbn [nth]. ring.
Qed.

Lemma ball_contains_spec b r : length (centre b) = length r ->
  exists x, ball_contains b r = Ok x /\ (x = true <-> (qsum (fun k => (nth k (centre b) 0 - coord r k) * (nth k (centre b) 0 - coord r k)) (length r) <= radius_sq b)%Q).
Proof.
  intro HL. unfold ball_contains. destruct (ball_sum (centre b) r HL 0%Q [] [] eq_refl) as (t & Et & Qt). cbn [app length] in Et. rewrite Et. cbn [bind].
  eexists. split; [reflexivity|]. rewrite Qle_bool_iff. rewrite Qt, HL. split; intro H; lra.
Qed.

Lemma lune_centre p q beta k : length p = length q -> k < length p ->
  (nth k (map (fun x => (fst x + snd x)%Q) (combine (v_scale (1 - (1 # 2) * beta) (map inject_Z p)) (v_scale ((1 # 2) * beta) (map inject_Z q)))) 0
   == coord p k + beta / 2 * (coord q k - coord p k))%Q.
Proof.
  unfold v_scale, coord. revert q k. induction p as [|x p IH]; intros [|y q] k HL Hk; try (cbn [length] in *; lia). destruct k as [|k]; cbn [map combine nth fst snd]; [field|].
  apply IH; cbn [length] in *; lia.
Qed.

Lemma v_scale_length x v : length (v_scale x v) = length v.
Proof. apply map_length. Qed.

Lemma lune_spec d beta D p q r : length p = d -> length q = d -> length r = d ->
  exists l x, lune_make p q beta D = Ok l /\ lune_contains l r = Ok x /\ (x = true <-> in_lune d beta D p q r).
Proof.
  intros Hp Hq Hr. unfold lune_make, v_add. rewrite !v_scale_length, !map_length, Hp, Hq, Nat.eqb_refl.
  cbn [bind]. eexists. unfold lune_contains. cbn [fst snd]. 
  assert (B : forall p q, length p = d -> length q = d -> exists x,
    ball_contains (ball_make (map (fun x => (fst x + snd x)%Q) (combine (v_scale (1 - (1 # 2) * beta) (map inject_Z p)) (v_scale ((1 # 2) * beta) (map inject_Z q)))) (beta * beta * inject_Z D)) r = Ok x /\
    (x = true <-> in_ball d beta (beta / 2 * (beta / 2) * inject_Z D) p q r)).
  { clear p q Hp Hq. intros p q Hp Hq.
    set (c := map (fun x => (fst x + snd x)%Q) (combine (v_scale (1 - (1 # 2) * beta) (map inject_Z p)) (v_scale ((1 # 2) * beta) (map inject_Z q)))).
    assert (HL : length c = d) by (unfold c, v_scale; rewrite map_length, combine_length, !map_length; lia).
    destruct (ball_contains_spec (ball_make c (beta * beta * inject_Z D)) r ltac:(unfold ball_make; cbn [centre]; lia)) as (x & E & F). exists x. split; [exact E|]. rewrite F. unfold in_ball, ball_make. cbn [centre radius_sq]. rewrite Hr.
    rewrite (qsum_ext (fun k => ((nth k c 0 - coord r k) * (nth k c 0 - coord r k))%Q) (fun k => let x := (coord r k - (coord p k + beta / 2 * (coord q k - coord p k)))%Q in (x * x)%Q)).
    - assert (R : (1 # 4) * (beta * beta * inject_Z D) == beta / 2 * (beta / 2) * inject_Z D) by field. rewrite R. reflexivity.
    - intros k Hk. cbv zeta. unfold c. rewrite lune_centre by lia. ring. }
  destruct (B p q Hp Hq) as (x & Ex & Fx). destruct (B q p Hq Hp) as (y & Ey & Fy).
  exists (x && y). split; [reflexivity|]. cbn [fst snd]. rewrite Ex. cbn [bind]. split; [destruct x; [exact Ey|reflexivity]|].
  unfold in_lune. rewrite andb_true_iff, Fx, Fy. reflexivity.
Qed.

(** ** the loops *)
Lemma seq_sorted n : forall a, StronglySorted lt (seq a n).
Proof. induction n as [|n IH]; intro a; cbn [seq]; constructor; [apply IH|]. apply Forall_forall. intros x Hx. apply in_seq in Hx. lia. Qed.

Section Loops.
  Variables (d : nat) (sq : list Z -> list Z -> Z) (beta : Q) (X : list (list Z)).
  Hypothesis HX : Forall (fun p => length p = d) X.
  Let at_X (i : nat) : list Z := nth i X [].

  Lemma X_length i : i < length X -> length (at_X i) = d.
  Proof. intro H. rewrite Forall_forall in HX. apply HX. apply nth_In. exact H. Qed.
  Lemma X_get i : i < length X -> get_ X i = Ok (at_X i).
  Proof. intro H. unfold get_. rewrite (nth_error_nth' X [] H). reflexivity. Qed.

  Lemma blocked_spec i j l : i < length X -> j < length X -> lune_make (at_X i) (at_X j) beta (sq (at_X i) (at_X j)) = Ok l ->
    forall rs, (forall r, In r rs -> r < length X) ->
    exists b, blocked X l i j rs = Ok b /\ (b = true <-> exists r, In r rs /\ r <> i /\ r <> j /\ in_lune d beta (sq (at_X i) (at_X j)) (at_X i) (at_X j) (at_X r)).
  Proof.
    intros Hi Hj El. induction rs as [|r rs IH]; intro Hr; cbn [blocked].
    - exists false. split; [reflexivity|]. split; [discriminate|intros (r & [] & _)].
    - rewrite X_get by (apply Hr; simpl; auto). cbn [bind]. destruct (IH ltac:(intros; apply Hr; simpl; auto)) as (b & Eb & Fb).
      destruct (lune_spec d beta (sq (at_X i) (at_X j)) (at_X i) (at_X j) (at_X r)) as (l' & x & El' & Ex & Fx); try (apply X_length; auto; apply Hr; simpl; auto).
      rewrite El in El'. injection El' as <-.
      destruct (Nat.eqb_spec r i) as [Ei|Ni]; [|destruct (Nat.eqb_spec r j) as [Ej|Nj]]; cbn [negb andb bind].
      + exists b. split; [exact Eb|]. rewrite Fb. split; intros (r' & A & B); exists r'; (split; [|exact B]); [right; exact A|]. destruct A as [<- |A]; [exfalso; apply (proj1 B); exact Ei|exact A].
      + exists b. split; [exact Eb|]. rewrite Fb. split; intros (r' & A & B); exists r'; (split; [|exact B]); [right; exact A|]. destruct A as [<- |A]; [exfalso; apply (proj1 (proj2 B)); exact Ej|exact A].
      + rewrite Ex. cbn [bind]. destruct x.
        * exists true. split; [reflexivity|]. split; [|reflexivity]. intros _. exists r. refine (conj (or_introl eq_refl) (conj Ni (conj Nj _))). apply Fx. reflexivity.
        * exists b. split; [exact Eb|]. rewrite Fb. split; intros (r' & A & B); exists r'; (split; [|exact B]); [right; exact A|]. destruct A as [<- |A]; [|exact A].
          exfalso. destruct B as (_ & _ & B). apply Fx in B. discriminate.
  Qed.

  Definition edge_simplex (e : nat * nat) : simplex := simplex_of [fst e; snd e] (sq (at_X (fst e)) (at_X (snd e))).

  Lemma beta_step_spec i j K : i < j < length X ->
    exists b : bool, beta_step sq X beta i K j = Ok (if b then push_all K [edge_simplex (i, j)] else K) /\ (b = true <-> beta_edge d sq beta X i j).
  Proof.
    intro H. unfold beta_step. rewrite !X_get by lia. cbn [bind].
    destruct (lune_spec d beta (sq (at_X i) (at_X j)) (at_X i) (at_X j) (at_X i)) as (l & _ & El & _); try (apply X_length; lia). rewrite El. cbn [bind].
    assert (Hseq : forall r, In r (seq 0 (length X)) -> r < length X) by (intros r Hr; apply in_seq in Hr; lia).
    destruct (blocked_spec i j l ltac:(lia) ltac:(lia) El (seq 0 (length X)) Hseq) as (b & Eb & Fb). rewrite Eb. cbn [bind].
    exists (negb b). split; [destruct b; reflexivity|]. unfold beta_edge. fold (at_X i) (at_X j). split.
    - intros Hb. split; [lia|]. intros r Hr Ni Nj L. assert (b = true) as -> by (apply Fb; exists r; rewrite in_seq; refine (conj _ (conj Ni (conj Nj L))); lia). discriminate.
    - intros [_ G]. destruct b; [|reflexivity]. destruct (proj1 Fb eq_refl) as (r & A & B & C & L). exfalso. apply in_seq in A. apply (G r); auto. lia.
  Qed.

  Lemma push_all_app K l m : push_all K (l ++ m) = push_all (push_all K l) m.
  Proof. unfold push_all. apply fold_left_app. Qed.

  Lemma beta_row i K (js : list nat) : (forall j, In j js -> i < j < length X) -> StronglySorted lt js ->
    exists es, foldM (beta_step sq X beta i) js K = Ok (push_all K (map edge_simplex es)) /\
      StronglySorted edge_before es /\ (forall e, In e es <-> fst e = i /\ In (snd e) js /\ beta_edge d sq beta X i (snd e)).
  Proof.
    revert K. induction js as [|j js IH]; intros K Hj Hs; cbn [foldM].
    - exists []. refine (conj eq_refl (conj (SSorted_nil _) _)). intros e. split; [intros []|intros (_ & [] & _)].
    - inversion Hs as [|? ? Hs' HF]; subst. destruct (beta_step_spec i j K) as (b & E & F); [apply Hj; simpl; auto|]. rewrite E. cbn [bind].
      destruct (IH (if b then push_all K [edge_simplex (i, j)] else K) ltac:(intros; apply Hj; simpl; auto) Hs') as (es & E1 & E2 & E3).
      destruct b.
      + exists ((i, j) :: es). refine (conj _ (conj _ _)).
        * rewrite E1. cbn [map]. rewrite <- push_all_app. reflexivity.
        * constructor; [exact E2|]. apply Forall_forall. intros e He. apply E3 in He. destruct He as (A & B & _). rewrite Forall_forall in HF. right. cbn [fst snd]. split; [auto|]. apply HF. exact B.
        * intro e. simpl. rewrite E3. split.
          -- intros [<- |(A & B & C)]; cbn [fst snd]; [|auto]. refine (conj eq_refl (conj (or_introl eq_refl) _)). apply F. reflexivity.
          -- intros (A & [B|B] & C); [left; destruct e; cbn [fst snd] in *; congruence|auto].
      + exists es. refine (conj E1 (conj E2 _)). intro e. rewrite E3. simpl. split; [tauto|]. intros (A & [B|B] & C); [|auto]. exfalso. rewrite <- B in C. apply F in C. discriminate.
  Qed.

  Lemma edge_before_app es es' : StronglySorted edge_before es -> StronglySorted edge_before es' -> (forall e e', In e es -> In e' es' -> edge_before e e') -> StronglySorted edge_before (es ++ es').
  Proof.
    induction 1 as [|e es Hs IH HF]; intros H' Hc; cbn [app]; [exact H'|]. constructor; [apply IH; auto; intros; apply Hc; simpl; auto|].
    apply Forall_app. split; [exact HF|]. apply Forall_forall. intros e' He'. apply Hc; simpl; auto.
  Qed.

  Lemma beta_rows (is : list nat) : forall K, (forall i, In i is -> i < length X) -> StronglySorted lt is ->
    exists es, foldM (fun K i => foldM (beta_step sq X beta i) (seq (i + 1) (length X - (i + 1))) K) is K = Ok (push_all K (map edge_simplex es)) /\
      StronglySorted edge_before es /\ (forall e, In e es <-> In (fst e) is /\ beta_edge d sq beta X (fst e) (snd e)).
  Proof.
    induction is as [|i is IH]; intros K Hi Hs; cbn [foldM].
    - exists []. refine (conj eq_refl (conj (SSorted_nil _) _)). intros e. split; [intros []|intros ([] & _)].
    - inversion Hs as [|? ? Hs' HF]; subst.
      destruct (beta_row i K (seq (i + 1) (length X - (i + 1)))) as (es & E1 & E2 & E3).
      { intros j Hj. apply in_seq in Hj. lia. }
      { apply seq_sorted. }
      rewrite E1. cbn [bind]. destruct (IH (push_all K (map edge_simplex es)) ltac:(intros; apply Hi; simpl; auto) Hs') as (es' & F1 & F2 & F3).
      exists (es ++ es'). refine (conj _ (conj _ _)).
      + rewrite F1, map_app, push_all_app. reflexivity.
      + apply edge_before_app; auto. intros e e' He He'. apply E3 in He. apply F3 in He'. left. rewrite (proj1 He). rewrite Forall_forall in HF. apply HF. apply He'.
      + intro e. rewrite in_app_iff, E3, F3. simpl. split.
        * intros [(A & B & C)|(A & B)]; [rewrite A; auto|auto].
        * intros ([A|A] & B); [left|right; auto]. rewrite <- A in B. refine (conj (eq_sym A) (conj _ B)). apply in_seq. destruct B as [B _]. lia.
  Qed.
End Loops.

Lemma simplex_of_pair i j D : i < j -> simplex_of [i; j] D = Simplex [j; i] D.
Proof.
  intro H. unfold simplex_of, cpp_sort, greater. cbn -[Nat.ltb Nat.eqb].
  destruct (Nat.ltb_spec i j); [|lia]. destruct (Nat.ltb_spec j i); [lia|]. cbn -[Nat.ltb Nat.eqb]. destruct (Nat.eqb_spec j i); [lia|reflexivity].
Qed.

(** ** C101: the edges *)
(** [es] lists the pairs of points without a third point in their lune; the complex
    contains all points and these edges *)
Definition is_beta_skeleton (d : nat) (sq : list Z -> list Z -> Z) (beta : Q) (X : list (list Z)) (K : complex) (es : list (nat * nat)) : Prop :=
  by_index K = map (fun i => Simplex [i] 0%Z) (seq 0 (length X)) ++ map (fun e => Simplex [snd e; fst e] (sq (nth (fst e) X []) (nth (snd e) X []))) es /\
  StronglySorted edge_before es /\ forall i j, In (i, j) es <-> beta_edge d sq beta X i j.

Lemma fold_push_all (f : nat -> simplex) l K : fold_left (fun K i => fst (k_push_back K (f i))) l K = push_all K (map f l).
Proof. revert K. induction l as [|x l IH]; intro K; [reflexivity|]. cbn [fold_left map]. rewrite IH. reflexivity. Qed.

Lemma edge_before_irrefl es : StronglySorted edge_before es -> NoDup es.
Proof.
  induction 1 as [|e es Hs IH HF]; constructor; auto. intro Hin. rewrite Forall_forall in HF. specialize (HF e Hin). unfold edge_before in HF. lia.
Qed.

Theorem C101_skeleton : forall d sq beta X, Forall (fun p => length p = d) X ->
  exists K es, buildBetaSkeletonNaive sq X beta = Ok K /\ reachable K /\ is_beta_skeleton d sq beta X K es.
Proof.
  intros d sq beta X HX. unfold buildBetaSkeletonNaive. rewrite (fold_push_all (fun i => simplex_vertex i 0)).
  destruct (beta_rows d sq beta X HX (seq 0 (length X)) (push_all k_empty (map (fun i => simplex_vertex i 0) (seq 0 (length X))))) as (es & E1 & E2 & E3).
  { intros i Hi. apply in_seq in Hi. lia. }
  { apply seq_sorted. }
  rewrite E1. rewrite <- push_all_app.
  set (vs := map (fun i => simplex_vertex i 0) (seq 0 (length X))).
  assert (EE : map (edge_simplex sq X) es = map (fun e => Simplex [snd e; fst e] (sq (nth (fst e) X []) (nth (snd e) X []))) es).
  { apply map_ext_in. intros e He. apply E3 in He. unfold edge_simplex. apply simplex_of_pair. apply He. }
  rewrite EE. set (l := vs ++ _).
  assert (HG : forall s, In s l -> good s).
  { intros s Hs. unfold l, vs in Hs. apply in_app_or in Hs. destruct Hs as [Hs|Hs]; apply in_map_iff in Hs; destruct Hs as (x & <- & Hx).
    - split; [|discriminate]. unfold wf. cbn. repeat constructor.
    - apply E3 in Hx. destruct Hx as [_ [Hx _]]. split; [|discriminate]. unfold wf. cbn. repeat constructor. lia. }
  assert (HN : NoDup (map verts l)).
  { unfold l, vs. rewrite map_app, !map_map. cbn [simplex_vertex verts]. apply NoDup_app_intro.
    - apply FinFun.Injective_map_NoDup; [intros a b H; congruence|apply seq_NoDup].
    - apply FinFun.Injective_map_NoDup; [|apply edge_before_irrefl; exact E2]. intros [a b] [a' b'] H. cbn [fst snd] in H. congruence.
    - intros x Hx Hy. apply in_map_iff in Hx, Hy. destruct Hx as (a & <- & _). destruct Hy as (e & H & _). discriminate. }
  destruct (push_all_new l k_empty) as [P1 P2]; [apply empty_kwf|exact HG|exact HN|].
  exists (push_all k_empty l), es. split; [reflexivity|]. split; [|refine (conj P2 (conj E2 _))].
  - assert (R : forall l K, reachable K -> (forall s, In s l -> good s) -> reachable (push_all K l)).
    { clear. induction l as [|s l IH]; intros K RK H; [exact RK|]. unfold push_all. cbn [fold_left]. fold (push_all (fst (k_push_back K s)) l). apply IH; [|intros; apply H; simpl; auto].
      apply push_reachable; [exact RK|]. apply H. simpl; auto. }
    apply R; [|exact HG]. apply empty_reachable.
  - intros i j. rewrite (E3 (i, j)). cbn [fst snd]. rewrite in_seq. split; [tauto|]. intro H. split; [|exact H]. destruct H. lia.
Qed.

(** ** C102: Euclidean distances *)
Lemma sum_cast (f : nat -> Z) l : (inject_Z (fold_right Z.add 0%Z (map f l)) == fold_right Qplus 0 (map (fun k => inject_Z (f k)) l))%Q.
Proof. induction l as [|k l IH]; cbn [map fold_right]; [reflexivity|]. rewrite inject_Z_plus, IH. reflexivity. Qed.
Lemma sqd_cast d p q : (inject_Z (sqd d p q) == qsum (fun k => (coord p k - coord q k) * (coord p k - coord q k)) d)%Q.
Proof.
  unfold sqd. rewrite sum_cast. apply (qsum_ext (fun k => inject_Z ((nth k p 0 - nth k q 0) * (nth k p 0 - nth k q 0))%Z) (fun k => ((coord p k - coord q k) * (coord p k - coord q k))%Q) d).
  intros k _. unfold coord. rewrite inject_Z_mult. unfold Z.sub. rewrite inject_Z_plus, inject_Z_opp. reflexivity.
Qed.
Lemma sqd_sym d p q : sqd d p q = sqd d q p.
Proof. unfold sqd. f_equal. apply map_ext. intro k. ring. Qed.
Lemma squares_nonneg (f : nat -> Z) l : (0 <= fold_right Z.add 0 (map (fun k => f k * f k) l))%Z.
Proof. induction l as [|k l IH]; cbn [map fold_right]; [lia|]. pose proof (Z.square_nonneg (f k)). lia. Qed.
Lemma sqd_nonneg d p q : (0 <= sqd d p q)%Z.
Proof. apply (squares_nonneg (fun k => (nth k p 0 - nth k q 0)%Z)). Qed.
Lemma squares_zero (f : nat -> Z) l : fold_right Z.add 0%Z (map (fun k => (f k * f k)%Z) l) = 0%Z -> forall k, In k l -> f k = 0%Z.
Proof.
  induction l as [|x l IH]; cbn [map fold_right]; intros H k []; pose proof (squares_nonneg f l); pose proof (Z.square_nonneg (f x)).
  - subst x. assert (E : (f k * f k = 0)%Z) by lia. apply Z.mul_eq_0 in E. lia.
  - apply IH; [lia|assumption].
Qed.
Lemma sqd_coords d p q : sqd d p q = 0%Z -> forall k, k < d -> nth k p 0%Z = nth k q 0%Z.
Proof.
  intros H k Hk. assert (E := squares_zero (fun k => (nth k p 0 - nth k q 0)%Z) (seq 0 d) H k ltac:(apply in_seq; lia)). cbv beta in E. lia.
Qed.
Lemma sqd_zero d p q : length p = d -> length q = d -> sqd d p q = 0%Z -> p = q.
Proof.
  intros Hp Hq H. apply (nth_ext _ _ 0%Z 0%Z); [lia|]. intros k Hk. apply (sqd_coords d p q H). lia.
Qed.
Lemma sqd_same d p q r : sqd d p r = 0%Z -> sqd d q r = sqd d p q.
Proof.
  intro H. pose proof (sqd_coords d p r H) as E. unfold sqd. f_equal. apply map_ext_in. intros k Hk. apply in_seq in Hk. rewrite (E k) by lia. ring.
Qed.
Lemma sqd_refl d p : sqd d p p = 0%Z.
Proof. unfold sqd. induction (seq 0 d) as [|k l IH]; cbn [map fold_right]; [reflexivity|]. rewrite IH. ring. Qed.

Lemma euclidean_sqd p : forall q, length p = length q -> euclidean_sq p q = sqd (length p) p q.
Proof.
  intros q HL. unfold euclidean_sq. rewrite <- (Z.add_0_l (sqd _ p q)). generalize 0%Z as acc. revert q HL. induction p as [|x p IH]; intros [|y q] HL acc; try discriminate.
  - unfold sqd. simpl. lia.
  - cbn [combine fold_left length fst snd]. rewrite IH by (cbn [length] in HL; lia). unfold sqd. cbn [seq map fold_right nth]. rewrite <- seq_shift, map_map. cbn [nth]. lia.
Qed.

Lemma qsum_square (x y : nat -> Q) (t : Q) d :
  (qsum (fun k => (x k - t * y k) * (x k - t * y k)) d ==
   qsum (fun k => x k * x k) d - t * (qsum (fun k => x k * x k) d + qsum (fun k => y k * y k) d - qsum (fun k => (x k - y k) * (x k - y k)) d) + t * t * qsum (fun k => y k * y k) d)%Q.
Proof.
  revert x y. induction d as [|d IH]; intros x y; [unfold qsum; simpl; ring|]. rewrite !qsum_S. rewrite (IH (fun k => x (S k)) (fun k => y (S k))). ring.
Qed.

(** the lune in terms of squares of distances *)
Lemma in_ball_sq d beta p q r :
  in_ball d beta (beta / 2 * (beta / 2) * inject_Z (sqd d p q)) p q r <->
  (2 * inject_Z (sqd d p r) <= beta * (inject_Z (sqd d p r) + inject_Z (sqd d p q) - inject_Z (sqd d q r)))%Q.
Proof.
  unfold in_ball.
  rewrite (qsum_ext _ (fun k => ((coord r k - coord p k) - beta / 2 * (coord q k - coord p k)) * ((coord r k - coord p k) - beta / 2 * (coord q k - coord p k)))%Q) by (intros k _; cbv zeta; ring).
  rewrite (qsum_square (fun k => coord r k - coord p k)%Q (fun k => coord q k - coord p k)%Q (beta / 2) d).
  rewrite (sqd_sym d p r), (sqd_sym d p q), (sqd_sym d q r), (sqd_cast d r p), (sqd_cast d q p), (sqd_cast d r q).
  rewrite (qsum_ext (fun k => (coord r k - coord p k - (coord q k - coord p k)) * (coord r k - coord p k - (coord q k - coord p k)))%Q (fun k => (coord r k - coord q k) * (coord r k - coord q k))%Q) by (intros k _; ring).
  set (a := qsum (fun k => (coord r k - coord p k) * (coord r k - coord p k))%Q d).
  set (c := qsum (fun k => (coord q k - coord p k) * (coord q k - coord p k))%Q d).
  set (b := qsum (fun k => (coord r k - coord q k) * (coord r k - coord q k))%Q d).
  assert (E : (a - beta / 2 * (a + c - b) + beta / 2 * (beta / 2) * c == (beta / 2) * (beta / 2) * c + (1 # 2) * (2 * a - beta * (a + c - b)))%Q) by field.
  rewrite E. split; intro H; lra.
Qed.

Lemma in_lune_sq d beta p q r :
  in_lune d beta (sqd d p q) p q r <->
  (2 * inject_Z (sqd d p r) <= beta * (inject_Z (sqd d p r) + inject_Z (sqd d p q) - inject_Z (sqd d q r)) /\
   2 * inject_Z (sqd d q r) <= beta * (inject_Z (sqd d q r) + inject_Z (sqd d p q) - inject_Z (sqd d p r)))%Q.
Proof.
  unfold in_lune. cbv zeta. rewrite in_ball_sq. rewrite (sqd_sym d p q) at 2. rewrite in_ball_sq. rewrite (sqd_sym d q p). reflexivity.
Qed.

Lemma cast_nonneg d p q : (0 <= inject_Z (sqd d p q))%Q.
Proof. change 0%Q with (inject_Z 0). rewrite <- Zle_Qle. apply sqd_nonneg. Qed.

(** Larger lunes contain smaller ones. *)
Theorem C102_monotone : forall d beta beta' X i j, (0 <= beta)%Q -> (beta <= beta')%Q ->
  beta_edge d (sqd d) beta' X i j -> beta_edge d (sqd d) beta X i j.
Proof.
  intros d beta beta' X i j H0 H1 [Hij H]. split; [exact Hij|]. intros r Hr Ni Nj L. apply (H r Hr Ni Nj). clear H. rewrite in_lune_sq in *.
  set (p := nth i X []) in *. set (q := nth j X []) in *. set (s := nth r X []) in *.
  pose proof (cast_nonneg d p s) as A. pose proof (cast_nonneg d q s) as B. pose proof (cast_nonneg d p q) as C.
  assert (Sa : (inject_Z (sqd d p s) == 0 -> inject_Z (sqd d q s) == inject_Z (sqd d p q))%Q).
  { intro E. rewrite (sqd_same d p q s); [reflexivity|]. apply inject_Z_injective. exact E. }
  assert (Sb : (inject_Z (sqd d q s) == 0 -> inject_Z (sqd d p s) == inject_Z (sqd d p q))%Q).
  { intro E. rewrite (sqd_same d q p s); [rewrite (sqd_sym d q p); reflexivity|]. apply inject_Z_injective. exact E. }
  set (a := inject_Z (sqd d p s)) in *. set (b := inject_Z (sqd d q s)) in *. set (c := inject_Z (sqd d p q)) in *. clearbody a b c. destruct L as [L1 L2].
  assert (G : forall a b, (0 <= a -> (a == 0 -> b == c) -> 2 * a <= beta * (a + c - b) -> 2 * a <= beta' * (a + c - b))%Q).
  { clear a b A B L1 L2 Sa Sb. intros a b A Sa L1. destruct (Qlt_le_dec (a + c - b) 0) as [N|N]; [|nra].
    assert (Z0 : (beta * (a + c - b) <= 0)%Q) by nra. assert (E : (a == 0)%Q) by lra. specialize (Sa E). lra. }
  split; [apply G|apply G]; assumption.
Qed.

(** For [beta = 1], the Gabriel graph: no other point sees the edge under an angle of at least 90 degrees. *)
Theorem C102_gabriel : forall d X i j, beta_edge d (sqd d) 1 X i j <->
  i < j < length X /\ forall r, r < length X -> r <> i -> r <> j ->
    (sqd d (nth i X []) (nth j X []) < sqd d (nth i X []) (nth r X []) + sqd d (nth j X []) (nth r X []))%Z.
Proof.
  intros d X i j. unfold beta_edge.
  assert (G : forall p q s, in_lune d 1 (sqd d p q) p q s <-> (sqd d p s + sqd d q s <= sqd d p q)%Z).
  { intros p q s. rewrite in_lune_sq. rewrite Zle_Qle, inject_Z_plus. split; [intros [A B]|intro A; split]; lra. }
  split; intros [A B]; (split; [exact A|]); intros r Hr Ni Nj; specialize (B r Hr Ni Nj); rewrite G in *; lia.
Qed.

(** For [beta = 2], the relative neighbourhood graph: no other point is at most as far from both ends as they are from each other. *)
Theorem C102_relative_neighbours : forall d X i j, beta_edge d (sqd d) 2 X i j <->
  i < j < length X /\ forall r, r < length X -> r <> i -> r <> j ->
    (sqd d (nth i X []) (nth j X []) < Z.max (sqd d (nth i X []) (nth r X [])) (sqd d (nth j X []) (nth r X [])))%Z.
Proof.
  intros d X i j. unfold beta_edge.
  assert (G : forall p q s, in_lune d 2 (sqd d p q) p q s <-> (Z.max (sqd d p s) (sqd d q s) <= sqd d p q)%Z).
  { intros p q s. rewrite in_lune_sq. rewrite Z.max_lub_iff, !Zle_Qle. split; [intros [A B]|intros [A B]]; split; lra. }
  split; intros [A B]; (split; [exact A|]); intros r Hr Ni Nj; specialize (B r Hr Ni Nj); rewrite G in *; lia.
Qed.

(** ** connectivity *)
(** a path of edges whose weights are at most [t] *)
Definition joined_below (K : complex) (t : Z) : nat -> nat -> Prop :=
  clos_refl_sym_trans nat (fun u v => exists s, In s (by_index K) /\ set_eq (verts s) [u; v] /\ (data s <= t)%Z).

(** decidability by looking at all points *)
Lemma edge_dec d beta X i j : i < j < length X ->
  beta_edge d (sqd d) beta X i j \/ exists r, r < length X /\ r <> i /\ r <> j /\ in_lune d beta (sqd d (nth i X []) (nth j X [])) (nth i X []) (nth j X []) (nth r X []).
Proof.
  intro Hij. set (P r := r <> i /\ r <> j /\ in_lune d beta (sqd d (nth i X []) (nth j X [])) (nth i X []) (nth j X []) (nth r X [])).
  assert (D : forall r, P r \/ ~ P r).
  { intro r. unfold P, in_lune, in_ball. destruct (Nat.eq_dec r i); [tauto|]. destruct (Nat.eq_dec r j); [tauto|].
    match goal with |- context [(?a <= ?b)%Q /\ (?c <= ?e)%Q] => destruct (Qlt_le_dec b a) as [N|N]; [right; intros (_ & _ & M & _); apply (Qlt_not_le _ _ N M)|]; destruct (Qlt_le_dec e c) as [N'|N']; [right; intros (_ & _ & _ & M); apply (Qlt_not_le _ _ N' M)|auto] end. }
  assert (G : forall n, (forall r, r < n -> ~ P r) \/ exists r, r < n /\ P r).
  { induction n as [|n [IH|(r & Hr & IH)]]; [left; intros; lia| |right; exists r; split; [lia|exact IH]]. destruct (D n) as [Hn|Hn]; [right; exists n; split; [lia|exact Hn]|].
    left. intros r Hr. destruct (Nat.eq_dec r n) as [->|]; [exact Hn|]. apply IH. lia. }
  destruct (G (length X)) as [H|(r & Hr & H)].
  - left. split; [exact Hij|]. intros r Hr Ni Nj L. apply (H r Hr). unfold P. auto.
  - right. exists r. unfold P in H. tauto.
Qed.

Lemma blocking_closer d beta p q s : (0 <= beta)%Q -> (beta < 2)%Q -> (0 < sqd d p s)%Z -> (0 < sqd d q s)%Z -> in_lune d beta (sqd d p q) p q s ->
  (sqd d p s < sqd d p q)%Z /\ (sqd d q s < sqd d p q)%Z.
Proof.
  intros H0 H1 A B L. apply in_lune_sq in L. destruct L as [L1 L2]. rewrite Zlt_Qlt in A, B |- *. rewrite (Zlt_Qlt (sqd d q s)). change (inject_Z 0) with 0%Q in A, B.
  set (a := inject_Z (sqd d p s)) in *. set (b := inject_Z (sqd d q s)) in *. set (c := inject_Z (sqd d p q)) in *. clearbody a b c.
  assert (X1 : (0 < beta * (a + c - b))%Q) by lra. assert (X2 : (0 < beta * (b + c - a))%Q) by lra.
  assert (P : (0 < beta)%Q) by (destruct (Qlt_le_dec 0 beta); [assumption|assert (beta == 0)%Q by lra; nra]).
  assert (Y1 : (0 < a + c - b)%Q) by nra. assert (Y2 : (0 < b + c - a)%Q) by nra. split; nra.
Qed.

Lemma skeleton_edge_below d beta X K es t i j : is_beta_skeleton d (sqd d) beta X K es -> beta_edge d (sqd d) beta X i j -> (sqd d (nth i X []) (nth j X []) <= t)%Z -> joined_below K t i j.
Proof.
  intros (H1 & _ & H3) He Ht. apply rst_step. exists (Simplex [j; i] (sqd d (nth i X []) (nth j X []))). refine (conj _ (conj _ Ht)).
  - rewrite H1. apply in_or_app. right. apply in_map_iff. exists (i, j). split; [reflexivity|]. apply H3. exact He.
  - intro v. cbn [verts In]. tauto.
Qed.

(** Points of distance at most [t] are connected by edges of length at most [t]: the
    skeleton has the connected components of the neighbourhood graph at every scale. *)
Lemma joined_scale d beta X K es : Forall (fun p => length p = d) X -> NoDup X -> (0 <= beta)%Q -> (beta < 2)%Q -> is_beta_skeleton d (sqd d) beta X K es ->
  forall n i j t, i < length X -> j < length X -> (sqd d (nth i X []) (nth j X []) <= Z.of_nat n)%Z -> (sqd d (nth i X []) (nth j X []) <= t)%Z -> joined_below K t i j.
Proof.
  intros HX HN H0 H1 HK.
  assert (Pos : forall i j, i < length X -> j < length X -> i <> j -> (0 < sqd d (nth i X []) (nth j X []))%Z).
  { intros i j Hi Hj Hne. pose proof (sqd_nonneg d (nth i X []) (nth j X [])). destruct (Z.eq_dec (sqd d (nth i X []) (nth j X [])) 0) as [E|]; [|lia].
    exfalso. apply Hne. rewrite Forall_forall in HX. apply sqd_zero in E; try (apply HX; apply nth_In; assumption). apply (proj1 (NoDup_nth X []) HN); assumption. }
  induction n as [|n IH].
  - intros i j t Hi Hj Hd Ht. destruct (Nat.eq_dec i j) as [->|Hne]; [apply rst_refl|]. specialize (Pos i j Hi Hj Hne). lia.
  - assert (G : forall i j t, i < j -> i < length X -> j < length X -> (sqd d (nth i X []) (nth j X []) <= Z.of_nat (S n))%Z -> (sqd d (nth i X []) (nth j X []) <= t)%Z -> joined_below K t i j).
    { intros i j t Hij Hi Hj Hd Ht. destruct (edge_dec d beta X i j) as [He|(r & Hr & Ni & Nj & L)]; [lia|eapply skeleton_edge_below; eauto|].
      destruct (blocking_closer d beta (nth i X []) (nth j X []) (nth r X []) H0 H1 (Pos i r Hi Hr (not_eq_sym Ni)) (Pos j r Hj Hr (not_eq_sym Nj)) L) as [C1 C2].
      apply (rst_trans _ _ i r j).
      - apply IH; auto; lia.
      - apply rst_sym. apply IH; auto; lia. }
    intros i j t Hi Hj Hd Ht. destruct (Nat.lt_trichotomy i j) as [L|[->|L]]; [apply G; auto|apply rst_refl|]. apply rst_sym. rewrite sqd_sym in Hd, Ht. apply G; auto.
Qed.

Lemma beta_edge_ext d sq sq' beta X i j : (forall a b, a < length X -> b < length X -> sq (nth a X []) (nth b X []) = sq' (nth a X []) (nth b X [])) ->
  beta_edge d sq beta X i j -> beta_edge d sq' beta X i j.
Proof. intros H [A B]. split; [exact A|]. intros r Hr Ni Nj L. apply (B r Hr Ni Nj). rewrite H by lia. exact L. Qed.

Theorem C102_euclidean : forall d beta X K es, Forall (fun p => length p = d) X -> is_beta_skeleton d euclidean_sq beta X K es -> is_beta_skeleton d (sqd d) beta X K es.
Proof.
  intros d beta X K es HX (H1 & H2 & H3).
  assert (E : forall a b, a < length X -> b < length X -> euclidean_sq (nth a X []) (nth b X []) = sqd d (nth a X []) (nth b X [])).
  { intros a b Ha Hb. rewrite Forall_forall in HX. assert (La : length (nth a X []) = d) by (apply HX, nth_In; exact Ha). assert (Lb : length (nth b X []) = d) by (apply HX, nth_In; exact Hb).
    rewrite euclidean_sqd by lia. rewrite La. reflexivity. }
  refine (conj _ (conj H2 _)).
  - rewrite H1. f_equal. apply map_ext_in. intros [i j] He. apply H3 in He. destruct He as [He _]. cbn [fst snd]. rewrite E by lia. reflexivity.
  - intros i j. rewrite H3. split; apply beta_edge_ext; auto. intros; symmetry; auto.
Qed.

Theorem C102_connected : forall d beta X, Forall (fun p => length p = d) X -> NoDup X -> (0 <= beta)%Q -> (beta < 2)%Q ->
  exists K, buildBetaSkeletonNaive euclidean_sq X beta = Ok K /\ forall i j, i < length X -> j < length X ->
    joined K i j /\ forall t, (sqd d (nth i X []) (nth j X []) <= t)%Z -> joined_below K t i j.
Proof.
  intros d beta X HX HN H0 H1. destruct (C101_skeleton d euclidean_sq beta X HX) as (K & es & EK & _ & HK). apply C102_euclidean in HK; [|exact HX].
  exists K. split; [exact EK|]. intros i j Hi Hj.
  assert (G : forall t, (sqd d (nth i X []) (nth j X []) <= t)%Z -> joined_below K t i j).
  { intros t Ht. apply (joined_scale d beta X K es HX HN H0 H1 HK (Z.to_nat (sqd d (nth i X []) (nth j X [])))); auto. pose proof (sqd_nonneg d (nth i X []) (nth j X [])). lia. }
  split; [|exact G]. specialize (G _ (Z.le_refl _)). revert G. unfold joined, joined_below. generalize (sqd d (nth i X []) (nth j X [])) as t. clear. intro t.
  induction 1 as [x y (s & A & B & C)|x|x y _ IH|x y z _ IH1 _ IH2]; [apply rst_step; exists s; auto|apply rst_refl|apply rst_sym; exact IH|eapply rst_trans; eauto].
Qed.

(** FINDING: the lunes are closed.  For [beta = 2], points with the same distance to each
    other have no edges at all, although the relative neighbourhood graph is connected. *)
Theorem C102_triangle_refuted :
  let X := [[1; 0; 0]; [0; 1; 0]; [0; 0; 1]]%Z in
  NoDup X /\ exists K, buildBetaSkeletonNaive euclidean_sq X 2 = Ok K /\ by_index K = [Simplex [0] 0%Z; Simplex [1] 0%Z; Simplex [2] 0%Z].
Proof. split; [repeat constructor; simpl; intuition discriminate|]. eexists. split; vm_compute; reflexivity. Qed.

(** FINDING: a point that occurs twice is separated from the others for [beta >= 1]. *)
Theorem C102_duplicate_refuted : forall p q beta, length p = length q -> p <> q -> (1 <= beta)%Q ->
  exists K, buildBetaSkeletonNaive euclidean_sq [p; p; q] beta = Ok K /\ ~ joined K 0 2.
Proof.
  intros p q beta HL Hne Hb. set (X := [p; p; q]). assert (HX : Forall (fun r => length r = length p) X) by (unfold X; repeat constructor; lia).
  destruct (C101_skeleton (length p) euclidean_sq beta X HX) as (K & es & EK & _ & HK). apply C102_euclidean in HK; [|exact HX]. exists K. split; [exact EK|].
  destruct HK as (H1 & _ & H3). set (d := length p) in *.
  assert (L : in_lune d beta (sqd d p q) p q p).
  { apply in_lune_sq. rewrite sqd_refl, (sqd_sym d q p). pose proof (cast_nonneg d p q) as C. change (inject_Z 0) with 0%Q. split; nra. }
  assert (N : forall i j, In (i, j) es -> i = 0 /\ j = 1).
  { intros i j Hin. apply H3 in Hin. destruct Hin as [Hij Hin]. cbn [length X] in Hij. destruct i as [|[|[|i]]]; destruct j as [|[|[|j]]]; try lia; exfalso.
    - apply (Hin 1); cbn; try lia. exact L.
    - apply (Hin 0); cbn; try lia. exact L. }
  assert (G : forall u v, joined K u v -> (u <= 1 <-> v <= 1)).
  { induction 1 as [u v (s & Hs & Es)|u|u v _ IH|u v w _ IH1 _ IH2]; try tauto. rewrite H1 in Hs. apply in_app_or in Hs. destruct Hs as [Hs|Hs]; apply in_map_iff in Hs.
    - destruct Hs as (a & <- & _). cbn [verts] in Es. assert (A : In u [a]) by (apply Es; simpl; auto). assert (B : In v [a]) by (apply Es; simpl; auto). simpl in A, B. lia.
    - destruct Hs as ([a b] & <- & Hab). apply N in Hab. cbn [fst snd verts] in Es. assert (A : In u [b; a]) by (apply Es; simpl; auto). assert (B : In v [b; a]) by (apply Es; simpl; auto). simpl in A, B. lia. }
  intro J. apply G in J. lia.
Qed.

(** FINDING: three copies of a point are not connected, for any [beta]. *)
Theorem C102_triple_refuted : forall p beta, exists K, buildBetaSkeletonNaive euclidean_sq [p; p; p] beta = Ok K /\ by_index K = [Simplex [0] 0%Z; Simplex [1] 0%Z; Simplex [2] 0%Z].
Proof.
  intros p beta. set (X := [p; p; p]). assert (HX : Forall (fun r => length r = length p) X) by (unfold X; repeat constructor; lia).
  destruct (C101_skeleton (length p) euclidean_sq beta X HX) as (K & es & EK & _ & HK). apply C102_euclidean in HK; [|exact HX]. exists K. split; [exact EK|].
  destruct HK as (H1 & _ & H3). set (d := length p) in *.
  assert (L : in_lune d beta (sqd d p p) p p p) by (apply in_lune_sq; rewrite sqd_refl; change (inject_Z 0) with 0%Q; split; lra).
  destruct es as [|[i j] es]; [exact H1|]. exfalso. destruct (proj1 (H3 i j) (or_introl eq_refl)) as [Hij Hin]. cbn [length X] in Hij.
  destruct i as [|[|[|i]]]; destruct j as [|[|[|j]]]; try lia; [apply (Hin 2)|apply (Hin 1)|apply (Hin 0)]; cbn; try lia; exact L.
Qed.

(** a square and its centre, a point further away *)
Example C101_example :
  let X := [[0; 0]; [4; 0]; [4; 4]; [0; 4]; [2; 2]; [9; 2]]%Z in
  let edges b := match buildBetaSkeletonNaive euclidean_sq X b with Ok K => map (fun s => (verts s, data s)) (skipn 6 (by_index K)) | _ => [] end in
  edges 1%Q = [([4; 0], 8%Z); ([4; 1], 8%Z); ([5; 1], 29%Z); ([4; 2], 8%Z); ([5; 2], 29%Z); ([4; 3], 8%Z)]%nat /\
  edges (1 # 2)%Q = [([1; 0], 16%Z); ([3; 0], 16%Z); ([4; 0], 8%Z); ([5; 0], 85%Z); ([2; 1], 16%Z); ([4; 1], 8%Z); ([5; 1], 29%Z); ([3; 2], 16%Z); ([4; 2], 8%Z); ([5; 2], 29%Z); ([4; 3], 8%Z); ([5; 3], 85%Z); ([5; 4], 49%Z)]%nat /\
  edges 2%Q = [([4; 0], 8%Z); ([4; 1], 8%Z); ([4; 2], 8%Z); ([4; 3], 8%Z)]%nat.
Proof. vm_compute. repeat split; reflexivity. Qed.

Print Assumptions C101_skeleton.
Print Assumptions C102_monotone.
Print Assumptions C102_gabriel.
Print Assumptions C102_relative_neighbours.
Print Assumptions C102_euclidean.
Print Assumptions C102_connected.
Print Assumptions C102_triangle_refuted.
Print Assumptions C102_duplicate_refuted.
Print Assumptions C102_triple_refuted.
