(** * C165, C166: distributions of distances and degrees, diagrams of data descriptors. *)
From Coq Require Import String Ascii.
From Coq Require Import List Arith NArith Bool ZArith QArith Lia Permutation Sorted.
From Verif Require Import LoadFacts DiagramIO PropertiesRaw PropertiesJSON.
From Verif Require Import Base BaseFacts Matrix SpecMatrix PairingFacts DualFacts RepFacts PropertiesMatrix
  SpecHomology HomologyFacts Simplex SimplexFacts SpecComplex Complex ComplexFacts FiltrationFacts History SubcomplexFacts
  PropertiesComplex SpecDiagram Diagram DiagramFacts PropertiesDiagram PropertiesDiagramDims PropertiesDowker
  Rips VietorisRips PropertiesVietorisRips Hausdorff PropertiesHausdorff LoadMatrix StringUtilities PropertiesString SpecText PropertiesSparseTool PointCloudTools.
Import ListNotations.
Local Open Scope list_scope.
Local Open Scope nat_scope.

(** ** C165: specification *)
Definition pair_lt (p q : nat * nat) : Prop := fst p < fst q \/ fst p = fst q /\ snd p < snd q.
(** all pairs [i < j < n] in lexicographic order *)
Definition all_pairs (n : nat) (l : list (nat * nat)) : Prop :=
  StronglySorted pair_lt l /\ (forall i j, In (i, j) l <-> i < j < n).

Lemma ss_app {A} (R : A -> A -> Prop) l m : StronglySorted R l -> StronglySorted R m -> (forall x y, In x l -> In y m -> R x y) -> StronglySorted R (l ++ m).
Proof.
  intros Hl Hm H. induction Hl as [|x l Hl IH Hx]; [exact Hm|]. cbn. constructor.
  - apply IH. intros; apply H; cbn; auto.
  - apply Forall_forall. intros y Hy. apply in_app_iff in Hy. destruct Hy as [Hy|Hy]; [rewrite Forall_forall in Hx; auto|apply H; cbn; auto].
Qed.
Definition the_pairs n := flat_map (fun i => map (fun j => (i, j)) (seq (i + 1) (n - (i + 1)))) (seq 0 n).
Lemma the_pairs_all n : all_pairs n (the_pairs n).
Proof.
  assert (I : forall a m i j, In (i, j) (flat_map (fun i => map (fun j => (i, j)) (seq (i + 1) (n - (i + 1)))) (seq a m)) <-> a <= i < a + m /\ i < j < n).
  { intros a m i j. rewrite in_flat_map. split.
    - intros (k & Hk & H). apply in_map_iff in H. destruct H as (j' & E & Hj). injection E as -> ->. apply in_seq in Hk. apply in_seq in Hj. lia.
    - intro H. exists i. split; [apply in_seq; lia|]. apply in_map_iff. exists j. split; [reflexivity|]. apply in_seq. lia. }
  split; [|intros i j; unfold the_pairs; rewrite I; lia].
  enough (G : forall m a, StronglySorted pair_lt (flat_map (fun i => map (fun j => (i, j)) (seq (i + 1) (n - (i + 1)))) (seq a m))) by apply G.
  induction m as [|m IH]; intro a; [constructor|].
  cbn [seq flat_map]. apply ss_app.
  - clear. generalize (n - (a + 1)). intro k. generalize (a + 1). induction k as [|k IH]; intro b; [constructor|]. cbn [seq map]. constructor; [apply IH|].
    apply Forall_forall. intros p Hp. apply in_map_iff in Hp. destruct Hp as (j & <- & Hj). apply in_seq in Hj. right. cbn. lia.
  - apply IH.
  - intros p [i j] Hp Hq. apply in_map_iff in Hp. destruct Hp as (j' & <- & _). apply I in Hq. left. cbn. lia.
Qed.
Lemma pairs_length n : 2 * length (the_pairs n) = n * (n - 1).
Proof.
  unfold the_pairs.
  assert (G : forall m a, a + m = n -> 2 * length (flat_map (fun i => map (fun j => (i, j)) (seq (i + 1) (n - (i + 1)))) (seq a m)) = m * (m - 1)).
  { induction m as [|m IH]; intros a E; [reflexivity|]. cbn [seq flat_map]. rewrite app_length, map_length, seq_length, Nat.mul_add_distr_l, (IH (S a)) by lia.
    replace (n - (a + 1)) with m by lia. destruct m; nia. }
  apply (G n 0); lia.
Qed.

Theorem C165_distances : forall n dist, exists l, all_pairs n l /\ 2 * length l = n * (n - 1) /\
  pairwiseDistances n dist = map (fun p => (dist (fst p) (snd p) * dist (fst p) (snd p))%Z) l.
Proof.
  intros n dist. exists (the_pairs n). refine (conj (the_pairs_all n) (conj (pairs_length n) _)).
  unfold pairwiseDistances, the_pairs. induction (seq 0 n) as [|i l IH]; [reflexivity|]. cbn [flat_map]. rewrite map_app, map_map, IH. reflexivity.
Qed.

(** ** Degrees *)
Lemma calculate_degrees n dist epsilon : epsilon <> 0%Z -> exists rows, length rows = n /\
  (forall i row, nth_error rows i = Some row -> StronglySorted lt row /\ forall j, In j row <-> j < n /\ (dist i j < epsilon)%Z) /\
  calculateDegrees n dist epsilon = Ok (map (@length nat) rows, map (fun p => fold_right Z.add 0%Z (map (dist (fst p)) (snd p))) (combine (seq 0 n) rows)).
Proof.
  intro He. unfold calculateDegrees. destruct (Z.eqb_spec epsilon 0); [contradiction|].
  set (r := radiusSearch n dist epsilon). exists (fst r).
  assert (L : length (fst r) = n) by (unfold r, radiusSearch; cbn [fst]; rewrite map_length, seq_length; reflexivity).
  assert (HR : forall i, i < n -> exists row, nth_error (fst r) i = Some row /\ nth_error (snd r) i = Some (map (dist i) row) /\ StronglySorted lt row /\ forall j, In j row <-> j < n /\ (dist i j < epsilon)%Z) by (intros i Hi; exact (C72_radius n dist epsilon i Hi)).
  refine (conj L (conj _ _)).
  - intros i row E. assert (Hi : i < n) by (rewrite <- L; apply nth_error_Some; congruence). destruct (HR i Hi) as (row' & E1 & _ & H1 & H2). rewrite E in E1. injection E1 as <-. auto.
  - assert (G : forall m a rows, a + m = n -> skipn a (fst r) = rows -> forall x y,
      foldM (fun acc i => let* is := at_ (fst r) i in let* ds := at_ (snd r) i in Ok (fst acc ++ [length is], snd acc ++ [accumulate_kahan_sorted ds 0])) (seq a m) (x, y) =
      Ok (x ++ map (@length nat) rows, y ++ map (fun p => fold_right Z.add 0%Z (map (dist (fst p)) (snd p))) (combine (seq a m) rows))).
    { induction m as [|m IH]; intros a rows Ha Es x y.
      - cbn [seq foldM combine map]. rewrite skipn_all2 in Es by lia. subst rows. cbn [map]. rewrite !app_nil_r. reflexivity.
      - destruct (HR a) as (row & E1 & E2 & _); [lia|]. cbn [seq foldM]. unfold at_ at 1 2. rewrite E1, E2. cbn [bind fst snd].
        assert (Er : rows = row :: skipn (S a) (fst r)).
        { rewrite <- Es. clear -E1. revert a E1. induction (fst r) as [|z l IHl]; intros [|a] E1; try discriminate; cbn in *; [injection E1 as ->; reflexivity|apply IHl; exact E1]. }
        rewrite (IH (S a) (skipn (S a) (fst r))) by (lia || reflexivity). rewrite Er. cbn [map combine fst snd]. rewrite <- !app_assoc, (proj2 (C58_kahan _ _)). reflexivity. }
    rewrite (G n 0 (fst r)) by (lia || reflexivity). reflexivity.
Qed.

(** the number of points of a set that is given by a predicate, without repetition *)
Theorem C165_degrees : forall n dist epsilon,
  (epsilon = 0%Z -> calculateDegrees n dist epsilon = Ok ([], [])) /\
  (epsilon <> 0%Z -> exists unweighted weighted, calculateDegrees n dist epsilon = Ok (unweighted, weighted) /\
     length unweighted = n /\ length weighted = n /\
     forall i, i < n -> exists near, NoDup near /\ (forall j, In j near <-> j < n /\ (dist i j < epsilon)%Z) /\
       nth_error unweighted i = Some (length near) /\ nth_error weighted i = Some (fold_right Z.add 0%Z (map (dist i) near))).
Proof.
  intros n dist epsilon. split; [intros ->; reflexivity|]. intro He. destruct (calculate_degrees n dist epsilon He) as (rows & L & HR & E).
  eexists _, _. rewrite E. refine (conj eq_refl (conj _ (conj _ _))); [rewrite map_length; exact L|rewrite map_length, combine_length, seq_length; lia|].
  intros i Hi. destruct (nth_error rows i) as [row|] eqn:Er; [|apply nth_error_None in Er; lia]. exists row. destruct (HR i row Er) as [H1 H2].
  refine (conj _ (conj H2 (conj _ _))); [apply SSlt_NoDup; exact H1|apply map_nth_error; exact Er|].
  assert (N : nth_error (combine (seq 0 n) rows) i = Some (i, row)).
  { clear -Er Hi. assert (G : forall m a i rows, i < m -> nth_error rows i = Some row -> nth_error (combine (seq a m) rows) i = Some (a + i, row)).
    { induction m as [|m IH]; intros a k rs Hk En; [lia|]. destruct rs as [|r rs]; [destruct k; discriminate|]. destruct k as [|k]; cbn in *; [injection En as ->; rewrite Nat.add_0_r; reflexivity|].
      rewrite (IH (S a) k rs) by (lia || assumption). do 2 f_equal. lia. }
    apply (G n 0 i rows Hi Er). }
  rewrite (map_nth_error _ _ _ N). reflexivity.
Qed.

(** With distances that are zero only on the diagonal, the degree of the neighbourhood graph is one smaller, because every point is
    counted among its own neighbours *)
Theorem C165_degree_refuted : exists n dist epsilon unweighted weighted, (forall i, dist i i = 0%Z) /\ (forall i j, dist i j = dist j i) /\
  calculateDegrees n dist epsilon = Ok (unweighted, weighted) /\
  exists i others, i < n /\ NoDup others /\ (forall j, In j others <-> j < n /\ j <> i /\ (dist i j < epsilon)%Z) /\ nth_error unweighted i <> Some (length others).
Proof.
  exists 2, (fun i j => Z.abs (Z.of_nat i - Z.of_nat j)), 2%Z. eexists _, _. refine (conj _ (conj _ (conj _ _))); [intros; lia|intros; lia|vm_compute; reflexivity|].
  exists 0, [1]. refine (conj _ (conj _ (conj _ _))); [lia|repeat constructor; easy| |discriminate].
  intro j. split; [intros [<-|[]]; cbn; lia|]. intros (H1 & H2 & _). left. lia.
Qed.

(** ** The document *)
Definition number_values {V} (num : V -> N) (l : list V) : json := JArr (map (fun x => JNum (num x)) l).
Lemma json_numbers_elems {V} (show : V -> str) (num : V -> N) l : (forall x, In x l -> numeral (show x) (num x)) -> l <> [] ->
  jelems (json_numbers show l) (map (fun x => JNum (num x)) l).
Proof.
  induction l as [|x l IH]; intros H Hne; [contradiction|]. destruct l as [|y l].
  - cbn [json_numbers map]. apply (E_one [] (show x) _ []); [blank|apply J_num, H; left; reflexivity|blank|cbn; rewrite app_nil_r; reflexivity].
  - change (json_numbers show (x :: y :: l)) with (show x ++ chars "," ++ json_numbers show (y :: l)).
    apply (E_cons [] (show x) (JNum (num x)) [] (json_numbers show (y :: l)) (map (fun x => JNum (num x)) (y :: l))); [blank|apply J_num, H; left; reflexivity|blank| |reflexivity].
    apply IH; [intros; apply H; right; assumption|discriminate].
Qed.
Lemma jplain_dec s : forallb (fun c => negb (Ascii.eqb c quote) && negb (Ascii.eqb c "\"%char) && (32 <=? nat_of_ascii c)) s = true -> jplain s.
Proof.
  intros H c Hc. rewrite forallb_forall in H. specialize (H c Hc). rewrite !andb_true_iff, !negb_true_iff, !Ascii.eqb_neq, Nat.leb_le in H. tauto.
Qed.

Theorem C165_document : forall show num n dist epsilon, (forall z, numeral (show z) (num z)) -> 2 <= n ->
  exists text unweighted weighted, calculateDegrees n dist epsilon = Ok (unweighted, weighted) /\
    (forall other, rips_distributions show n dist other (chars "euclidean") epsilon = Ok (text ++ [newline]) /\
                   rips_distributions show n other dist (chars "manhattan") epsilon = Ok (text ++ [newline])) /\
    jtext text (JObj ((chars "distances", number_values num (pairwiseDistances n dist)) ::
      if (epsilon =? 0)%Z then [] else [(chars "unweighted_degrees", number_values N.of_nat unweighted); (chars "weighted_degrees", number_values num weighted)])).
Proof.
  intros show num n dist epsilon Hs Hn.
  assert (Hd : pairwiseDistances n dist <> []).
  { destruct (C165_distances n dist) as (l & [_ H] & _ & E). rewrite E. intro X. apply map_eq_nil in X. subst l. destruct (proj2 (H 0 1)); lia. }
  assert (HA : forall {V} (f : V -> str) (g : V -> N) l, (forall x, In x l -> numeral (f x) (g x)) -> l <> [] -> jtext (chars "[" ++ json_numbers f l ++ chars "]") (number_values g l)).
  { intros V f g l H1 H2. apply (J_arr (json_numbers f l)); [apply json_numbers_elems; assumption|reflexivity]. }
  assert (A1 := HA Z show num _ (fun x _ => Hs x) Hd).
  destruct (C165_degrees n dist epsilon) as [H0 H1]. destruct (Z.eqb_spec epsilon 0) as [->|He].
  - rewrite (H0 eq_refl). eexists. exists [], []. refine (conj eq_refl (conj _ _)).
    2: { eapply (J_obj _ _ _ (M_one ([newline] ++ chars "  ") (chars "distances") [] (chars " ") _ _ [newline] _ ltac:(blank) ltac:(apply jplain_dec; reflexivity) ltac:(blank) ltac:(blank) A1 ltac:(blank) eq_refl) eq_refl). }
    assert (X : distributions_output show (pairwiseDistances n dist) [] [] = (chars "{" ++ (([newline] ++ chars "  ") ++ [quote] ++ chars "distances" ++ [quote] ++ [] ++ chars ":" ++ chars " " ++ (chars "[" ++ json_numbers show (pairwiseDistances n dist) ++ chars "]") ++ [newline]) ++ chars "}") ++ [newline]).
    { unfold distributions_output, containerAsJSON. destruct (pairwiseDistances n dist) as [|z l]; [contradiction|]. generalize (json_numbers show (z :: l)). intro t. rewrite <- !app_assoc. reflexivity. }
    intro other. unfold rips_distributions. rewrite (H0 eq_refl). cbn [bind]. rewrite X. split; reflexivity.
  - destruct (H1 He) as (u & w & E & Lu & Lw & _). rewrite E. eexists. exists u, w. refine (conj eq_refl (conj _ _)).
    2: { assert (Hu : u <> []) by (intros ->; cbn in Lu; lia). assert (Hw : w <> []) by (intros ->; cbn in Lw; lia).
      assert (A2 := HA nat print_nat N.of_nat u (fun x _ => print_nat_numeral x) Hu). assert (A3 := HA Z show num w (fun x _ => Hs x) Hw).
      eapply (J_obj _ _ _ (M_cons ([newline] ++ chars "  ") (chars "distances") [] (chars " ") _ _ [newline] _ _ _ ltac:(blank) ltac:(apply jplain_dec; reflexivity) ltac:(blank) ltac:(blank) A1 ltac:(blank)
        (M_cons ([newline] ++ chars "  ") (chars "unweighted_degrees") [] (chars " ") _ _ [newline] _ _ _ ltac:(blank) ltac:(apply jplain_dec; reflexivity) ltac:(blank) ltac:(blank) A2 ltac:(blank)
        (M_one ([newline] ++ chars "  ") (chars "weighted_degrees") [] (chars " ") _ _ [newline] _ ltac:(blank) ltac:(apply jplain_dec; reflexivity) ltac:(blank) ltac:(blank) A3 ltac:(blank) eq_refl) eq_refl) eq_refl) eq_refl). }
    intro other. unfold rips_distributions. rewrite E. cbn [bind].
    split; cbv [str_eqb]; cbn -[distributions_output]; f_equal; unfold distributions_output, containerAsJSON; (destruct (pairwiseDistances n dist) as [|z l]; [contradiction|]);
      (destruct u as [|x u]; [cbn in Lu; lia|]); (destruct w as [|y w]; [cbn in Lw; lia|]);
      generalize (json_numbers show (z :: l)) (json_numbers print_nat (x :: u)) (json_numbers show (y :: w)); intros t1 t2 t3; do 4 (rewrite <- ?app_assoc; cbn [app]); reflexivity.
Qed.

Theorem C165_unknown : forall show n e m name epsilon, name <> chars "euclidean" -> name <> chars "manhattan" ->
  rips_distributions show n e m name epsilon = Ok (chars "{" ++ [newline] ++ chars "}" ++ [newline]).
Proof.
  intros show n e m name epsilon H1 H2. unfold rips_distributions.
  destruct (str_eqb name (chars "euclidean")) eqn:E1; [apply str_eqb_spec in E1; contradiction|].
  destruct (str_eqb name (chars "manhattan")) eqn:E2; [apply str_eqb_spec in E2; contradiction|]. reflexivity.
Qed.

Definition show_nat_of (z : Z) : str := print_nat (Z.to_nat z).
(** A single point has no distances, but degrees; a comma follows the opening brace *)
Theorem C165_single_refuted : exists text, rips_distributions show_nat_of 1 (fun _ _ => 0%Z) (fun _ _ => 0%Z) (chars "euclidean") 2 = Ok text /\ parse text = None.
Proof. eexists. split; [vm_compute; reflexivity|vm_compute; reflexivity]. Qed.

Definition line_dist (i j : nat) : Z := Z.abs (nth i [0; 1; 3] 0 - nth j [0; 1; 3] 0)%Z.
Example C165_example :
  pairwiseDistances 3 line_dist = [1; 9; 4]%Z /\ calculateDegrees 3 line_dist 3 = Ok ([2; 3; 2], [1; 3; 2]%Z) /\
  exists text, rips_distributions show_nat_of 3 line_dist line_dist (chars "manhattan") 3 = Ok text /\
    parse text = Some (JObj [(chars "distances", JArr [JNum 1; JNum 9; JNum 4]); (chars "unweighted_degrees", JArr [JNum 2; JNum 3; JNum 2]); (chars "weighted_degrees", JArr [JNum 1; JNum 3; JNum 2])]).
Proof. refine (conj _ (conj _ _)); [vm_compute; reflexivity|vm_compute; reflexivity|]. eexists. split; vm_compute; reflexivity. Qed.
Example C165_show : forall z, numeral (show_nat_of z) (N.of_nat (Z.to_nat z)).
Proof. intro z. apply print_nat_numeral. Qed.

(** ** C166: normalised and inverted values *)
Definition least (l : list Q) (m : Q) : Prop := In m l /\ forall x, In x l -> (m <= x)%Q.
Definition greatest (l : list Q) (m : Q) : Prop := In m l /\ forall x, In x l -> (x <= m)%Q.
Lemma minQ_least l : forall a, least (a :: l) (minQ a l).
Proof.
  unfold minQ. induction l as [|x l IH]; intro a; cbn [fold_left].
  - split; [left; reflexivity|intros x [<-|[]]; apply Qle_refl].
  - destruct (Qle_bool a x) eqn:E.
    + apply Qle_bool_iff in E. destruct (IH a) as [H1 H2]. split; [destruct H1; [left; assumption|right; right; assumption]|].
      intros y [<-|[<-|Hy]]; [apply H2; left; reflexivity|eapply Qle_trans; [apply H2; left; reflexivity|exact E]|apply H2; right; exact Hy].
    + assert (Hx : (x <= a)%Q) by (destruct (Qlt_le_dec a x) as [H|H]; [apply Qlt_le_weak, Qle_bool_iff in H; congruence|exact H]).
      destruct (IH x) as [H1 H2]. split; [right; exact H1|]. intros y [<-|Hy]; [eapply Qle_trans; [apply H2; left; reflexivity|exact Hx]|apply H2; exact Hy].
Qed.
Lemma maxQ_greatest l : forall a, greatest (a :: l) (maxQ a l).
Proof.
  unfold maxQ. induction l as [|x l IH]; intro a; cbn [fold_left].
  - split; [left; reflexivity|intros x [<-|[]]; apply Qle_refl].
  - destruct (Qle_bool x a) eqn:E.
    + apply Qle_bool_iff in E. destruct (IH a) as [H1 H2]. split; [destruct H1; [left; assumption|right; right; assumption]|].
      intros y [<-|[<-|Hy]]; [apply H2; left; reflexivity|eapply Qle_trans; [exact E|apply H2; left; reflexivity]|apply H2; right; exact Hy].
    + assert (Hx : (a <= x)%Q) by (destruct (Qlt_le_dec x a) as [H|H]; [apply Qlt_le_weak, Qle_bool_iff in H; congruence|exact H]).
      destruct (IH x) as [H1 H2]. split; [right; exact H1|]. intros y [<-|Hy]; [eapply Qle_trans; [exact Hx|apply H2; left; reflexivity]|apply H2; exact Hy].
Qed.

(** Values are in [0..1], both ends occur, and the order is the same; values that are all equal are unchanged *)
Theorem C166_normalise : forall values mn mx, least values mn -> greatest values mx -> exists f, normalizeValues values = map f values /\
  (mn == mx -> forall x, f x = x)%Q /\
  (~ mn == mx -> (exists x, In x values /\ f x == 0) /\ (exists x, In x values /\ f x == 1) /\
     (forall x, In x values -> 0 <= f x <= 1) /\ (forall x y, x < y <-> f x < f y) /\
     (* distances are scaled *)
     forall x y, (f y - f x) * (mx - mn) == y - x)%Q.
Proof.
  intros values mn mx [Imn Hmn] [Imx Hmx]. unfold normalizeValues. destruct values as [|a r]; [destruct Imn|].
  destruct (minQ_least r a) as [I1 H1]. destruct (maxQ_greatest r a) as [I2 H2]. set (lo := minQ a r) in *. set (hi := maxQ a r) in *.
  assert (E1 : (lo == mn)%Q) by (apply Qle_antisym; auto). assert (E2 : (hi == mx)%Q) by (apply Qle_antisym; auto).
  destruct (Qeq_bool lo hi) eqn:E.
  - apply Qeq_bool_iff in E. exists (fun x => x). rewrite map_id. refine (conj eq_refl (conj (fun _ _ => eq_refl) _)). intro X. exfalso. apply X. rewrite <- E1, <- E2. exact E.
  - assert (N : ~ (lo == hi)%Q) by (intro X; apply Qeq_bool_iff in X; congruence).
    exists (fun v => (v - lo) / (hi - lo))%Q. refine (conj eq_refl (conj _ _)); [intro X; exfalso; apply N; rewrite E1, E2; exact X|]. intros _.
    assert (P : (0 < hi - lo)%Q).
    { destruct (Qlt_le_dec lo hi) as [H|H]; [apply (proj1 (Qlt_minus_iff lo hi) H)|]. exfalso. apply N. apply Qle_antisym; [apply H1; exact I2|exact H]. }
    assert (P' : ~ (hi - lo == 0)%Q) by (intro X; rewrite X in P; apply (Qlt_irrefl 0 P)).
    refine (conj _ (conj _ (conj _ (conj _ _)))).
    + exists lo. split; [exact I1|]. field. exact P'.
    + exists hi. split; [exact I2|]. field. exact P'.
    + intros x Hx. split.
      * apply Qle_shift_div_l; [exact P|]. rewrite Qmult_0_l. apply (proj1 (Qle_minus_iff lo x)). apply H1, Hx.
      * apply Qle_shift_div_r; [exact P|]. rewrite Qmult_1_l. apply Qplus_le_l. apply H2, Hx.
    + intros x y. unfold Qdiv. rewrite Qmult_lt_r by (apply Qinv_lt_0_compat; exact P). symmetry. apply (Qplus_lt_l x y (- lo)).
    + intros x y. rewrite <- E1, <- E2. field. exact P'.
Qed.

(** Values are not negative, zero occurs, and the order is reversed *)
Theorem C166_invert : forall values mx, greatest values mx -> exists f, invertValues values = map f values /\
  (exists x, In x values /\ f x == 0)%Q /\ (forall x, In x values -> 0 <= f x)%Q /\ (forall x y, x < y <-> f y < f x)%Q /\ forall x y, (f y - f x == x - y)%Q.
Proof.
  intros values mx [Imx Hmx]. unfold invertValues. destruct values as [|a r]; [destruct Imx|].
  destruct (maxQ_greatest r a) as [I2 H2]. set (hi := maxQ a r) in *. exists (fun v => hi - v)%Q. refine (conj eq_refl (conj _ (conj _ (conj _ _)))).
  - exists hi. split; [exact I2|ring].
  - intros x Hx. apply (Qplus_le_l _ _ x). setoid_replace (hi - x + x)%Q with hi by ring. rewrite Qplus_0_l. apply H2, Hx.
  - intros x y. split; intro H.
    + apply (Qplus_lt_l _ _ (x + y - hi)). setoid_replace (hi - y + (x + y - hi))%Q with x by ring. setoid_replace (hi - x + (x + y - hi))%Q with y by ring. exact H.
    + apply (Qplus_lt_l _ _ (hi - x - y)). setoid_replace (x + (hi - x - y))%Q with (hi - y)%Q by ring. setoid_replace (y + (hi - x - y))%Q with (hi - x)%Q by ring. exact H.
  - intros x y. ring.
Qed.
Example C166_values : Forall2 Qeq (normalizeValues [3; 1; 5]%Q) [1 # 2; 0; 1]%Q /\ Forall2 Qeq (invertValues [3; 1; 5]%Q) [2; 4; 0]%Q /\ normalizeValues [3; 3]%Q = [3; 3]%Q.
Proof. refine (conj _ (conj _ _)); [repeat constructor|repeat constructor|reflexivity]. Qed.

(** ** C166: diagrams *)
Definition cleaned (inf : Z) (rem : bool) (D : diagram) : diagram := let D := removeDiagonal D in if rem then removeUnpaired inf D else D.
Lemma cleaned_points inf rem ds d : points_of (map (cleaned inf rem) ds) d = filter (fun p => negb (fst p =? snd p)%Z && negb (rem && (snd p =? inf)%Z)) (points_of ds d).
Proof.
  unfold points_of. induction ds as [|D ds IH]; [reflexivity|]. cbn [map flat_map]. rewrite filter_app, IH. f_equal.
  destruct rem; unfold cleaned; cbn [removeDiagonal removeUnpaired dgm_dim points]; (destruct (dgm_dim D =? d); [|reflexivity]);
    induction (points D) as [|p l IHl]; try reflexivity; cbn [filter andb negb]; unfold isUnpaired in *; destruct (fst p =? snd p)%Z; cbn [filter andb negb]; try exact IHl;
    destruct (snd p =? inf)%Z; cbn [negb]; rewrite ?IHl; reflexivity.
Qed.
Lemma cleaned_dims inf rem ds : map dgm_dim (map (cleaned inf rem) ds) = map dgm_dim ds.
Proof. rewrite map_map. apply map_ext. intro D. destruct rem; reflexivity. Qed.

Lemma diagram_deaths inf order a K dual all ds : (forall l, Permutation (order l) l) -> reachable K -> closed (by_index K) -> filtration_order (by_index K) ->
  calculatePersistenceDiagrams inf order a K dual all = Ok ds -> forall d q, In q (points_of ds d) -> snd q = inf \/ exists s, In s (by_index K) /\ snd q = data s.
Proof.
  intros Ho HR HC HF E d q Hq. destruct (pipeline inf K all HR HC HF) as (M & p & p1 & ds' & _ & _ & _ & _ & _ & _ & Hb & Ed & H).
  rewrite (H order a dual Ho) in E. injection E as <-. rewrite (points_of_pairs inf K p1 ds' d (reachable_kwf K HR) Hb Ed) in Hq.
  apply in_map_iff in Hq. destruct Hq as ([i o] & <- & _). unfold pair_point. cbn [fst snd]. destruct o as [j|]; [|left; reflexivity].
  destruct (Nat.ltb_spec j (length (by_index K))) as [Hj|Hj]; [|left; reflexivity]. right. unfold data_at.
  destruct (nth_error (by_index K) j) as [s|] eqn:Es; [|apply nth_error_None in Es; lia]. rewrite (nth_error_nth _ _ dummy_simplex Es). exists s. split; [eapply nth_error_In; exact Es|reflexivity].
Qed.

Theorem C166_diagrams : forall inf lowest order horder a rem n dist epsilon dimension values,
  (forall l, Permutation (order l) l) -> (forall l, Permutation (horder l) l) -> n <= length values -> (forall z, In z values -> lowest <= z < inf)%Z ->
  exists K M ds, descriptor_diagrams inf lowest order horder a rem n dist epsilon dimension values = Ok ds /\
    (* the filtered complex: *)
    (forall vs, NoDup vs -> vs <> [] ->
       (has (by_index K) vs <-> (forall v, In v vs -> v < n) /\ length vs <= S dimension /\ near dist epsilon vs)) /\
    (forall s, In s (by_index K) -> is_max_over (fun v => nth v values 0%Z) (verts s) (data s)) /\
    closed (by_index K) /\ filtration_order (by_index K) /\ ascending_data (by_index K) /\ makeBoundaryMatrix K 0 = Ok M /\
    (* the diagrams: *)
    map dgm_dim ds = seq 0 (length ds) /\
    (forall D q, In D ds -> In q (points D) -> fst q <> snd q /\ (rem = true -> snd q <> inf)) /\
    forall d x y, (exists s, In s (by_index K) /\ S d < length (verts s)) -> (x <= y < inf)%Z ->
      if rem then exists essential, persistent_betti (cols M) (dims M) (sublevel K x) (k_size K) d essential /\
                    persistent_betti (cols M) (dims M) (sublevel K x) (sublevel K y) d (alive (points_of ds d) x y + essential)
      else persistent_betti (cols M) (dims M) (sublevel K x) (sublevel K y) d (alive (points_of ds d) x y).
Proof.
  intros inf lowest order horder a rem n dist epsilon dimension values Ho Hh Hlen Hv.
  destruct (C71_values order n dist epsilon dimension lowest values Ho Hlen) as (K & EK & RK & HK & DK & CK & FK & AK); [intros z Hz; apply Hv; exact Hz|].
  destruct (C55_diagrams_give_persistent_ranks inf horder a K true false Hh RK CK FK AK) as (M & ds & EM & Ed & HB).
  destruct (C159_dimensions inf horder a K true false Hh RK CK FK) as (_ & ds' & _ & Ed' & Es & _). rewrite Ed in Ed'. injection Ed' as <-.
  pose proof (diagram_deaths inf horder a K true false ds Hh RK CK FK Ed) as Hdeath.
  assert (HD : forall s, In s (by_index K) -> (data s < inf)%Z).
  { intros s Hs. destruct (DK s Hs) as [(v & Hv1 & Ev) _]. rewrite <- Ev. apply Hv. apply nth_In.
    assert (Hn : v < n); [|lia]. destruct (kwf_good K (reachable_kwf K RK) s Hs) as [Ws _]. apply (HK (verts s)); [apply SSgt_NoDup; exact Ws|intro X; rewrite X in Hv1; destruct Hv1| |exact Hv1].
    exists s. split; [exact Hs|intro; reflexivity]. }
  exists K, M, (map (cleaned inf rem) ds).
  refine (conj _ (conj HK (conj DK (conj CK (conj FK (conj AK (conj EM (conj _ (conj _ _))))))))).
  - unfold descriptor_diagrams. rewrite EK. cbn [bind]. rewrite Ed. reflexivity.
  - rewrite cleaned_dims, map_length. exact Es.
  - intros D q HD' Hq. apply in_map_iff in HD'. destruct HD' as (D' & <- & _). destruct rem; unfold cleaned in Hq; cbn [removeDiagonal removeUnpaired points] in Hq.
    + apply filter_In in Hq. destruct Hq as [Hq U]. apply filter_In in Hq. destruct Hq as [_ Hq]. apply negb_true_iff, Z.eqb_neq in Hq. unfold isUnpaired in U. apply negb_true_iff, Z.eqb_neq in U. auto.
    + apply filter_In in Hq. destruct Hq as [_ Hq]. apply negb_true_iff, Z.eqb_neq in Hq. split; [exact Hq|discriminate].
  - intros d x y Hd Hxy. specialize (HB d x). pose proof (HB y (or_intror Hd) ltac:(lia)) as B1. pose proof (HB (inf - 1)%Z (or_intror Hd) ltac:(lia)) as B2.
    assert (ES : sublevel K (inf - 1) = k_size K).
    { unfold sublevel, k_size. rewrite filter_all; [reflexivity|]. intros s Hs. apply Z.leb_le. specialize (HD s Hs). lia. }
    rewrite ES in B2. specialize (Hdeath d). unfold alive. rewrite cleaned_points.
    assert (HQ : forall q, In q (points_of ds d) -> snd q = inf \/ (snd q < inf)%Z) by (intros q Hq; destruct (Hdeath q Hq) as [H|(s & Hs & H)]; [left; exact H|right; rewrite H; apply HD; exact Hs]).
    destruct rem.
    + eexists. split; [exact B2|]. match goal with |- persistent_betti _ _ _ _ _ ?c => match type of B1 with persistent_betti _ _ _ _ _ ?c' => replace c with c' end end; [exact B1|].
      clear -HQ Hxy. induction (points_of ds d) as [|q l IH]; [reflexivity|]. specialize (IH (fun q Hq => HQ q (or_intror Hq))). specialize (HQ q (or_introl eq_refl)). cbn [filter andb].
      destruct (Z.eqb_spec (fst q) (snd q)); destruct (Z.eqb_spec (snd q) inf); cbn [negb andb filter]; destruct (Z.leb_spec (fst q) x); destruct (Z.ltb_spec y (snd q)); destruct (Z.ltb_spec (inf - 1) (snd q)); cbn [andb length]; try lia; rewrite ?Nat.add_succ_r; try (rewrite IH; reflexivity).
    + match goal with |- persistent_betti _ _ _ _ _ ?c => match type of B1 with persistent_betti _ _ _ _ _ ?c' => replace c with c' end end; [exact B1|].
      clear -HQ Hxy. induction (points_of ds d) as [|q l IH]; [reflexivity|]. specialize (IH (fun q Hq => HQ q (or_intror Hq))). cbn [filter andb].
      destruct (Z.eqb_spec (fst q) (snd q)); cbn [negb andb filter]; destruct (Z.leb_spec (fst q) x); destruct (Z.ltb_spec y (snd q)); cbn [andb length]; try lia; try (rewrite IH; reflexivity).
Qed.

(** The default threshold is zero: no diagrams at all *)
Theorem C166_default_epsilon : forall inf lowest order horder a rem n dist dimension values,
  (forall l, Permutation (order l) l) -> (forall l, Permutation (horder l) l) -> n <= length values -> (forall z, In z values -> lowest <= z)%Z ->
  (forall i j, 0 <= dist i j)%Z ->
  descriptor_diagrams inf lowest order horder a rem n dist 0 dimension values = Ok [].
Proof.
  intros inf lowest order horder a rem n dist dimension values Ho Hh Hlen Hv Hd.
  destruct (C71_values order n dist 0 dimension lowest values Ho Hlen Hv) as (K & EK & RK & HK & DK & CK & FK & AK).
  destruct (C159_dimensions inf horder a K true false Hh RK CK FK) as (M & ds & _ & Ed & _ & _ & H0 & HT).
  assert (E : ds = []).
  { destruct (by_index K) as [|s l] eqn:EL; [apply H0; reflexivity|]. apply length_zero_iff_nil.
    assert (H1 : forall s, In s (by_index K) -> length (verts s) = 1).
    { intros t Ht. destruct (kwf_good K (reachable_kwf K RK) t Ht) as [Wt Nt]. rewrite EL in Ht.
      assert (X : has (s :: l) (verts t)) by (exists t; split; [exact Ht|intro; reflexivity]).
      apply HK in X; [|apply SSgt_NoDup; exact Wt|exact Nt]. destruct X as (_ & _ & X). destruct (verts t) as [|v [|w r]] eqn:Ev; [contradiction|reflexivity|].
      exfalso. unfold wf in Wt. rewrite Ev in Wt. apply StronglySorted_inv in Wt. destruct Wt as [_ Wt]. apply Forall_inv in Wt.
      pose proof (X w v (or_intror (or_introl eq_refl)) (or_introl eq_refl)) as Y. specialize (Hd w v). unfold gt in Wt. specialize (Y ltac:(lia)). lia. }
    rewrite EL in H1. apply (HT 0).
    - exists s. split; [left; reflexivity|apply H1; left; reflexivity].
    - intros t Ht. rewrite (H1 t Ht). lia. }
  unfold descriptor_diagrams. rewrite EK. cbn [bind]. rewrite Ed, E. reflexivity.
Qed.

(** An unknown name of a descriptor gives no values, and the first one is read nevertheless *)
Theorem C166_unknown_refuted : forall inf lowest order horder a rem n dist epsilon dimension name (density eccentricity gaussian : list Z), (forall l, Permutation (order l) l) ->
  name <> chars "density" -> name <> chars "eccentricity" -> name <> chars "gaussian" -> 0 < n ->
  descriptor_diagrams inf lowest order horder a rem n dist epsilon dimension (calculateDataDescriptor name density eccentricity gaussian) = UB.
Proof.
  intros inf lowest order horder a rem n dist epsilon dimension name D E G Ho N1 N2 N3 Hn.
  assert (X : calculateDataDescriptor name D E G = []).
  { unfold calculateDataDescriptor.
    destruct (str_eqb name (chars "density")) eqn:E1; [apply str_eqb_spec in E1; contradiction|].
    destruct (str_eqb name (chars "eccentricity")) eqn:E2; [apply str_eqb_spec in E2; contradiction|].
    destruct (str_eqb name (chars "gaussian")) eqn:E3; [apply str_eqb_spec in E3; contradiction|]. reflexivity. }
  rewrite X. unfold descriptor_diagrams, buildVietorisRipsComplex_values.
  destruct (expanded order n dist epsilon dimension Ho) as (K & L & EK & EL & RL & CL & HL & _). rewrite EK. cbn [bind]. rewrite EL. cbn [bind].
  unfold assignMaximumData, assignData. destruct (by_index L) as [|s l] eqn:El.
  - assert (H : has [] [0]); [|destruct H as (s & [] & _)]. apply HL; [repeat constructor; easy|easy|].
    refine (conj _ (conj _ _)); [intros v [<-|[]]; lia|cbn; lia|]. intros u v [<-|[]] [<-|[]]; lia.
  - destruct (kwf_good L (reachable_kwf L RL) s) as [_ Ns]; [rewrite El; left; reflexivity|].
    cbn [foldM]. unfold assign_data_step at 1. destruct (verts s) as [|v vs]; [contradiction|]. cbn [foldM]. unfold get_. destruct (vertex_index (k_vertices L) v); reflexivity.
Qed.
Theorem C166_names : forall V (density eccentricity gaussian : list V),
  calculateDataDescriptor (chars "density") density eccentricity gaussian = density /\
  calculateDataDescriptor (chars "eccentricity") density eccentricity gaussian = eccentricity /\
  calculateDataDescriptor (chars "gaussian") density eccentricity gaussian = gaussian.
Proof. intros. repeat split. Qed.

(** The output is a document with all diagrams *)
Theorem C166_document : forall V (show : V -> str) inf name ds, jplain name ->
  (forall D, In D ds -> forall p, In p (dg_points D) -> jplain (show (fst p)) /\ jplain (show (snd p))) ->
  exists text vs, descriptor_output show inf name ds = text ++ [newline] /\
    Forall2 (fun D v => jtext (writeJSON show inf D name []) v) ds vs /\ jtext text (JObj [(chars "diagrams", JArr vs)]).
Proof.
  intros V show inf name ds Hn Hp.
  assert (W : exists vs, Forall2 (fun D v => jtext (writeJSON show inf D name []) v) ds vs).
  { induction ds as [|D ds IH]; [exists []; constructor|]. destruct IH as [vs IH]; [intros; apply (Hp D0); [right; assumption|assumption]|].
    eexists. constructor; [|exact IH]. apply (C124_write V show inf D name []); [apply Hp; left; reflexivity|exact Hn|intros kv []]. }
  destruct W as [vs W].
  set (body := [newline] ++ comma_separated (map (fun D => writeJSON show inf D name []) ds) ++ [newline] ++ chars "  ").
  assert (A : jtext (chars "[" ++ body ++ chars "]") (JArr vs)).
  { destruct W as [|D v ds vs Hv W].
    - apply (J_arr0 body); [unfold body; cbn; blank|reflexivity].
    - apply (J_arr body); [|reflexivity]. unfold body. clear -Hv W. revert D v Hv. induction W as [|D' v' ds vs Hv' W IH]; intros D v Hv.
      + apply (E_one [newline] (writeJSON show inf D name []) v ([newline] ++ chars "  ")); [blank|exact Hv|blank|reflexivity].
      + apply (E_cons [newline] (writeJSON show inf D name []) v [] _ (v' :: vs)  _ ltac:(blank) Hv ltac:(blank) (IH D' v' Hv')). cbn [map comma_separated]. rewrite <- !app_assoc. reflexivity. }
  eexists. exists vs. refine (conj _ (conj W _)).
  2: { eapply (J_obj _ _ _ (M_one [newline] (chars "diagrams") [] (chars " ") _ _ [newline] _ ltac:(blank) ltac:(apply jplain_dec; reflexivity) ltac:(blank) ltac:(blank) A ltac:(blank) eq_refl)). reflexivity. }
  unfold descriptor_output, body. rewrite <- !app_assoc. reflexivity.
Qed.

Definition square_dist (i j : nat) : Z := if i =? j then 0%Z else if (i + j) mod 2 =? 1 then 2%Z else 3%Z.
Example C166_example :
  descriptor_diagrams 99 (-99) (fun l => l) (fun l => l) AStandard false 4 square_dist 3 2 [1; 2; 1; 4]%Z = Ok [Diagram 0 [(1, 99); (1, 2)]%Z] /\
  descriptor_diagrams 99 (-99) (fun l => l) (fun l => l) AStandard true 4 square_dist 3 2 [1; 2; 1; 4]%Z = Ok [Diagram 0 [(1, 2)]%Z] /\
  descriptor_diagrams 99 (-99) (fun l => l) (fun l => l) AStandard true 4 square_dist 0 2 [1; 2; 1; 4]%Z = Ok [].
Proof. refine (conj _ (conj _ _)); vm_compute; reflexivity. Qed.

Print Assumptions C165_distances.
Print Assumptions C165_degrees.
Print Assumptions C165_document.
Print Assumptions C165_single_refuted.
Print Assumptions C166_normalise.
Print Assumptions C166_invert.
Print Assumptions C166_diagrams.
Print Assumptions C166_default_epsilon.
Print Assumptions C166_unknown_refuted.
Print Assumptions C166_document.
