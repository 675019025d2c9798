(** * C87, C88: adjacency matrices and bipartite adjacency matrices. *)
From Coq Require Import String.
From Coq Require Import List Arith Bool ZArith Ascii Lia Sorted Permutation.
From Verif Require Import Base BaseFacts Simplex SimplexFacts SpecComplex Complex ComplexFacts FiltrationFacts History Subcomplex SubcomplexFacts PairingFacts RipsFacts PropertiesRips PropertiesDowker
  LoadMatrix SpecText LoadFacts StringUtilities PropertiesString BarycentricFacts ReadMatrices ReadFacts PropertiesReadMatrix WeightedGraphFacts BottleneckFacts PropertiesPointCloud.
Import ListNotations.
Local Open Scope nat_scope.

(** ** Specification *)
Definition nonempty {A} (l : list A) : bool := match l with [] => false | _ => true end.
(** A square matrix, one row per line that is not empty. *)
Definition adjacency_file (lo hi : Z) (rows : list (list Z)) (text : str) : Prop :=
  exists lines all, file_of lines text /\ Forall2 (fun line row => denotes line row /\ (row = [] -> line = [])) lines all /\ rows = filter nonempty all /\
    (forall r, In r rows -> length r = length rows /\ Forall (fun z => (lo <= z <= hi)%Z) r).
(** the entry in row [u] and column [v] *)
Definition weight_of (rows : list (list Z)) (u v : nat) : Z := nth v (nth u rows []) 0%Z.
(** least and greatest entry *)
Definition extremes (values : list Z) (mn mx : Z) : Prop :=
  In mn values /\ In mx values /\ forall z, In z values -> (mn <= z <= mx)%Z.

(** ** Facts *)
Lemma list_min_spec l : forall d, (list_min d l = d \/ In (list_min d l) l) /\ (list_min d l <= d)%Z /\ forall z, In z l -> (list_min d l <= z)%Z.
Proof.
  unfold list_min. induction l as [|a l IH]; intro d; cbn [fold_left]; [split; [auto|split; [lia|intros z []]]|].
  destruct (IH (Z.min d a)) as (H1 & H2 & H3). refine (conj _ (conj _ _)); [|lia|].
  - destruct H1 as [H1|H1]; [|simpl; auto]. rewrite H1. destruct (Z.min_spec d a) as [[_ ->]|[_ ->]]; simpl; auto.
  - intros z [<-|Hz]; [lia|auto].
Qed.
Lemma list_max_spec l : forall d, (list_max d l = d \/ In (list_max d l) l) /\ (d <= list_max d l)%Z /\ forall z, In z l -> (z <= list_max d l)%Z.
Proof.
  unfold list_max. induction l as [|a l IH]; intro d; cbn [fold_left]; [split; [auto|split; [lia|intros z []]]|].
  destruct (IH (Z.max d a)) as (H1 & H2 & H3). refine (conj _ (conj _ _)); [|lia|].
  - destruct H1 as [H1|H1]; [|simpl; auto]. rewrite H1. destruct (Z.max_spec d a) as [[_ ->]|[_ ->]]; simpl; auto.
  - intros z [<-|Hz]; [lia|auto].
Qed.
Lemma extremes_spec d l : extremes (d :: l) (list_min d l) (list_max d l).
Proof.
  destruct (list_min_spec l d) as (A1 & A2 & A3), (list_max_spec l d) as (B1 & B2 & B3). refine (conj _ (conj _ _)).
  - destruct A1 as [-> |A1]; simpl; auto.
  - destruct B1 as [-> |B1]; simpl; auto.
  - intros z [<-|Hz]; [lia|]. split; auto.
Qed.

Lemma denoted_first line z zs : denotes line (z :: zs) -> exists c t, line = c :: t /\ Ascii.eqb c hash = false.
Proof.
  intro H. inversion H as [|b z' t zs' Hb Ht Hd]; subst. destruct b as [|c b].
  - pose proof (print_nonempty z). destruct (print_Z z) as [|c p] eqn:E; [simpl in *; lia|]. exists c, (p ++ t). split; [reflexivity|].
    assert (In c (print_Z z)) as Hc by (rewrite E; simpl; auto). apply print_chars in Hc. destruct Hc as [-> |(k & Hk)]; [reflexivity|]. apply Ascii.eqb_neq. apply (digit_plain c k Hk).
  - exists c, (b ++ print_Z z ++ t). split; [reflexivity|]. inversion Hb as [|? ? Hc _]; subst. destruct (Ascii.eqb_spec c hash) as [-> |]; [discriminate|reflexivity].
Qed.

Lemma dimension_rows lines all : Forall2 (fun line row => denotes line row /\ (row = [] -> line = [])) lines all ->
  length (filter (fun line : str => negb (match line with [] => true | c :: _ => Ascii.eqb c hash end)) lines) = length (filter nonempty all).
Proof.
  induction 1 as [|line row lines all (Hd & He) _ IH]; [reflexivity|]. cbn [filter]. destruct row as [|z row].
  - rewrite (He eq_refl). cbn [negb nonempty]. exact IH.
  - destruct (denoted_first line z row Hd) as (c & t & -> & Ec). rewrite Ec. cbn [negb nonempty length]. rewrite IH. reflexivity.
Qed.
Lemma concat_nonempty {A} (all : list (list A)) : concat all = concat (filter nonempty all).
Proof. induction all as [|r all IH]; [reflexivity|]. destruct r as [|a r]; cbn [filter nonempty concat]; [exact IH|rewrite IH; reflexivity]. Qed.
Lemma Forall2_weaken {A B} (P Q : A -> B -> Prop) l l' : (forall a b, P a b -> Q a b) -> Forall2 P l l' -> Forall2 Q l l'.
Proof. intros H F. induction F; constructor; auto. Qed.

(** the pairs of vertices that are visited *)
Definition upper (n : nat) : list (nat * nat) := flat_map (fun y => map (fun x => (y, x)) (seq (y + 1) (n - (y + 1)))) (seq 0 n).
Lemma in_upper n u v : In (u, v) (upper n) <-> u < v < n.
Proof.
  unfold upper. rewrite in_flat_map. split.
  - intros (y & Hy & H). apply in_map_iff in H. destruct H as (x & E & Hx). injection E as -> ->. apply in_seq in Hy, Hx. lia.
  - intro H. exists u. split; [apply in_seq; lia|]. apply in_map_iff. exists v. split; [reflexivity|apply in_seq; lia].
Qed.
Lemma upper_nodup n : NoDup (upper n).
Proof. apply (NoDup_flat_pairs (fun y : nat => y) (fun y => seq (y + 1) (n - (y + 1)))); [rewrite map_id; apply seq_NoDup|intros; apply seq_NoDup]. Qed.

Section Adjacency.
  Variables (values : list Z) (val : nat -> Z) (n : nat) (ign : bool) (g : Z -> Z).
  Hypothesis Hv : forall i, i < n * n -> nth_error values i = Some (val i).

  Definition kept (p : nat * nat) : bool := negb (ign && (val (n * fst p + snd p) =? 0)%Z).
  Definition adjacency_edges : list (nat * nat * Z) := map (fun p => (p, g (val (n * fst p + snd p)))) (filter kept (upper n)).

  Lemma inner_loop y l : y < n -> (forall x, In x l -> y < x < n) -> forall acc,
    foldM (fun acc x => let* w := get_ values (n * y + x) in if ign && (w =? 0)%Z then Ok acc else Ok (acc ++ [simplex_of [y; x] (g w)])) l acc =
    Ok (acc ++ map (fun p => Simplex [snd p; fst p] (g (val (n * fst p + snd p)))) (filter kept (map (fun x => (y, x)) l))).
  Proof.
    intro Hy. induction l as [|x l IH]; intros Hl acc; cbn [foldM map filter]; [rewrite app_nil_r; reflexivity|].
    pose proof (Hl x (or_introl eq_refl)) as Hx. rewrite (proj2 (get_ok _ _ _) (Hv (n * y + x) ltac:(nia))). cbn [bind]. unfold kept at 1. cbn [fst snd].
    destruct (ign && (val (n * y + x) =? 0)%Z); cbn [bind negb map]; rewrite IH by (intros; apply Hl; simpl; auto); [reflexivity|].
    rewrite simplex_of2 by lia. rewrite <- app_assoc. reflexivity.
  Qed.
  Lemma outer_loop l : (forall y, In y l -> y < n) -> forall acc,
    foldM (fun acc y => foldM (fun acc x => let* w := get_ values (n * y + x) in if ign && (w =? 0)%Z then Ok acc else Ok (acc ++ [simplex_of [y; x] (g w)])) (seq (y + 1) (n - (y + 1))) acc) l acc =
    Ok (acc ++ map (fun p => Simplex [snd p; fst p] (g (val (n * fst p + snd p)))) (filter kept (flat_map (fun y => map (fun x => (y, x)) (seq (y + 1) (n - (y + 1)))) l))).
  Proof.
    induction l as [|y l IH]; intros Hl acc; cbn [foldM flat_map]; [cbn [filter map]; rewrite app_nil_r; reflexivity|].
    pose proof (Hl y (or_introl eq_refl)) as Hy. rewrite inner_loop by (exact Hy || (intros x Hx; apply in_seq in Hx; lia)). cbn [bind]. rewrite IH by (intros; apply Hl; simpl; auto).
    rewrite filter_app, map_app, <- app_assoc. reflexivity.
  Qed.

  Lemma in_adjacency u v d : In (u, v, d) adjacency_edges <-> u < v < n /\ (ign = true -> val (n * u + v) <> 0%Z) /\ d = g (val (n * u + v)).
  Proof.
    unfold adjacency_edges. rewrite in_map_iff. split.
    - intros ([u' v'] & E & H). injection E as -> -> <-. apply filter_In in H. destruct H as [H K]. apply in_upper in H. refine (conj H (conj _ eq_refl)).
      intros Hi E. unfold kept in K. cbn [fst snd] in K. rewrite Hi, E in K. discriminate.
    - intros (H & K & ->). exists (u, v). split; [reflexivity|]. apply filter_In. split; [apply in_upper; exact H|]. clear Hv. unfold kept. cbn [fst snd].
      destruct ign; [|reflexivity]. destruct (Z.eqb_spec (val (n * u + v)) 0) as [E|]; [exfalso; apply K; auto|reflexivity].
  Qed.

  Lemma adjacency_graph wt : graph_ok (map (fun i => (i, wt)) (seq 0 n)) adjacency_edges.
  Proof.
    refine (conj _ (conj _ _)).
    - rewrite map_map. cbn [fst]. rewrite map_id. apply seq_NoDup.
    - unfold adjacency_edges. rewrite map_map. cbn [fst]. rewrite map_id. apply NoDup_filter, upper_nodup.
    - intros u v d H. apply in_adjacency in H. destruct H as (H & _). rewrite map_map. cbn [fst]. rewrite map_id. split; [lia|]. split; apply in_seq; lia.
  Qed.
End Adjacency.

(** The complex of an adjacency matrix *)
Theorem C87_adjacency : forall lo hi ign strat f rows text, adjacency_file lo hi rows text -> rows <> [] ->
  exists K mn mx, extremes (concat rows) mn mx /\ read_adjacency lo hi ign strat f text = Ok (Some K) /\
    reachable K /\ closed (by_index K) /\ by_data (by_index K) /\
    (forall vs, has (by_index K) vs <->
       (exists v, v < length rows /\ set_eq vs [v]) \/
       (exists u v, u < v < length rows /\ (ign = true -> weight_of rows u v <> 0%Z) /\ set_eq vs [u; v])) /\
    (forall s v, In s (by_index K) -> verts s = [v] ->
       data s = match strat with AssignGlobalMaximum => f mx mn mx | AssignGlobalMinimum => f mx mn mn | AssignZero => 0%Z end) /\
    (forall s u v, In s (by_index K) -> verts s = [v; u] -> data s = f mx mn (weight_of rows u v)) /\
    ((forall z, In z (concat rows) ->
       (match strat with AssignGlobalMaximum => f mx mn mx | AssignGlobalMinimum => f mx mn mn | AssignZero => 0 end <= f mx mn z)%Z) ->
     filtration_order (by_index K)).
Proof.
  intros lo hi ign strat f rows text (lines & all & Hf & HR & E & Hr) Hne. set (n := length rows). assert (Hn : 0 < n) by (unfold n; destruct rows; [easy|simpl; lia]).
  assert (Hl : forall r, In r rows -> length r = n) by (intros r H; apply (Hr r H)).
  assert (EV : forall i, i < n * n -> nth_error (concat rows) i = Some (entry rows n i)) by (intros i Hi; apply concat_entry; assumption).
  assert (Lv : length (concat rows) = n * n) by (apply concat_length; exact Hl).
  assert (EW : forall u v, v < n -> entry rows n (n * u + v) = weight_of rows u v) by (intros u v Huv; unfold entry, weight_of; destruct (coordinates n v u Huv) as [-> ->]; reflexivity).
  assert (AD : adjacency_dimension text = n) by (unfold n; rewrite E; unfold adjacency_dimension; rewrite (file_lines lines text Hf); exact (dimension_rows lines all HR)).
  unfold read_adjacency. rewrite AD.
  rewrite (values_denoted lo hi text (concat rows)).
  2: { rewrite E, <- concat_nonempty. apply (file_denotes lines text all Hf). eapply Forall2_weaken; [|exact HR]. intros a b [H _]; exact H. }
  2: { apply Forall_forall. intros z Hz. apply in_concat in Hz. destruct Hz as (r & Hr' & Hz). destruct (Hr r Hr') as [_ F]. rewrite Forall_forall in F. auto. }
  cbn [bind]. destruct (concat rows) as [|v0 vs] eqn:EC; [simpl in Lv; nia|]. rewrite Lv, Nat.eqb_refl. cbn [negb].
  pose proof (extremes_spec v0 vs) as X. set (mn := list_min v0 vs) in *. set (mx := list_max v0 vs) in *. cbv zeta.
  rewrite (outer_loop (v0 :: vs) (entry rows n) n ign (f mx mn) EV) by (intros y Hy; apply in_seq in Hy; lia). cbn [app bind]. fold (upper n).
  set (wt := match strat with AssignGlobalMaximum => f mx mn mx | AssignGlobalMinimum => f mx mn mn | AssignZero => 0%Z end).
  set (V := map (fun i : nat => (i, wt)) (seq 0 n)). set (Es := adjacency_edges (entry rows n) n ign (f mx mn)).
  assert (P : Permutation (map (fun p : nat * nat => Simplex [snd p; fst p] (f mx mn (entry rows n (n * fst p + snd p)))) (filter (kept (entry rows n) n ign) (upper n)) ++ map (fun i => simplex_vertex i wt) (seq 0 n))
                (graph_simplices V Es)).
  { rewrite Permutation_app_comm. unfold graph_simplices, V, Es, adjacency_edges. rewrite !map_map. cbn [fst snd]. reflexivity. }
  destruct (weighted_graph V Es _ (adjacency_graph (entry rows n) n ign (f mx mn) wt) P) as (K0 & EK & R & C & D & HH & HI & PP & HF).
  exists (k_sort data_cmp K0), mn, mx. split; [exact X|]. rewrite EK. cbn [bind]. refine (conj eq_refl (conj R (conj C (conj D (conj _ (conj _ (conj _ _))))))).
  - intro ws. rewrite (HH ws). unfold V. rewrite map_map. cbn [fst]. rewrite map_id. split.
    + intros [(v & Hv & Es')|(u & v & d & He & Es')]; [left; exists v; split; [apply in_seq in Hv; lia|exact Es']|]. right. apply in_adjacency in He. destruct He as (H1 & H2 & _).
      exists u, v. refine (conj H1 (conj _ Es')). rewrite <- EW by lia. exact H2.
    + intros [(v & Hv & Es')|(u & v & H1 & H2 & Es')]; [left; exists v; split; [apply in_seq; lia|exact Es']|]. right. exists u, v, (f mx mn (weight_of rows u v)). split; [|exact Es'].
      apply in_adjacency. rewrite EW by lia. auto.
  - intros s v Hs Ev. destruct (HI s Hs) as [(v' & d & H & ->)|(u & v' & d & H & ->)]; cbn [verts] in Ev; [|discriminate]. unfold V in H. apply in_map_iff in H. destruct H as (i & Ei & _). injection Ei as _ <-. reflexivity.
  - intros s u v Hs Ev. destruct (HI s Hs) as [(v' & d & H & ->)|(u' & v' & d & H & ->)]; cbn [verts] in Ev; [discriminate|]. injection Ev as -> ->. apply in_adjacency in H. destruct H as (H1 & _ & ->). cbn [data]. rewrite EW by lia. reflexivity.
  - intro Hw. apply HF. intros u v d w He Hw'. apply in_adjacency in He. destruct He as (H1 & _ & ->).
    assert (w = wt) as -> by (unfold V in Hw'; destruct Hw' as [H|H]; apply in_map_iff in H; destruct H as (? & Ei & _); injection Ei; auto).
    apply Hw. apply (nth_error_In _ (n * u + v)). apply EV. nia.
Qed.

(** By default the weights of edges are those of the matrix, vertices have the least
    weight, and the order is a filtration order. *)
Theorem C87_default : forall lo hi ign rows text, adjacency_file lo hi rows text -> rows <> [] ->
  exists K mn, read_adjacency lo hi ign AssignGlobalMinimum (fun _ _ w => w) text = Ok (Some K) /\ filtration_order (by_index K) /\
    In mn (concat rows) /\ (forall z, In z (concat rows) -> (mn <= z)%Z) /\
    (forall s v, In s (by_index K) -> verts s = [v] -> data s = mn) /\
    (forall s u v, In s (by_index K) -> verts s = [v; u] -> data s = weight_of rows u v).
Proof.
  intros lo hi ign rows text Hf Hne. destruct (C87_adjacency lo hi ign AssignGlobalMinimum (fun _ _ w => w) rows text Hf Hne) as (K & mn & mx & (X1 & X2 & X3) & E & _ & _ & _ & _ & H1 & H2 & H3).
  exists K, mn. refine (conj E (conj _ (conj X1 (conj _ (conj H1 H2))))); [|intros z Hz; apply X3; exact Hz]. apply H3. intros z Hz. apply X3. exact Hz.
Qed.

(** Every text: either the complex is unchanged because no number can be read, or
    the number of values is the square of the number of lines, or there is an exception. *)
Theorem C87_total : forall lo hi ign strat f text, exists values, read_values lo hi text = Ok values /\
  (values = [] -> read_adjacency lo hi ign strat f text = Ok None) /\
  (values <> [] -> length values = adjacency_dimension text * adjacency_dimension text -> exists K, read_adjacency lo hi ign strat f text = Ok (Some K)) /\
  (values <> [] -> length values <> adjacency_dimension text * adjacency_dimension text -> read_adjacency lo hi ign strat f text = Throw RuntimeError).
Proof.
  intros lo hi ign strat f text. destruct (read_values_ends lo hi text) as (values & E). exists values. split; [exact E|]. unfold read_adjacency. rewrite E. cbn [bind]. refine (conj _ (conj _ _)).
  - intros ->. reflexivity.
  - intros Hne Hl. destruct values as [|v0 vs] eqn:EV; [easy|]. rewrite Hl, Nat.eqb_refl. cbn [negb]. cbv zeta. set (mn := list_min v0 vs). set (mx := list_max v0 vs). set (n := adjacency_dimension text) in *.
    set (val := fun i => nth i (v0 :: vs) 0%Z).
    rewrite (outer_loop (v0 :: vs) val n ign (f mx mn)) by ((intros i Hi; unfold val; apply nth_error_nth'; lia) || (intros y Hy; apply in_seq in Hy; lia)). cbn [app bind]. fold (upper n).
    set (wt := match strat with AssignGlobalMaximum => f mx mn mx | AssignGlobalMinimum => f mx mn mn | AssignZero => 0%Z end).
    destruct (weighted_graph (map (fun i : nat => (i, wt)) (seq 0 n)) (adjacency_edges val n ign (f mx mn))
       (map (fun p : nat * nat => Simplex [snd p; fst p] (f mx mn (val (n * fst p + snd p)))) (filter (kept val n ign) (upper n)) ++ map (fun i => simplex_vertex i wt) (seq 0 n))) as (K0 & EK & _).
    + apply adjacency_graph.
    + rewrite Permutation_app_comm. unfold graph_simplices, adjacency_edges. rewrite !map_map. cbn [fst snd]. reflexivity.
    + rewrite EK. eexists. reflexivity.
  - intros Hne Hl. destruct values as [|v0 vs]; [easy|]. destruct (Nat.eqb_spec (length (v0 :: vs)) (adjacency_dimension text * adjacency_dimension text)); [easy|reflexivity].
Qed.

(** FINDING: comments are not ignored: the values after a comment are lost. *)
Definition square : str := chars "0 1 2" ++ [newline] ++ chars "3 4 5" ++ [newline] ++ [newline] ++ chars "2 1 7" ++ [newline].
Theorem C87_comment_refuted : exists lo hi K,
  read_adjacency lo hi false AssignGlobalMinimum (fun _ _ w => w) square = Ok (Some K) /\ k_size K = 6 /\
  read_adjacency lo hi false AssignGlobalMinimum (fun _ _ w => w) (chars "# a comment" ++ newline :: square) = Ok None /\
  read_adjacency lo hi false AssignGlobalMinimum (fun _ _ w => w) (square ++ chars "# a comment" ++ [newline]) = Ok (Some K) /\
  read_adjacency lo hi false AssignGlobalMinimum (fun _ _ w => w) (chars "1 2" ++ newline :: chars "# a comment" ++ newline :: chars "3 4") = Throw RuntimeError.
Proof. exists (-128)%Z, 127%Z. eexists. refine (conj _ (conj _ (conj _ (conj _ _)))); vm_compute; reflexivity. Qed.

(** FINDING: with the other strategies, or with a decreasing functor, the complex is
    not in filtration order. *)
Theorem C87_order_refuted : exists lo hi text K1 K2 K3,
  read_adjacency lo hi false AssignGlobalMaximum (fun _ _ w => w) text = Ok (Some K1) /\ ~ filtration_order (by_index K1) /\
  read_adjacency lo hi false AssignZero (fun _ _ w => w) text = Ok (Some K2) /\ ~ filtration_order (by_index K2) /\
  read_adjacency lo hi false AssignGlobalMinimum (fun _ _ w => - w)%Z text = Ok (Some K3) /\ ~ filtration_order (by_index K3).
Proof.
  exists (-128)%Z, 127%Z, (chars "-2 -1" ++ [newline] ++ chars "-1 0"). do 3 eexists.
  assert (N : forall d u v a b, u <> v -> ~ filtration_order [Simplex [v; u] d; Simplex [u] a; Simplex [v] b]).
  { intros d u v a b Ne H. enough (1 < 0) by lia. apply (H 0 1 (Simplex [v; u] d) (Simplex [u] a) eq_refl eq_refl). split.
    - intros x [<-|[]]. simpl; auto.
    - intro S. destruct (S v) as [E|[]]; [simpl; auto|]. congruence. }
  refine (conj _ (conj _ (conj _ (conj _ (conj _ _))))); try (vm_compute; reflexivity); apply N; lia.
Qed.

Example C87_example : (exists K, read_adjacency (-128) 127 false AssignGlobalMinimum (fun _ _ w => w) square = Ok (Some K) /\
    by_index K = [Simplex [0] 0%Z; Simplex [1] 0%Z; Simplex [2] 0%Z; Simplex [1; 0] 1%Z; Simplex [2; 0] 2%Z; Simplex [2; 1] 5%Z]) /\
  adjacency_file (-128) 127 [[0; 1; 2]; [3; 4; 5]; [2; 1; 7]]%Z square.
Proof.
  split; [eexists; split; vm_compute; reflexivity|]. exists [chars "0 1 2"; chars "3 4 5"; []; chars "2 1 7"], [[0; 1; 2]; [3; 4; 5]; []; [2; 1; 7]]%Z.
  assert (T : forall a b c, denotes (print_Z a ++ chars " " ++ print_Z b ++ chars " " ++ print_Z c) [a; b; c]).
  { intros a b c. apply (denotes_cons []); [constructor|intros x t E; injection E as <- _; reflexivity|].
    apply (denotes_cons (chars " ")); [repeat constructor|intros x t E; injection E as <- _; reflexivity|].
    rewrite <- (app_nil_r (print_Z c)). apply (denotes_cons (chars " ")); [repeat constructor|intros x t E; discriminate|constructor; constructor]. }
  refine (conj _ (conj _ (conj eq_refl _))).
  - apply (file_terminated [chars "0 1 2"; chars "3 4 5"; []; chars "2 1 7"]). repeat constructor; unfold no_newline, chars, newline; simpl; intuition discriminate.
  - constructor; [|constructor; [|constructor; [|constructor; [|constructor]]]]; (split; [|try discriminate; auto]).
    + apply (T 0 1 2)%Z.
    + apply (T 3 4 5)%Z.
    + constructor. constructor.
    + apply (T 2 1 7)%Z.
  - intros r [<-|[<-|[<-|[]]]]; (split; [reflexivity|repeat constructor; lia]).
Qed.

(** ** C88 *)
(** [z] is the weight of an edge with the vertex [u]; rows are the vertices [0..h-1],
    columns are the vertices [h..h+w-1] *)
Definition incident (rows : list (list Z)) (w u : nat) (z : Z) : Prop :=
  exists y x, y < length rows /\ x < w /\ (u = y \/ u = length rows + x) /\ z = weight_of rows y x.
Definition least (le : Z -> Z -> Prop) (P : Z -> Prop) (z : Z) : Prop := P z /\ forall z', P z' -> le z z'.
Definition abs_le (a b : Z) : Prop := (Z.abs a <= Z.abs b)%Z.

Section Bipartite.
  Variables (values : list Z) (val : nat -> Z) (h w : nat) (absolute : bool).
  Hypothesis Hv : forall i, i < h * w -> nth_error values i = Some (val i).

  Definition key_le (a b : Z) : Prop := if absolute then abs_le a b else (a <= b)%Z.
  Definition touches (p : nat * nat) (u : nat) : Prop := u = snd p \/ u = fst p + h.
  Definition tracks (P : list (nat * nat)) (m : nat -> option Z) : Prop := forall u,
    match m u with
    | None => forall p, In p P -> ~ touches p u
    | Some z => least key_le (fun z' => exists p, In p P /\ touches p u /\ z' = val (w * snd p + fst p)) z
    end.

  Lemma tracks_step P m x y : x < w -> y < h -> tracks P m ->
    tracks (P ++ [(x, y)]) (map_update (map_update m y (update_weight absolute (val (w * y + x)))) (x + h) (update_weight absolute (val (w * y + x)))).
  Proof.
    intros Hx Hy T u. specialize (T u). unfold map_update. set (z0 := val (w * y + x)).
    assert (G : (touches (x, y) u -> match update_weight absolute z0 (m u) with
                | None => forall p, In p (P ++ [(x, y)]) -> ~ touches p u
                | Some z => least key_le (fun z' => exists p, In p (P ++ [(x, y)]) /\ touches p u /\ z' = val (w * snd p + fst p)) z end) /\
                (~ touches (x, y) u -> match m u with
                | None => forall p, In p (P ++ [(x, y)]) -> ~ touches p u
                | Some z => least key_le (fun z' => exists p, In p (P ++ [(x, y)]) /\ touches p u /\ z' = val (w * snd p + fst p)) z end)).
    { split; intro Ht.
      - assert (L : forall z, key_le z z0 -> (forall z', (exists p, In p P /\ touches p u /\ z' = val (w * snd p + fst p)) -> key_le z z') ->
                  forall z', (exists p, In p (P ++ [(x, y)]) /\ touches p u /\ z' = val (w * snd p + fst p)) -> key_le z z').
        { intros z H1 H2 z' (p & Hp & Hu & ->). apply in_app_or in Hp. destruct Hp as [Hp|[<-|[]]]; [apply H2; eauto|exact H1]. }
        assert (N : exists p, In p (P ++ [(x, y)]) /\ touches p u /\ z0 = val (w * snd p + fst p)) by (exists (x, y); split; [apply in_or_app; simpl; auto|split; [exact Ht|reflexivity]]).
        assert (O : forall z, (exists p, In p P /\ touches p u /\ z = val (w * snd p + fst p)) -> exists p, In p (P ++ [(x, y)]) /\ touches p u /\ z = val (w * snd p + fst p)).
        { intros z (p & Hp & Hu & E). exists p. split; [apply in_or_app; auto|auto]. }
        destruct (m u) as [z|]; cbn [update_weight].
        + destruct T as [T1 T2]. unfold key_le, abs_le in *. destruct absolute.
          * destruct (Z.ltb_spec (Z.abs z0) (Z.abs z)) as [Lt|Ge].
            -- split; [exact N|]. apply L; [lia|]. intros z' Hz'. specialize (T2 z' Hz'). lia.
            -- split; [apply O; exact T1|]. apply L; [lia|exact T2].
          * destruct (Z.min_spec z z0) as [[Hm ->]|[Hm ->]].
            -- split; [apply O; exact T1|]. apply L; [lia|exact T2].
            -- split; [exact N|]. apply L; [lia|]. intros z' Hz'. specialize (T2 z' Hz'). lia.
        + split; [exact N|]. apply L; [unfold key_le, abs_le; destruct absolute; lia|]. intros z' (p & Hp & Hu & _). exfalso. apply (T p Hp Hu).
      - assert (I : forall p, In p (P ++ [(x, y)]) -> touches p u -> In p P) by (intros p Hp Hu; apply in_app_or in Hp; destruct Hp as [Hp|[<-|[]]]; [exact Hp|contradiction]).
        destruct (m u) as [z|].
        + destruct T as [(p & Hp & Hu & E) T2]. split; [exists p; split; [apply in_or_app; auto|auto]|]. intros z' (q & Hq & Hqu & Ez). apply T2. exists q. auto.
        + intros p Hp Hu. apply (T p (I p Hp Hu) Hu). }
    destruct G as [G1 G2]. unfold touches in G1, G2. cbn [fst snd] in G1, G2.
    destruct (Nat.eqb_spec u (x + h)) as [E|E], (Nat.eqb_spec u y) as [E'|E']; [lia|apply G1; lia|apply G1; lia|apply G2; lia].
  Qed.

  Lemma bipartite_loop l : (forall p, In p l -> fst p < w /\ snd p < h) -> forall P m acc, tracks P m ->
    exists m', tracks (P ++ l) m' /\
      foldM (fun st p => let '(acc, m) := st in let '(x, y) := p in
               let* z := get_ values (w * y + x) in
               let m := map_update m y (update_weight absolute z) in
               let m := map_update m (x + h) (update_weight absolute z) in
               Ok (acc ++ [simplex_of [y; x + h] z], m)) l (acc, m) =
      Ok (acc ++ map (fun p => Simplex [fst p + h; snd p] (val (w * snd p + fst p))) l, m').
  Proof.
    induction l as [|[x y] l IH]; intros Hl P m acc T; cbn [foldM map]; [exists m; rewrite !app_nil_r; auto|].
    destruct (Hl (x, y) (or_introl eq_refl)) as [Hx Hy]. cbn [fst snd] in *. rewrite (proj2 (get_ok _ _ _) (Hv (w * y + x) ltac:(nia))). cbn [bind].
    rewrite simplex_of2 by lia. destruct (IH ltac:(intros; apply Hl; simpl; auto) (P ++ [(x, y)]) _ (acc ++ [Simplex [x + h; y] (val (w * y + x))]) (tracks_step P m x y Hx Hy T)) as (m' & T' & E).
    exists m'. rewrite <- app_assoc in T'. split; [exact T'|]. rewrite E, <- app_assoc. reflexivity.
  Qed.

  Definition bipartite_edges : list (nat * nat * Z) := map (fun p => (snd p, fst p + h, val (w * snd p + fst p))) (cells h w).
  Lemma in_bipartite u v d : In (u, v, d) bipartite_edges <-> exists x, u < h /\ x < w /\ v = x + h /\ d = val (w * u + x).
  Proof.
    unfold bipartite_edges. rewrite in_map_iff. split.
    - intros ([x y] & E & H). cbn [fst snd] in E. injection E as -> <- <-. apply in_cells in H. cbn [fst snd] in H. exists x. intuition.
    - intros (x & H1 & H2 & -> & ->). exists (x, u). split; [reflexivity|]. apply in_cells. cbn [fst snd]. auto.
  Qed.
  Lemma bipartite_graph wt : graph_ok (map (fun i => (i, wt i)) (seq 0 (h + w))) bipartite_edges.
  Proof.
    refine (conj _ (conj _ _)).
    - rewrite map_map. cbn [fst]. rewrite map_id. apply seq_NoDup.
    - unfold bipartite_edges. rewrite map_map. cbn [fst]. apply NoDup_map_inj; [|apply cells_nodup]. intros [a b] [c d] _ _ E. cbn [fst snd] in E. injection E as -> E. f_equal. lia.
    - intros u v d H. apply in_bipartite in H. destruct H as (x & H1 & H2 & -> & _). rewrite map_map. cbn [fst]. rewrite map_id. split; [lia|]. split; apply in_seq; lia.
  Qed.

  Lemma bipartite_simplices wt : Permutation (map (fun p => Simplex [fst p + h; snd p] (val (w * snd p + fst p))) (cells h w) ++ map (fun i => simplex_vertex i (wt i)) (seq 0 (h + w)))
    (graph_simplices (map (fun i => (i, wt i)) (seq 0 (h + w))) bipartite_edges).
  Proof. rewrite Permutation_app_comm. unfold graph_simplices, bipartite_edges. rewrite !map_map. cbn [fst snd]. reflexivity. Qed.
End Bipartite.

(** The complex of a bipartite adjacency matrix *)
Theorem C88_bipartite : forall lo hi absolute minimum rows w text, matrix_file lo hi rows w text -> rows <> [] -> 0 < w ->
  exists K, read_bipartite lo hi absolute minimum text = Ok (Some K) /\
    reachable K /\ closed (by_index K) /\ by_data (by_index K) /\
    (forall vs, has (by_index K) vs <->
       (exists v, v < length rows + w /\ set_eq vs [v]) \/
       (exists y x, y < length rows /\ x < w /\ set_eq vs [y; length rows + x])) /\
    (forall s y x, In s (by_index K) -> verts s = [length rows + x; y] -> data s = weight_of rows y x) /\
    (forall s v, In s (by_index K) -> verts s = [v] ->
       (absolute = true -> least abs_le (incident rows w v) (data s)) /\
       (absolute = false -> minimum = true -> least Z.le (incident rows w v) (data s)) /\
       (absolute = false -> minimum = false -> least Z.le (fun z => In z (concat rows)) (data s))) /\
    (absolute = false \/ (forall z, In z (concat rows) -> (0 <= z)%Z) -> filtration_order (by_index K)).
Proof.
  intros lo hi absolute minimum rows w text (lines & Hf & HR & Hr) Hne Hw. set (h := length rows). assert (Hh : 0 < h) by (unfold h; destruct rows; [easy|simpl; lia]).
  assert (Hl : forall r, In r rows -> length r = w) by (intros r H; apply (Hr r H)).
  assert (EV : forall i, i < h * w -> nth_error (concat rows) i = Some (entry rows w i)) by (intros i Hi; apply concat_entry; assumption).
  assert (Lv : length (concat rows) = h * w) by (apply concat_length; exact Hl).
  assert (EW : forall u v, v < w -> entry rows w (w * u + v) = weight_of rows u v) by (intros u v Huv; unfold entry, weight_of; destruct (coordinates w v u Huv) as [-> ->]; reflexivity).
  assert (LL : length (getlines [] text) = h) by (rewrite (file_lines lines text Hf); unfold h; clear -HR; induction HR; simpl; auto).
  unfold read_bipartite. rewrite LL. rewrite (values_denoted lo hi text (concat rows)); [|apply (file_denotes lines text rows Hf HR)|].
  2: { apply Forall_forall. intros z Hz. apply in_concat in Hz. destruct Hz as (r & Hr' & Hz). destruct (Hr r Hr') as [_ F]. rewrite Forall_forall in F. auto. }
  cbn [bind]. destruct (concat rows) as [|v0 vs] eqn:EC; [simpl in Lv; nia|]. rewrite Lv. rewrite (Nat.mul_comm h w), Nat.mod_mul, Nat.div_mul by lia. cbn [Nat.eqb negb].
  destruct (bipartite_loop (v0 :: vs) (entry rows w) h w absolute EV (cells h w) ltac:(intros p Hp; apply in_cells in Hp; exact Hp) [] (fun _ => None) []) as (m & T & EF); [intros u p []|].
  cbv zeta in EF |- *. rewrite EF. cbn [bind app]. cbn [app] in T.
  set (wt := fun i => if minimum || absolute then match m i with Some z => z | None => 0%Z end else list_min v0 vs).
  destruct (weighted_graph _ _ _ (bipartite_graph (entry rows w) h w wt) (bipartite_simplices (entry rows w) h w wt)) as (K0 & EK & R & C & D & HH & HI & PP & HF).
  pose proof (extremes_spec v0 vs) as (X1 & _ & X3).
  assert (TI : forall u, u < h + w -> exists z, m u = Some z /\ least (key_le absolute) (incident rows w u) z).
  { intros u Hu. specialize (T u).
    assert (Q : forall z', (exists p, In p (cells h w) /\ touches h p u /\ z' = entry rows w (w * snd p + fst p)) <-> incident rows w u z').
    { intro z'. unfold incident. fold h. split.
      - intros ([x y] & Hp & Ht & ->). apply in_cells in Hp. unfold touches in Ht. cbn [fst snd] in *. exists y, x. rewrite EW by lia. refine (conj (proj2 Hp) (conj (proj1 Hp) (conj _ eq_refl))). lia.
      - intros (y & x & H1 & H2 & H3 & ->). exists (x, y). split; [apply in_cells; auto|]. unfold touches. cbn [fst snd]. rewrite EW by lia. split; [lia|reflexivity]. }
    destruct (m u) as [z|].
    - exists z. split; [reflexivity|]. destruct T as [T1 T2]. split; [apply Q; exact T1|]. intros z' Hz'. apply T2, Q. exact Hz'.
    - exfalso. destruct (Nat.lt_ge_cases u h) as [L|L].
      + apply (T (0, u)); [apply in_cells; cbn [fst snd]; lia|]. left. reflexivity.
      + apply (T (u - h, 0)); [apply in_cells; cbn [fst snd]; lia|]. right. cbn [fst]. lia. }
  assert (IN : forall u z, incident rows w u z -> In z (v0 :: vs)).
  { intros u z (y & x & H1 & H2 & _ & ->). apply (nth_error_In _ (w * y + x)). rewrite EV by (unfold h; nia). rewrite EW by lia. reflexivity. }
  exists (k_sort data_cmp K0). match type of EK with ?A = _ => match goal with |- context [k_of_range ?L] => change (k_of_range L) with A end end. rewrite EK. cbn [bind]. refine (conj eq_refl (conj R (conj C (conj D (conj _ (conj _ (conj _ _))))))).
  - intro ws. rewrite (HH ws). rewrite map_map. cbn [fst]. rewrite map_id. split.
    + intros [(v & Hv & Es')|(u & v & d & He & Es')]; [left; exists v; split; [apply in_seq in Hv; lia|exact Es']|]. right. apply in_bipartite in He. destruct He as (x & H1 & H2 & -> & _).
      exists u, x. rewrite (Nat.add_comm h x). auto.
    + intros [(v & Hv & Es')|(y & x & H1 & H2 & Es')]; [left; exists v; split; [apply in_seq; lia|exact Es']|]. right. exists y, (h + x), (entry rows w (w * y + x)). split; [|exact Es'].
      apply in_bipartite. exists x. rewrite (Nat.add_comm h x). auto.
  - intros s y x Hs Ev. destruct (HI s Hs) as [(v' & d & H & ->)|(u' & v' & d & H & ->)]; cbn [verts] in Ev; [discriminate|]. injection Ev as -> ->. apply in_bipartite in H. destruct H as (x' & H1 & H2 & E & ->). cbn [data].
    assert (x' = x) as -> by lia. apply EW. exact H2.
  - intros s v Hs Ev. destruct (HI s Hs) as [(v' & d & H & ->)|(u & v' & d & H & ->)]; cbn [verts] in Ev; [|discriminate]. injection Ev as ->. apply in_map_iff in H. destruct H as (i & Ei & Hi). injection Ei as -> <-.
    apply in_seq in Hi. destruct (TI v ltac:(lia)) as (z & Ez & Hz). cbn [data]. unfold wt. rewrite Ez. refine (conj _ (conj _ _)).
    + intros ->. rewrite orb_true_r. exact Hz.
    + intros -> ->. exact Hz.
    + intros -> ->. split; [exact X1|]. intros z' Hz'. apply X3. exact Hz'.
  - intro Hc. apply HF. intros u v d z He Hz. apply in_bipartite in He. destruct He as (x & H1 & H2 & -> & ->).
    assert (Q : exists t, t < h + w /\ (t = u \/ t = x + h) /\ z = wt t).
    { destruct Hz as [H|H]; apply in_map_iff in H; destruct H as (i & Ei & Hi); injection Ei as -> <-; apply in_seq in Hi; eexists; (split; [|split; [|reflexivity]]); auto; lia. }
    destruct Q as (t & Ht & Hor & ->). destruct (TI t Ht) as (z' & Ez' & L1 & L2). unfold wt. rewrite Ez'.
    assert (I : incident rows w t (entry rows w (w * u + x))). { exists u, x. fold h. refine (conj H1 (conj H2 (conj _ (EW u x H2)))). lia. }
    destruct (minimum || absolute).
    + specialize (L2 _ I). unfold key_le, abs_le in L2. destruct absolute; [|exact L2]. destruct Hc as [Hc|Hc]; [discriminate|]. pose proof (Hc _ (IN t _ I)). pose proof (Hc _ (IN t _ L1)). lia.
    + apply X3. apply (IN t _ I).
Qed.

(** Every text *)
Lemma no_lines text : getlines [] text = [] -> text = [].
Proof.
  destruct text as [|c text]; [reflexivity|]. intro H. exfalso. assert (G : forall t cur, cur <> [] -> getlines cur t <> []).
  { induction t as [|d t IH]; intros cur Hc; cbn [getlines]; [destruct cur; [easy|discriminate]|]. destruct (Ascii.eqb d newline); [discriminate|]. apply IH. destruct cur; discriminate. }
  cbn [getlines] in H. destruct (Ascii.eqb c newline); [discriminate|]. revert H. apply G. discriminate.
Qed.
Theorem C88_total : forall lo hi absolute minimum text, exists values, read_values lo hi text = Ok values /\
  let height := length (getlines [] text) in
  (values = [] -> read_bipartite lo hi absolute minimum text = Ok None) /\
  (values <> [] -> 0 < height) /\
  (values <> [] -> Nat.divide height (length values) -> exists K, read_bipartite lo hi absolute minimum text = Ok (Some K)) /\
  (values <> [] -> ~ Nat.divide height (length values) -> read_bipartite lo hi absolute minimum text = Throw RuntimeError).
Proof.
  intros lo hi absolute minimum text. destruct (read_values_ends lo hi text) as (values & E). exists values. split; [exact E|]. cbv zeta.
  assert (P : values <> [] -> 0 < length (getlines [] text)).
  { intro Hne. destruct (getlines [] text) eqn:EL; [|simpl; lia]. exfalso. apply no_lines in EL. subst text. apply Hne. vm_compute in E. congruence. }
  unfold read_bipartite. rewrite E. cbn [bind]. set (h := length (getlines [] text)) in *. refine (conj _ (conj P (conj _ _))).
  - intros ->. reflexivity.
  - intros Hne (w & Hl). specialize (P Hne). destruct values as [|v0 vs] eqn:EV; [easy|]. rewrite Hl, Nat.mod_mul, Nat.div_mul by lia. cbn [Nat.eqb negb].
    set (val := fun i => nth i (v0 :: vs) 0%Z).
    destruct (bipartite_loop (v0 :: vs) val h w absolute ltac:(intros i Hi; unfold val; apply nth_error_nth'; rewrite Hl; nia) (cells h w) ltac:(intros p Hp; apply in_cells in Hp; exact Hp) [] (fun _ => None) []) as (m & T & EF); [intros u p []|].
    cbv zeta in EF |- *. rewrite EF. cbn [bind app].
    set (wt := fun i => if minimum || absolute then match m i with Some z => z | None => 0%Z end else list_min v0 vs).
    destruct (weighted_graph _ _ _ (bipartite_graph val h w wt) (bipartite_simplices val h w wt)) as (K0 & EK & _).
    match type of EK with ?A = _ => match goal with |- context [k_of_range ?L] => change (k_of_range L) with A end end. rewrite EK. eexists. reflexivity.
  - intros Hne Hd. specialize (P Hne). destruct values as [|v0 vs] eqn:EV; [easy|]. destruct (Nat.eqb_spec (length (v0 :: vs) mod h) 0) as [E0|]; [|reflexivity].
    exfalso. apply Hd. apply Nat.mod_divide; [lia|exact E0].
Qed.

(** FINDING: an empty line after the 2-by-3 matrix of the documentation makes it a
    3-by-2 matrix; a comment in the first line makes the reader ignore the file. *)
Definition two_three : str := chars "0 1 2" ++ [newline] ++ chars "3 4 5" ++ [newline].
Theorem C88_lines_refuted : exists lo hi K K',
  read_bipartite lo hi false false two_three = Ok (Some K) /\ has (by_index K) [0; 4] /\ ~ has (by_index K) [2; 4] /\
  read_bipartite lo hi false false (two_three ++ [newline]) = Ok (Some K') /\ ~ has (by_index K') [0; 2] /\ has (by_index K') [2; 4] /\
  read_bipartite lo hi false false (chars "# a comment" ++ newline :: two_three) = Ok None.
Proof.
  exists (-128)%Z, 127%Z. do 2 eexists.
  assert (D : forall L a b, a < b -> forallb (fun s => negb (existsb (Nat.eqb a) (verts s) && existsb (Nat.eqb b) (verts s))) L = true -> ~ has L [a; b]).
  { intros L a b _ H (s & Hs & E). rewrite forallb_forall in H. specialize (H s Hs). assert (Ha : In a (verts s)) by (apply E; simpl; auto). assert (Hb : In b (verts s)) by (apply E; simpl; auto).
    assert (X : forall c, In c (verts s) -> existsb (Nat.eqb c) (verts s) = true) by (intros c Hc; apply existsb_exists; exists c; split; [exact Hc|apply Nat.eqb_refl]).
    rewrite (X a Ha), (X b Hb) in H. discriminate. }
  assert (I : forall L a b d, In (Simplex [b; a] d) L -> has L [a; b]) by (intros L a b d H; exists (Simplex [b; a] d); split; [exact H|intro x; simpl; tauto]).
  split; [vm_compute; reflexivity|]. split; [apply (I _ _ _ 2%Z); simpl; tauto|]. split; [apply D; [lia|reflexivity]|].
  split; [vm_compute; reflexivity|]. split; [apply D; [lia|reflexivity]|]. split; [apply (I _ _ _ 5%Z); simpl; tauto|]. vm_compute. reflexivity.
Qed.

(** FINDING: contrary to the documentation a zero is an edge. *)
Theorem C88_zero_refuted : exists lo hi text K, matrix_file lo hi [[0%Z]] 1 text /\ read_bipartite lo hi false false text = Ok (Some K) /\ has (by_index K) [0; 1].
Proof.
  exists (-128)%Z, 127%Z, (text_of [chars "0"] []). eexists. refine (conj _ (conj _ _)).
  - exists [chars "0"]. refine (conj _ (conj _ _)).
    + constructor. repeat constructor; unfold no_newline, chars, newline; simpl; intuition discriminate.
    + constructor; [|constructor]. apply (denotes_cons [] 0 [] []); [constructor|intros c t E; discriminate|constructor; constructor].
    + intros r [<-|[]]. split; [reflexivity|repeat constructor; lia].
  - vm_compute. reflexivity.
  - exists (Simplex [1; 0] 0%Z). split; [simpl; auto|]. intro x. simpl. tauto.
Qed.

(** FINDING: vertices with the least absolute weight can come after their edges. *)
Theorem C88_absolute_refuted : exists lo hi text K, read_bipartite lo hi true false text = Ok (Some K) /\ ~ filtration_order (by_index K).
Proof.
  exists (-128)%Z, 127%Z, (chars "-3 1"). eexists. split; [vm_compute; reflexivity|]. intro H.
  match type of H with filtration_order ?L => assert (exists i j s t, nth_error L i = Some s /\ nth_error L j = Some t /\ proper_face t s /\ i < j) as (i & j & s & t & E1 & E2 & E3 & E4) end.
  { exists 1, 2, (Simplex [1; 0] (-3)%Z), (Simplex [0] 1%Z). refine (conj eq_refl (conj eq_refl (conj _ _))); [|lia]. split.
    - intros x [<-|[]]. simpl. auto.
    - intro S. destruct (S 1) as [E|[]]; [simpl; auto|discriminate]. }
  specialize (H i j s t E1 E2 E3). lia.
Qed.

Example C88_example : exists K, read_bipartite (-128) 127 false true two_three = Ok (Some K) /\
  by_index K = [Simplex [0] 0%Z; Simplex [2] 0%Z; Simplex [2; 0] 0%Z; Simplex [3] 1%Z; Simplex [3; 0] 1%Z; Simplex [4] 2%Z; Simplex [4; 0] 2%Z; Simplex [1] 3%Z; Simplex [2; 1] 3%Z; Simplex [3; 1] 4%Z; Simplex [4; 1] 5%Z].
Proof. eexists. split; vm_compute; reflexivity. Qed.

Print Assumptions C87_adjacency.
Print Assumptions C87_default.
Print Assumptions C87_total.
Print Assumptions C87_comment_refuted.
Print Assumptions C87_order_refuted.
Print Assumptions C88_bipartite.
Print Assumptions C88_total.
Print Assumptions C88_lines_refuted.
Print Assumptions C88_zero_refuted.
Print Assumptions C88_absolute_refuted.
