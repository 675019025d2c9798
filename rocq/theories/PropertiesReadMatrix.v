(** * C86: matrices of values, as grids. *)
From Coq Require Import String.
From Coq Require Import List Arith Bool ZArith Ascii Lia Sorted Permutation.
From Verif Require Import Base BaseFacts Simplex SimplexFacts SpecComplex Complex ComplexFacts FiltrationFacts History Subcomplex SubcomplexFacts PairingFacts RipsFacts PropertiesRips
  LoadMatrix SpecText LoadFacts StringUtilities PropertiesString BarycentricFacts ReadMatrices ReadFacts.
Import ListNotations.
Local Open Scope nat_scope.

(** ** Specification *)
(** the file contains a matrix: one row per line, all of them with [w] numbers *)
Definition matrix_file (lo hi : Z) (rows : list (list Z)) (w : nat) (text : str) : Prop :=
  exists lines, file_of lines text /\ Forall2 denotes lines rows /\
    (forall r, In r rows -> length r = w /\ Forall (fun z => (lo <= z <= hi)%Z) r).
(** vertices are numbered row by row; the value of a vertex *)
Definition entry (rows : list (list Z)) (w v : nat) : Z := nth (v mod w) (nth (v / w) rows []) 0%Z.
(** [v] is the next cell to the right of, below or diagonally below [u] *)
Definition next_cell (w u v : nat) : Prop :=
  (v mod w = u mod w + 1 /\ v / w = u / w) \/ (v mod w = u mod w /\ v / w = u / w + 1) \/ (v mod w = u mod w + 1 /\ v / w = u / w + 1).
Definition grid_clique (w : nat) (vs : list nat) : Prop :=
  forall u v, In u vs -> In v vs -> u <> v -> next_cell w u v \/ next_cell w v u.

(** ** Facts *)
Lemma coordinates w x y : x < w -> (w * y + x) mod w = x /\ (w * y + x) / w = y.
Proof.
  intro H. split.
  - rewrite Nat.mul_comm, Nat.add_comm, Nat.mod_add by lia. apply Nat.mod_small. exact H.
  - rewrite Nat.mul_comm, Nat.add_comm, Nat.div_add by lia. rewrite Nat.div_small by exact H. reflexivity.
Qed.
Lemma at_coordinates h w v : v < h * w -> exists x y, x < w /\ y < h /\ v = w * y + x.
Proof.
  intro H. assert (w <> 0) by nia. exists (v mod w), (v / w). refine (conj _ (conj _ _)); [apply Nat.mod_upper_bound; assumption| |apply Nat.div_mod; assumption].
  apply Nat.div_lt_upper_bound; nia.
Qed.
Lemma cell_inj w x y x' y' : x < w -> x' < w -> w * y + x = w * y' + x' -> x = x' /\ y = y'.
Proof. intros H H' E. destruct (coordinates w x y H) as [A B]. destruct (coordinates w x' y' H') as [A' B']. rewrite E in A, B. split; congruence. Qed.
Lemma in_cells h w p : In p (cells h w) <-> fst p < w /\ snd p < h.
Proof.
  unfold cells. rewrite in_flat_map. destruct p as [x y]. cbn [fst snd]. split.
  - intros (y' & Hy & H). apply in_map_iff in H. destruct H as (x' & E & Hx). injection E as -> ->. apply in_seq in Hx, Hy. lia.
  - intros [Hx Hy]. exists y. split; [apply in_seq; lia|]. apply in_map_iff. exists x. split; [reflexivity|apply in_seq; lia].
Qed.
Lemma cells_nodup h w : NoDup (cells h w).
Proof.
  unfold cells. generalize 0 at 2. induction h as [|h IH]; intro s; [constructor|]. cbn [seq flat_map]. apply NoDup_app_intro; [|apply IH|].
  - apply FinFun.Injective_map_NoDup; [|apply seq_NoDup]. intros a b E. congruence.
  - intros p Hp F. apply in_map_iff in Hp. destruct Hp as (x & <- & _). apply in_flat_map in F. destruct F as (y & Hy & F). apply in_map_iff in F. destruct F as (x' & E & _).
    injection E as _ ->. apply in_seq in Hy. lia.
Qed.
Lemma cells_length h w : length (cells h w) = h * w.
Proof. unfold cells. generalize 0 at 2. induction h as [|h IH]; intro s; [reflexivity|]. cbn [seq flat_map]. rewrite app_length, map_length, seq_length, IH. reflexivity. Qed.

Lemma simplex_of2 u v d : u < v -> simplex_of [u; v] d = Simplex [v; u] d.
Proof. intro H. unfold simplex_of. f_equal. cbn [cpp_sort insert_sorted cpp_unique]. unfold greater. destruct (Nat.ltb_spec u v); [|lia]. cbn [cpp_unique]. destruct (Nat.eqb_spec v u); [lia|]. reflexivity. Qed.
Lemma simplex_of3 u v w d : u < v < w -> simplex_of [u; v; w] d = Simplex [w; v; u] d /\ simplex_of [u; w; v] d = Simplex [w; v; u] d.
Proof.
  intros [H1 H2]. assert (G : forall l, Permutation l [w; v; u] -> simplex_of l d = Simplex [w; v; u] d).
  { intros l Hp. unfold simplex_of. f_equal.
    assert (W : wf (simplex_of l d)) by apply simplex_of_wf. assert (W' : wf (Simplex [w; v; u] d)) by (unfold wf; cbn [verts]; repeat constructor; lia).
    apply (wf_ext _ _ W W'). intro x. rewrite simplex_of_In. cbn [verts]. split; apply Permutation_in; [exact Hp|apply Permutation_sym; exact Hp]. }
  split; apply G.
  - apply (Permutation_rev [u; v; w]).
  - change [w; v; u] with ([w; v] ++ [u]). change [u; w; v] with ([u] ++ [w; v]). apply Permutation_app_comm.
Qed.

(** the simplices *)
Section Grid.
  Variables (h w : nat) (val : nat -> Z) (f : Z -> Z -> Z) (tri : bool).
  Hypothesis Hh : 0 < h.
  Hypothesis Hw : 0 < w.

  Definition cell_a (p : nat * nat) : nat := w * snd p + fst p.
  Definition cell_b (p : nat * nat) : nat := w * snd p + fst p + 1.
  Definition cell_c (p : nat * nat) : nat := w * (snd p + 1) + fst p + 1.
  Definition cell_d (p : nat * nat) : nat := w * (snd p + 1) + fst p.

  Definition grid_v : list simplex := map (fun v => Simplex [v] (val v)) (seq 0 (h * w)).
  Definition grid_e (c : nat * nat -> nat) (l : list (nat * nat)) : list simplex := map (fun p => Simplex [c p; cell_a p] (f (val (cell_a p)) (val (c p)))) l.
  Definition grid_t : list simplex := flat_map (fun p =>
    [Simplex [cell_c p; cell_b p; cell_a p] (f (f (val (cell_a p)) (val (cell_b p))) (val (cell_c p)));
     Simplex [cell_c p; cell_d p; cell_a p] (f (f (val (cell_a p)) (val (cell_c p))) (val (cell_d p)))]) (cells (h - 1) (w - 1)).
  Definition grid : list simplex :=
    grid_v ++ (grid_e cell_b (cells h (w - 1)) ++ grid_e cell_d (cells (h - 1) w) ++ grid_e cell_c (cells (h - 1) (w - 1))) ++ if tri then grid_t else [].

  Lemma in_grid s : In s grid <->
    (exists v, v < h * w /\ s = Simplex [v] (val v)) \/
    (exists p, fst p < w - 1 /\ snd p < h /\ s = Simplex [cell_b p; cell_a p] (f (val (cell_a p)) (val (cell_b p)))) \/
    (exists p, fst p < w /\ snd p < h - 1 /\ s = Simplex [cell_d p; cell_a p] (f (val (cell_a p)) (val (cell_d p)))) \/
    (exists p, fst p < w - 1 /\ snd p < h - 1 /\ s = Simplex [cell_c p; cell_a p] (f (val (cell_a p)) (val (cell_c p)))) \/
    (tri = true /\ exists p, fst p < w - 1 /\ snd p < h - 1 /\
       (s = Simplex [cell_c p; cell_b p; cell_a p] (f (f (val (cell_a p)) (val (cell_b p))) (val (cell_c p))) \/
        s = Simplex [cell_c p; cell_d p; cell_a p] (f (f (val (cell_a p)) (val (cell_c p))) (val (cell_d p))))).
  Proof.
    assert (GE : forall c l, In s (grid_e c l) <-> exists p, In p l /\ s = Simplex [c p; cell_a p] (f (val (cell_a p)) (val (c p)))).
    { intros c l. unfold grid_e. rewrite in_map_iff. split; intros (p & A & B); exists p; auto. }
    unfold grid, grid_v. rewrite !in_app_iff, !GE, in_map_iff.
    assert (GT : In s (if tri then grid_t else []) <-> tri = true /\ exists p, In p (cells (h - 1) (w - 1)) /\
       (s = Simplex [cell_c p; cell_b p; cell_a p] (f (f (val (cell_a p)) (val (cell_b p))) (val (cell_c p))) \/
        s = Simplex [cell_c p; cell_d p; cell_a p] (f (f (val (cell_a p)) (val (cell_c p))) (val (cell_d p))))).
    { destruct tri; [|simpl; intuition discriminate]. unfold grid_t. rewrite in_flat_map. split.
      - intros (p & Hp & [E|[E|[]]]); (split; [reflexivity|]; exists p; auto).
      - intros (_ & p & Hp & E). exists p. split; [exact Hp|]. destruct E as [-> | ->]; simpl; auto. }
    rewrite GT. split.
    - intros [(v & E & Hv)|[[(p & Hp & E)|[(p & Hp & E)|(p & Hp & E)]]|(T & p & Hp & E)]].
      + left. exists v. apply in_seq in Hv. split; [lia|auto].
      + right; left. exists p. apply in_cells in Hp. tauto.
      + do 2 right; left. exists p. apply in_cells in Hp. tauto.
      + do 3 right; left. exists p. apply in_cells in Hp. tauto.
      + do 4 right. split; [exact T|]. exists p. apply in_cells in Hp. tauto.
    - intros [(v & Hv & E)|[(p & H1 & H2 & E)|[(p & H1 & H2 & E)|[(p & H1 & H2 & E)|(T & p & H1 & H2 & E)]]]].
      + left. exists v. split; [auto|apply in_seq; lia].
      + right; left; left. exists p. rewrite in_cells. auto.
      + right; left; right; left. exists p. rewrite in_cells. auto.
      + right; left; right; right. exists p. rewrite in_cells. auto.
      + right; right. split; [exact T|]. exists p. rewrite in_cells. auto.
  Qed.

  Lemma grid_good s : In s grid -> good s /\ (forall v, In v (verts s) -> v < h * w) /\ 1 <= length (verts s) <= 3.
  Proof.
    intro H. apply in_grid in H. unfold good, wf.
    destruct H as [(v & Hv & ->)|[(p & H1 & H2 & ->)|[(p & H1 & H2 & ->)|[(p & H1 & H2 & ->)|(T & p & H1 & H2 & [-> | ->])]]]]; cbn [verts length]; unfold cell_a, cell_b, cell_c, cell_d;
      (split; [split; [repeat constructor; lia|discriminate]|split; [|lia]]); intros u Hu; cbn [In] in Hu; nia.
  Qed.

  Lemma cell_a_inj p q : fst p < w -> fst q < w -> cell_a p = cell_a q -> p = q.
  Proof. destruct p as [x y], q as [x' y']. unfold cell_a. cbn [fst snd]. intros A B E. destruct (cell_inj w x y x' y' A B E) as [-> ->]. reflexivity. Qed.

  Lemma NoDup_map_in {A B} (g : A -> B) l : NoDup l -> (forall x y, In x l -> In y l -> g x = g y -> x = y) -> NoDup (map g l).
  Proof.
    intros H. induction H as [|a l Ha _ IH]; intro Hi; cbn [map]; constructor.
    - intro F. apply in_map_iff in F. destruct F as (b & E & Hb). apply Ha. rewrite (Hi a b); simpl; auto.
    - apply IH. intros; apply Hi; simpl; auto.
  Qed.

  Lemma edges_nodup c h' w' : w' <= w -> NoDup (map verts (grid_e c (cells h' w'))).
  Proof.
    intro Hle. unfold grid_e. rewrite map_map. cbn [verts]. apply NoDup_map_in; [apply cells_nodup|]. intros p q Hp Hq E. apply in_cells in Hp, Hq.
    assert (Ea : cell_a p = cell_a q) by congruence. apply cell_a_inj; [lia|lia|exact Ea].
  Qed.
  Lemma edge_verts_in c l vs : In vs (map verts (grid_e c l)) <-> exists p, In p l /\ vs = [c p; cell_a p].
  Proof. unfold grid_e. rewrite map_map, in_map_iff. cbn [verts]. split; intros (p & A & B); exists p; auto. Qed.

  Lemma grid_nodup : NoDup (map verts grid).
  Proof.
    unfold grid. rewrite !map_app. apply NoDup_app_intro; [|apply NoDup_app_intro; [apply NoDup_app_intro; [|apply NoDup_app_intro|]| |]|].
    - unfold grid_v. rewrite map_map. cbn [verts]. apply NoDup_map_in; [apply seq_NoDup|]. congruence.
    - apply edges_nodup. lia.
    - apply edges_nodup. lia.
    - apply edges_nodup. lia.
    - intros vs A B. apply edge_verts_in in A, B. destruct A as (p & Hp & ->), B as (q & Hq & E). apply in_cells in Hp, Hq.
      injection E as E1 E2. apply cell_a_inj in E2; [|lia|lia]. subst q. unfold cell_c, cell_d in E1. lia.
    - intros vs A B. apply in_app_or in B. rewrite !edge_verts_in in *. destruct A as (p & Hp & ->). apply in_cells in Hp.
      destruct B as [(q & Hq & E)|(q & Hq & E)]; apply in_cells in Hq; injection E as E1 E2; (apply cell_a_inj in E2; [|lia|lia]); subst q; unfold cell_b, cell_c, cell_d in E1; nia.
    - destruct tri; [|constructor]. unfold grid_t.
      assert (G : forall l, NoDup l -> (forall p, In p l -> fst p < w - 1) -> NoDup (map verts (flat_map (fun p =>
        [Simplex [cell_c p; cell_b p; cell_a p] (f (f (val (cell_a p)) (val (cell_b p))) (val (cell_c p)));
         Simplex [cell_c p; cell_d p; cell_a p] (f (f (val (cell_a p)) (val (cell_c p))) (val (cell_d p)))]) l))).
      { induction 1 as [|p l Hp _ IH]; intro Hl; [constructor|]. cbn [flat_map map app verts]. assert (Hpw : fst p < w - 1) by (apply Hl; simpl; auto).
        assert (N : forall vs, In vs (map verts (flat_map (fun p =>
          [Simplex [cell_c p; cell_b p; cell_a p] (f (f (val (cell_a p)) (val (cell_b p))) (val (cell_c p)));
           Simplex [cell_c p; cell_d p; cell_a p] (f (f (val (cell_a p)) (val (cell_c p))) (val (cell_d p)))]) l)) -> forall m, vs = [cell_c p; m; cell_a p] -> False).
        { intros vs F m E. apply in_map_iff in F. destruct F as (s & E' & F). apply in_flat_map in F. destruct F as (q & Hq & F). apply Hp.
          assert (Eq : cell_a q = cell_a p) by (destruct F as [<-|[<-|[]]]; cbn [verts] in E'; congruence).
          apply cell_a_inj in Eq; [subst q; exact Hq|assert (fst q < w - 1) by (apply Hl; simpl; auto); lia|lia]. }
        constructor; [|constructor; [|apply IH; intros; apply Hl; simpl; auto]].
        - intros [E|F]; [injection E as E; unfold cell_b, cell_d in E; nia|apply (N _ F _ eq_refl)].
        - intro F. apply (N _ F _ eq_refl). }
      apply G; [apply cells_nodup|]. intros p Hp. apply in_cells in Hp. lia.
    - intros vs A B. assert (length vs = 2).
      { apply in_app_or in A. destruct A as [A|A]; [|apply in_app_or in A; destruct A as [A|A]]; apply edge_verts_in in A; destruct A as (p & _ & ->); reflexivity. }
      destruct tri; [|destruct B]. apply in_map_iff in B. destruct B as (s & <- & B). unfold grid_t in B. apply in_flat_map in B. destruct B as (p & _ & [<-|[<-|[]]]); discriminate.
    - intros vs A B. assert (length vs = 1) by (unfold grid_v in A; rewrite map_map in A; apply in_map_iff in A; destruct A as (v & <- & _); reflexivity).
      apply in_app_or in B. destruct B as [B|B].
      + apply in_app_or in B. destruct B as [B|B]; [|apply in_app_or in B; destruct B as [B|B]]; apply edge_verts_in in B; destruct B as (p & _ & ->); discriminate.
      + destruct tri; [|destruct B]. apply in_map_iff in B. destruct B as (s & <- & B). unfold grid_t in B. apply in_flat_map in B. destruct B as (p & _ & [<-|[<-|[]]]); discriminate.
  Qed.

  (** coordinates of the corners of a square *)
  Lemma corners p : fst p < w ->
    (cell_a p mod w = fst p /\ cell_a p / w = snd p) /\ (cell_d p mod w = fst p /\ cell_d p / w = snd p + 1) /\
    (fst p < w - 1 -> (cell_b p mod w = fst p + 1 /\ cell_b p / w = snd p) /\ (cell_c p mod w = fst p + 1 /\ cell_c p / w = snd p + 1)).
  Proof.
    intro H. unfold cell_a, cell_b, cell_c, cell_d. refine (conj _ (conj _ _)); [apply coordinates; exact H|apply coordinates; exact H|].
    intro H'. rewrite <- !Nat.add_assoc. split; apply coordinates; lia.
  Qed.
  Lemma corner_lt p : fst p < w -> snd p < h -> cell_a p < h * w /\ (fst p < w - 1 -> cell_b p < h * w) /\ (snd p < h - 1 -> cell_d p < h * w /\ (fst p < w - 1 -> cell_c p < h * w)).
  Proof. unfold cell_a, cell_b, cell_c, cell_d. intros; repeat split; intros; nia. Qed.

  Lemma clique_subset vs us : subset us vs -> grid_clique w vs -> grid_clique w us.
  Proof. intros S C u v Hu Hv. apply C; auto. Qed.
  Lemma grid_cliques s : In s grid -> grid_clique w (verts s).
  Proof.
    intro H. apply in_grid in H. unfold grid_clique, next_cell.
    destruct H as [(v & Hv & ->)|[(p & H1 & H2 & ->)|[(p & H1 & H2 & ->)|[(p & H1 & H2 & ->)|(T & p & H1 & H2 & [-> | ->])]]]]; cbn [verts In].
    1: { intros u u' [<-|[]] [<-|[]] F. lia. }
    all: destruct (corners p ltac:(lia)) as ([A1 A2] & [D1 D2] & BC); try (destruct (BC ltac:(lia)) as ([B1 B2] & [C1 C2])); clear BC.
    1-3: intros u v [<-|[<-|[]]] [<-|[<-|[]]] F; try congruence; rewrite ?A1, ?A2, ?B1, ?B2, ?C1, ?C2, ?D1, ?D2; lia.
    all: intros u v [<-|[<-|[<-|[]]]] [<-|[<-|[<-|[]]]] F; try congruence; rewrite ?A1, ?A2, ?B1, ?B2, ?C1, ?C2, ?D1, ?D2; lia.
  Qed.

  Lemma has_incl L (vs ws : list nat) : NoDup vs -> length ws = length vs -> incl vs ws -> (exists s, In s L /\ verts s = ws) -> has L vs.
  Proof.
    intros N El I (s & Hs & E). exists s. split; [exact Hs|]. rewrite E. intro v. split; [|apply I].
    apply (NoDup_length_incl N); [lia|exact I].
  Qed.

  Lemma next_lt u v : next_cell w u v -> u < v.
  Proof.
    intro N. rewrite (Nat.div_mod u w), (Nat.div_mod v w) by lia. pose proof (Nat.mod_upper_bound u w ltac:(lia)). pose proof (Nat.mod_upper_bound v w ltac:(lia)). unfold next_cell in N. nia.
  Qed.

  Lemma has_edge u v : u < h * w -> v < h * w -> next_cell w u v -> exists s, In s grid /\ verts s = [v; u].
  Proof.
    intros Hu Hv N. destruct (at_coordinates h w u Hu) as (x & y & X & Y & ->). destruct (at_coordinates h w v Hv) as (x' & y' & X' & Y' & ->).
    unfold next_cell in N. destruct (coordinates w x y X) as [E1 E2], (coordinates w x' y' X') as [E3 E4]. rewrite E1, E2, E3, E4 in N.
    destruct N as [[-> ->]|[[-> ->]|[-> ->]]].
    - eexists. split; [apply in_grid; right; left; exists (x, y); cbn [fst snd]; refine (conj _ (conj _ eq_refl)); lia|]. unfold cell_a, cell_b. cbn [verts fst snd]. f_equal. lia.
    - eexists. split; [apply in_grid; do 2 right; left; exists (x, y); cbn [fst snd]; refine (conj _ (conj _ eq_refl)); lia|]. unfold cell_a, cell_d. cbn [verts fst snd]. f_equal.
    - eexists. split; [apply in_grid; do 3 right; left; exists (x, y); cbn [fst snd]; refine (conj _ (conj _ eq_refl)); lia|]. unfold cell_a, cell_c. cbn [verts fst snd]. f_equal. lia.
  Qed.

  Lemma has_triangle u v t : tri = true -> u < h * w -> v < h * w -> t < h * w -> next_cell w u v -> next_cell w v t -> next_cell w u t ->
    exists s, In s grid /\ verts s = [t; v; u].
  Proof.
    intros Ht Hu Hv Hq N1 N2 N3. destruct (at_coordinates h w u Hu) as (x & y & X & Y & ->). destruct (at_coordinates h w v Hv) as (x' & y' & X' & Y' & ->). destruct (at_coordinates h w t Hq) as (x2 & y2 & X2 & Y2 & ->).
    unfold next_cell in *. destruct (coordinates w x y X) as [E1 E2], (coordinates w x' y' X') as [E3 E4], (coordinates w x2 y2 X2) as [E5 E6].
    rewrite E1, E2, E3, E4 in N1. rewrite E3, E4, E5, E6 in N2. rewrite E1, E2, E5, E6 in N3. clear E1 E2 E3 E4 E5 E6 Hu Hv Hq.
    assert (G : (x' = x + 1 /\ y' = y \/ x' = x /\ y' = y + 1) /\ x2 = x + 1 /\ y2 = y + 1) by lia. destruct G as (G & -> & ->). clear N1 N2 N3.
    destruct G as [[-> ->]|[-> ->]].
    - eexists. split; [apply in_grid; do 4 right; split; [exact Ht|]; exists (x, y); cbn [fst snd]; refine (conj _ (conj _ (or_introl eq_refl))); lia|].
      unfold cell_a, cell_b, cell_c. cbn [verts fst snd]. f_equal; [lia|]. f_equal. lia.
    - eexists. split; [apply in_grid; do 4 right; split; [exact Ht|]; exists (x, y); cbn [fst snd]; refine (conj _ (conj _ (or_intror eq_refl))); lia|].
      unfold cell_a, cell_d, cell_c. cbn [verts fst snd]. f_equal. lia.
  Qed.

  Lemma grid_complete vs : NoDup vs -> vs <> [] ->
    (has grid vs <-> (forall v, In v vs -> v < h * w) /\ grid_clique w vs /\ length vs <= if tri then 3 else 2).
  Proof.
    intros N Hne. split.
    - intros (s & Hs & E). destruct (grid_good s Hs) as (_ & G1 & G2). assert (I : incl vs (verts s)) by (intros v Hv; apply E; exact Hv).
      refine (conj _ (conj _ _)); [intros v Hv; apply G1, I, Hv|apply (clique_subset (verts s)); [exact I|apply grid_cliques; exact Hs]|].
      pose proof (NoDup_incl_length N I) as Hl. destruct tri eqn:Et; [lia|]. apply in_grid in Hs.
      destruct Hs as [(v & Hv & ->)|[(p & H1 & H2 & ->)|[(p & H1 & H2 & ->)|[(p & H1 & H2 & ->)|(T & _)]]]]; [..|congruence]; cbn [verts length] in Hl; lia.
    - intros (B & C & Hl). destruct vs as [|u [|v [|t [|t' vs]]]]; [easy|..].
      + exists (Simplex [u] (val u)). split; [|intro; tauto]. apply in_grid. left. exists u. split; [apply B; simpl; auto|reflexivity].
      + assert (Huv : u <> v) by (inversion N; simpl in *; intuition). destruct (C u v) as [F|F]; [simpl; auto|simpl; auto|exact Huv| |].
        * apply (has_incl _ _ [v; u]); [exact N|reflexivity|intro; simpl; tauto|]. apply has_edge; [apply B|apply B|]; simpl; auto.
        * apply (has_incl _ _ [u; v]); [exact N|reflexivity|intro; simpl; tauto|]. apply has_edge; [apply B|apply B|]; simpl; auto.
      + assert (Et : tri = true) by (destruct tri; [reflexivity|simpl in Hl; lia]).
        assert (Huv : u <> v /\ u <> t /\ v <> t) by (inversion N as [|? ? N1 N2]; inversion N2; simpl in *; intuition). destruct Huv as (H1 & H2 & H3).
        pose proof (C u v ltac:(simpl; auto) ltac:(simpl; auto) H1) as C1. pose proof (C u t ltac:(simpl; auto) ltac:(simpl; auto) H2) as C2. pose proof (C v t ltac:(simpl; auto) ltac:(simpl; auto) H3) as C3.
        assert (Bu : u < h * w) by (apply B; simpl; auto). assert (Bv : v < h * w) by (apply B; simpl; auto). assert (Bt : t < h * w) by (apply B; simpl; auto).
        clear B C Hl Hne.
        assert (HI : forall a b c, next_cell w a b -> next_cell w b c -> next_cell w a c -> a < h * w -> b < h * w -> c < h * w -> incl [u; v; t] [c; b; a] -> has grid [u; v; t]).
        { intros a b c A1 A2 A3 B1 B2 B3 I. apply (has_incl _ _ [c; b; a]); [exact N|reflexivity|exact I|]. apply has_triangle; assumption. }
        destruct C1 as [C1|C1], C2 as [C2|C2], C3 as [C3|C3].
        * apply (HI u v t); auto. intro; simpl; tauto.
        * apply (HI u t v); auto. intro; simpl; tauto.
        * exfalso. apply next_lt in C1, C2, C3. lia.
        * apply (HI t u v); auto. intro; simpl; tauto.
        * apply (HI v u t); auto. intro; simpl; tauto.
        * exfalso. apply next_lt in C1, C2, C3. lia.
        * apply (HI v t u); auto. intro; simpl; tauto.
        * apply (HI t v u); auto. intro; simpl; tauto.
      + simpl in Hl. destruct tri; lia.
  Qed.

  Lemma grid_closed : closed grid.
  Proof.
    intros s vs Hs Hne S. set (us := nodup Nat.eq_dec vs).
    assert (U : forall v, In v us <-> In v vs) by (intro v; apply nodup_In).
    assert (Hu : has grid us).
    { destruct (grid_good s Hs) as ((W & _) & G1 & G2). assert (I : incl us (verts s)) by (intros v Hv; apply S, U, Hv).
      apply grid_complete; [apply NoDup_nodup|intro F; destruct vs as [|v vs]; [easy|]; assert (In v us) by (apply U; simpl; auto); rewrite F in *; easy|].
      assert (N : NoDup us) by apply NoDup_nodup.
      destruct (proj1 (grid_complete (verts s) (SSgt_NoDup _ W) ltac:(destruct (verts s); [simpl in G2; lia|discriminate]))) as (A & B & C); [exists s; split; [exact Hs|intro; tauto]|].
      refine (conj _ (conj _ _)); [intros v Hv; apply A, I, Hv|apply (clique_subset (verts s)); assumption|]. pose proof (NoDup_incl_length N I). lia. }
    destruct Hu as (t & Ht & E). exists t. split; [exact Ht|]. intro v. rewrite (E v). apply U.
  Qed.

  (** the order of the simplices *)
  Lemma grid_dims : StronglySorted (fun s t => length (verts s) <= length (verts t)) grid.
  Proof.
    assert (G : forall k l, (forall s, In s l -> length (verts s) = k) -> StronglySorted (fun s t => length (verts s) <= length (verts t)) l).
    { intros k l. induction l as [|s l IH]; intro H; constructor; [apply IH; intros; apply H; simpl; auto|]. apply Forall_forall. intros t Ht. rewrite (H s), (H t); simpl; auto. }
    assert (AP : forall l m : list simplex, StronglySorted (fun s t => length (verts s) <= length (verts t)) l -> StronglySorted (fun s t => length (verts s) <= length (verts t)) m ->
      (forall s t, In s l -> In t m -> length (verts s) <= length (verts t)) -> StronglySorted (fun s t => length (verts s) <= length (verts t)) (l ++ m)).
    { intros l m Hl Hm. induction Hl as [|s l Hl IH HF]; intro H; [exact Hm|]. cbn [app]. constructor; [apply IH; intros; apply H; simpl; auto|]. apply Forall_app. split; [exact HF|]. apply Forall_forall. intros t Ht. apply H; simpl; auto. }
    assert (L1 : forall s, In s grid_v -> length (verts s) = 1) by (intros s Hs; unfold grid_v in Hs; apply in_map_iff in Hs; destruct Hs as (v & <- & _); reflexivity).
    assert (L2 : forall s, In s (grid_e cell_b (cells h (w - 1)) ++ grid_e cell_d (cells (h - 1) w) ++ grid_e cell_c (cells (h - 1) (w - 1))) -> length (verts s) = 2).
    { intros s Hs. rewrite !in_app_iff in Hs. destruct Hs as [Hs|[Hs|Hs]]; unfold grid_e in Hs; apply in_map_iff in Hs; destruct Hs as (p & <- & _); reflexivity. }
    assert (L3 : forall s, In s (if tri then grid_t else []) -> length (verts s) = 3).
    { intros s Hs. destruct tri; [|destruct Hs]. unfold grid_t in Hs. apply in_flat_map in Hs. destruct Hs as (p & _ & [<-|[<-|[]]]); reflexivity. }
    unfold grid. apply AP; [apply (G 1); exact L1|apply AP; [apply (G 2); exact L2|apply (G 3); exact L3|]|].
    - intros s t Hs Ht. rewrite (L2 s Hs), (L3 t Ht). lia.
    - intros s t Hs Ht. rewrite (L1 s Hs). apply in_app_or in Ht. destruct Ht as [Ht|Ht]; [rewrite (L2 t Ht)|rewrite (L3 t Ht)]; lia.
  Qed.

  (** the data of the simplices *)
  Lemma grid_max s : (forall a b, f a b = Z.max a b) -> In s grid -> is_max_over val (verts s) (data s).
  Proof.
    intros Hf H. apply in_grid in H. unfold is_max_over.
    destruct H as [(v & Hv & ->)|[(p & H1 & H2 & ->)|[(p & H1 & H2 & ->)|[(p & H1 & H2 & ->)|(T & p & H1 & H2 & [-> | ->])]]]]; cbn [verts data]; rewrite ?Hf.
    - split; [exists v; simpl; auto|intros u [<-|[]]; lia].
    - split; [|intros u [<-|[<-|[]]]; lia]. destruct (Z.max_spec (val (cell_a p)) (val (cell_b p))) as [[_ ->]|[_ ->]]; eexists; simpl; eauto.
    - split; [|intros u [<-|[<-|[]]]; lia]. destruct (Z.max_spec (val (cell_a p)) (val (cell_d p))) as [[_ ->]|[_ ->]]; eexists; simpl; eauto.
    - split; [|intros u [<-|[<-|[]]]; lia]. destruct (Z.max_spec (val (cell_a p)) (val (cell_c p))) as [[_ ->]|[_ ->]]; eexists; simpl; eauto.
    - split; [|intros u [<-|[<-|[<-|[]]]]; lia]. destruct (Z.max_spec (val (cell_a p)) (val (cell_b p))) as [[_ ->]|[_ ->]];
        match goal with |- context [Z.max ?a ?b] => destruct (Z.max_spec a b) as [[_ ->]|[_ ->]] end; eexists; simpl; eauto.
    - split; [|intros u [<-|[<-|[<-|[]]]]; lia]. destruct (Z.max_spec (val (cell_a p)) (val (cell_c p))) as [[_ ->]|[_ ->]];
        match goal with |- context [Z.max ?a ?b] => destruct (Z.max_spec a b) as [[_ ->]|[_ ->]] end; eexists; simpl; eauto.
  Qed.
  Lemma grid_data s : In s grid ->
    (forall v, verts s = [v] -> data s = val v) /\ (forall u v, verts s = [v; u] -> data s = f (val u) (val v)) /\
    (forall a b c, verts s = [c; b; a] -> data s = if b =? a + 1 then f (f (val a) (val b)) (val c) else f (f (val a) (val c)) (val b)).
  Proof.
    intro H. apply in_grid in H.
    destruct H as [(v & Hv & ->)|[(p & H1 & H2 & ->)|[(p & H1 & H2 & ->)|[(p & H1 & H2 & ->)|(T & p & H1 & H2 & [-> | ->])]]]]; cbn [verts data];
      (refine (conj _ (conj _ _)); intros; try discriminate); match goal with E : _ = _ |- _ => injection E as <- end; subst; try reflexivity.
    - destruct (Nat.eqb_spec (cell_b p) (cell_a p + 1)) as [_|F]; [reflexivity|]. unfold cell_a, cell_b in F. lia.
    - destruct (Nat.eqb_spec (cell_d p) (cell_a p + 1)) as [F|_]; [|reflexivity]. unfold cell_a, cell_d in F. nia.
  Qed.

  (** how many there are *)
  Lemma grid_count : let number d := length (filter (fun s => sdim s =? d) grid) in
    number 0 = h * w /\ number 1 = h * (w - 1) + (h - 1) * w + (h - 1) * (w - 1) /\ number 2 = (if tri then 2 * ((h - 1) * (w - 1)) else 0).
  Proof.
    assert (F : forall d l k, (forall s, In s l -> sdim s = k) -> length (filter (fun s => sdim s =? d) l) = if k =? d then length l else 0).
    { intros d l k. induction l as [|s l IH]; intro H; [destruct (k =? d); reflexivity|]. cbn [filter]. rewrite (H s) by (simpl; auto). specialize (IH ltac:(intros; apply H; simpl; auto)).
      destruct (k =? d); cbn [length]; [rewrite IH; reflexivity|exact IH]. }
    assert (L1 : forall s, In s grid_v -> sdim s = 0) by (intros s Hs; unfold grid_v in Hs; apply in_map_iff in Hs; destruct Hs as (v & <- & _); reflexivity).
    assert (L2 : forall c l s, In s (grid_e c l) -> sdim s = 1) by (intros c l s Hs; unfold grid_e in Hs; apply in_map_iff in Hs; destruct Hs as (p & <- & _); reflexivity).
    assert (L3 : forall s, In s (if tri then grid_t else []) -> sdim s = 2).
    { intros s Hs. destruct tri; [|destruct Hs]. unfold grid_t in Hs. apply in_flat_map in Hs. destruct Hs as (p & _ & [<-|[<-|[]]]); reflexivity. }
    assert (LT : length (if tri then grid_t else []) = if tri then 2 * ((h - 1) * (w - 1)) else 0).
    { destruct tri; [|reflexivity]. unfold grid_t. rewrite <- (cells_length (h - 1) (w - 1)). induction (cells (h - 1) (w - 1)) as [|p l IH]; [reflexivity|]. cbn [flat_map app length]. rewrite IH. lia. }
    cbv zeta. unfold grid. rewrite !filter_app, !app_length, !(F _ _ _ L1), !(F _ _ _ (L2 _ _)), !(F _ _ _ L3), LT. unfold grid_v, grid_e. cbn [Nat.eqb]. rewrite !map_length, seq_length, !cells_length. lia.
  Qed.
End Grid.

(** ** Reading *)
Definition size_step (st : nat * nat) (line : str) : outcome (nat * nat) :=
  let '(height, width) := st in
  let k := length (split isspace (trim line)) in
  if width =? 0 then Ok (S height, k) else if negb (width =? k) then Throw RuntimeError else Ok (S height, width).

Lemma size_rest w lines rows : 0 < w -> Forall2 denotes lines rows -> (forall r, In r rows -> length r = w) -> forall k,
  foldM size_step lines (k, w) = Ok (k + length rows, w).
Proof.
  intros Hw H. induction H as [|l r lines rows Hl _ IH]; intros Hr k; cbn [foldM length]; [rewrite Nat.add_0_r; reflexivity|].
  unfold size_step at 1. assert (L : length r = w) by (apply Hr; simpl; auto). rewrite (split_denoted l r Hl) by (intros ->; simpl in L; lia). rewrite L, Nat.eqb_refl.
  destruct (Nat.eqb_spec w 0); [lia|]. cbn [negb bind]. rewrite IH by (intros; apply Hr; simpl; auto). f_equal. f_equal. lia.
Qed.
Lemma size_bad w lines rows : 0 < w -> Forall2 denotes lines rows -> (forall r, In r rows -> r <> []) -> (exists r, In r rows /\ length r <> w) -> forall k,
  foldM size_step lines (k, w) = Throw RuntimeError.
Proof.
  intros Hw H. induction H as [|l r lines rows Hl _ IH]; intros Hr (r' & Hr' & Hne) k; [destruct Hr'|]. cbn [foldM].
  unfold size_step at 1. rewrite (split_denoted l r Hl) by (apply Hr; simpl; auto). destruct (Nat.eqb_spec w 0); [lia|].
  destruct (Nat.eqb_spec w (length r)) as [E|E]; cbn [negb bind]; [|reflexivity]. apply IH; [intros; apply Hr; simpl; auto|].
  destruct Hr' as [<-|Hr']; [congruence|]. exists r'. auto.
Qed.
Lemma size_ok w lines rows : 0 < w -> rows <> [] -> Forall2 denotes lines rows -> (forall r, In r rows -> length r = w) ->
  foldM size_step lines (0, 0) = Ok (length rows, w).
Proof.
  intros Hw Hne H Hr. destruct H as [|l r lines rows Hl H]; [easy|]. cbn [foldM]. unfold size_step at 1. cbn [Nat.eqb bind].
  assert (L : length r = w) by (apply Hr; simpl; auto). rewrite (split_denoted l r Hl) by (intros ->; simpl in L; lia). rewrite L.
  rewrite (size_rest w lines rows Hw H) by (intros; apply Hr; simpl; auto). reflexivity.
Qed.

Lemma concat_entry rows w v : 0 < w -> (forall r, In r rows -> length r = w) -> v < length rows * w -> nth_error (concat rows) v = Some (entry rows w v).
Proof.
  intros Hw Hr Hv. destruct (at_coordinates (length rows) w v Hv) as (x & y & X & Y & ->). unfold entry. destruct (coordinates w x y X) as [-> ->]. clear Hv.
  revert y Y. induction rows as [|r rows IH]; intros y Y; [simpl in Y; lia|]. cbn [concat]. assert (L : length r = w) by (apply Hr; simpl; auto). destruct y as [|y].
  - rewrite Nat.mul_0_r. cbn [plus nth]. rewrite nth_error_app1 by lia. apply nth_error_nth'. lia.
  - rewrite nth_error_app2 by nia. cbn [nth length] in *. rewrite <- IH by (lia || (intros; apply Hr; simpl; auto)). f_equal. nia.
Qed.
Lemma concat_length rows w : (forall r, In r rows -> length r = w) -> length (@concat Z rows) = length rows * w.
Proof. induction rows as [|r rows IH]; intro H; [reflexivity|]. cbn [concat length]. rewrite app_length, IH, (H r) by (simpl; auto; intros; apply H; simpl; auto). reflexivity. Qed.

Lemma edges_ok f values val n u v l : (forall i, i < n -> nth_error values i = Some (val i)) -> (forall p, In p l -> u p < v p < n) -> forall acc,
  matrix_edges f values u v l acc = Ok (acc ++ map (fun p => Simplex [v p; u p] (f (val (u p)) (val (v p)))) l).
Proof.
  intro Hv. unfold matrix_edges. induction l as [|p l IH]; intros Hl acc; cbn [foldM map]; [rewrite app_nil_r; reflexivity|].
  destruct (Hl p (or_introl eq_refl)) as [H1 H2]. rewrite (proj2 (at_ok _ _ _) (Hv (u p) ltac:(lia))), (proj2 (at_ok _ _ _) (Hv (v p) H2)). cbn [bind].
  rewrite simplex_of2 by exact H1. rewrite IH by (intros; apply Hl; simpl; auto). rewrite <- app_assoc. reflexivity.
Qed.

Lemma triangles_ok f values val h w : 0 < w -> 0 < h -> (forall i, i < h * w -> nth_error values i = Some (val i)) -> forall acc,
  matrix_triangles f values w (cells (h - 1) (w - 1)) acc = Ok (acc ++ grid_t h w val f).
Proof.
  intros Hw Hh Hv. unfold matrix_triangles, grid_t. assert (G : forall p, In p (cells (h - 1) (w - 1)) -> fst p < w - 1 /\ snd p < h - 1) by (intros p; apply in_cells).
  induction (cells (h - 1) (w - 1)) as [|p l IH]; intro acc; cbn [foldM flat_map]; [rewrite app_nil_r; reflexivity|]. destruct (G p (or_introl eq_refl)) as [H1 H2]. destruct p as [x y]. cbn [fst snd] in H1, H2.
  assert (Hc : w * (y + 1) + x + 1 < h * w) by nia.
  rewrite (proj2 (at_ok _ _ _) (Hv (w * y + x) ltac:(nia))), (proj2 (at_ok _ _ _) (Hv (w * y + x + 1) ltac:(nia))), (proj2 (at_ok _ _ _) (Hv _ Hc)), (proj2 (at_ok _ _ _) (Hv (w * (y + 1) + x) ltac:(nia))). cbn [bind].
  rewrite (proj1 (simplex_of3 (w * y + x) (w * y + x + 1) (w * (y + 1) + x + 1) _ ltac:(nia))), (proj2 (simplex_of3 (w * y + x) (w * (y + 1) + x) (w * (y + 1) + x + 1) _ ltac:(nia))).
  rewrite IH by (intros; apply G; simpl; auto). rewrite <- app_assoc. reflexivity.
Qed.

Lemma vertices_list values val : (forall i, i < length values -> nth_error values i = Some (val i)) ->
  map (fun p : nat * Z => simplex_vertex (fst p) (snd p)) (combine (seq 0 (length values)) values) = map (fun v => Simplex [v] (val v)) (seq 0 (length values)).
Proof.
  assert (G : forall vals k, (forall i, i < length vals -> nth_error vals i = Some (val (k + i))) ->
    map (fun p : nat * Z => simplex_vertex (fst p) (snd p)) (combine (seq k (length vals)) vals) = map (fun v => Simplex [v] (val v)) (seq k (length vals))).
  { induction vals as [|z vals IH]; intros k H; [reflexivity|]. cbn [length seq combine map fst snd]. f_equal.
    - pose proof (H 0 ltac:(simpl; lia)) as E. cbn [nth_error] in E. injection E as ->. rewrite Nat.add_0_r. reflexivity.
    - apply IH. intros i Hi. specialize (H (S i) ltac:(simpl; lia)). cbn [nth_error] in H. rewrite H. f_equal. f_equal. lia. }
  intro H. apply (G values 0). exact H.
Qed.

Lemma dims_filtration L : (forall s, In s L -> good s) -> StronglySorted (fun s t => length (verts s) <= length (verts t)) L -> filtration_order L.
Proof.
  intros Hg HS i j s t Hi Hj [P1 P2]. assert (Hs : In s L) by (apply nth_error_In in Hi; exact Hi). assert (Ht : In t L) by (apply nth_error_In in Hj; exact Hj).
  destruct (Nat.lt_ge_cases j i) as [?|Hle]; [assumption|]. exfalso. apply P2.
  assert (Hlen : length (verts s) <= length (verts t)).
  { destruct (Nat.eq_dec i j) as [->|Hne]; [congruence|]. clear -HS Hi Hj Hle Hne. revert i j Hi Hj Hle Hne. induction HS as [|a L HS IH HF]; intros i j Hi Hj Hle Hne; [destruct i; discriminate|].
    destruct i as [|i], j as [|j]; [lia| |lia|].
    - cbn [nth_error] in *. injection Hi as <-. rewrite Forall_forall in HF. apply HF. apply nth_error_In in Hj. exact Hj.
    - cbn [nth_error] in *. apply (IH i j); auto; lia. }
  intros v Hv. assert (N : NoDup (verts t)) by (apply SSgt_NoDup; apply (Hg t Ht)). apply (NoDup_length_incl N Hlen); [exact P1|exact Hv].
Qed.

(** The complex of a matrix: its simplices are the cliques of neighbouring cells with
    at most three (two) elements. *)
Theorem C86_matrix : forall lo hi tri f rows w text, matrix_file lo hi rows w text -> rows <> [] -> 0 < w ->
  exists K, read_matrix lo hi tri f text = Ok K /\ reachable K /\ closed (by_index K) /\ filtration_order (by_index K) /\
    (forall vs, NoDup vs -> vs <> [] ->
       (has (by_index K) vs <-> (forall v, In v vs -> v < length rows * w) /\ grid_clique w vs /\ length vs <= if tri then 3 else 2)) /\
    (forall s v, In s (by_index K) -> verts s = [v] -> data s = entry rows w v) /\
    (forall s u v, In s (by_index K) -> verts s = [v; u] -> data s = f (entry rows w u) (entry rows w v)) /\
    (forall s u v t, In s (by_index K) -> verts s = [t; v; u] ->
       data s = if v =? u + 1 then f (f (entry rows w u) (entry rows w v)) (entry rows w t) else f (f (entry rows w u) (entry rows w t)) (entry rows w v)) /\
    ((forall a b, f a b = Z.max a b) -> forall s, In s (by_index K) -> is_max_over (entry rows w) (verts s) (data s)) /\
    (let number d := length (k_range K d) in
     number 0 = length rows * w /\ number 1 = length rows * (w - 1) + (length rows - 1) * w + (length rows - 1) * (w - 1) /\
     number 2 = if tri then 2 * ((length rows - 1) * (w - 1)) else 0).
Proof.
  intros lo hi tri f rows w text (lines & Hf & HR & Hr) Hne Hw. set (h := length rows). assert (Hh : 0 < h) by (unfold h; destruct rows; [easy|simpl; lia]).
  assert (Hl : forall r, In r rows -> length r = w) by (intros r H; apply (Hr r H)).
  assert (EV : forall i, i < h * w -> nth_error (concat rows) i = Some (entry rows w i)) by (intros i Hi; apply concat_entry; assumption).
  assert (Lv : length (concat rows) = h * w) by (apply concat_length; exact Hl).
  assert (E : read_matrix lo hi tri f text = k_of_range (grid h w (entry rows w) f tri)).
  { unfold read_matrix, matrix_size. rewrite (file_lines lines text Hf). fold size_step. rewrite (size_ok w lines rows Hw Hne HR Hl). cbn [bind].
    rewrite (values_denoted lo hi text (concat rows)); [|apply (file_denotes lines text rows Hf HR)|].
    2: { apply Forall_forall. intros z Hz. apply in_concat in Hz. destruct Hz as (r & Hr' & Hz). destruct (Hr r Hr') as [_ F]. rewrite Forall_forall in F. auto. }
    cbn [bind]. fold h. destruct (Nat.eqb_spec h 0); [lia|]. rewrite (vertices_list (concat rows) (entry rows w)) by (rewrite Lv; exact EV). rewrite Lv.
    rewrite (edges_ok f (concat rows) (entry rows w) (h * w)); [|exact EV|intros [x y] Hp; apply in_cells in Hp; cbn [fst snd] in *; nia]. cbn [bind].
    rewrite (edges_ok f (concat rows) (entry rows w) (h * w)); [|exact EV|intros [x y] Hp; apply in_cells in Hp; cbn [fst snd] in *; nia]. cbn [bind].
    rewrite (edges_ok f (concat rows) (entry rows w) (h * w)); [|exact EV|intros [x y] Hp; apply in_cells in Hp; cbn [fst snd] in *; nia]. cbn [bind].
    destruct tri; cbn [bind].
    - rewrite (triangles_ok f (concat rows) (entry rows w) h w Hw Hh EV). cbn [bind]. unfold grid. rewrite <- !app_assoc. reflexivity.
    - unfold grid. rewrite app_nil_r, <- !app_assoc. reflexivity. }
  destruct (of_range_new (grid h w (entry rows w) f tri)) as (K & EK & KK & IK); [intros s Hs; apply (grid_good h w _ f tri Hh Hw s Hs)|apply grid_nodup; assumption|].
  exists K. rewrite E, IK. refine (conj EK (conj _ (conj _ (conj _ (conj _ (conj _ (conj _ (conj _ (conj _ _))))))))).
  - apply (of_range_reachable _ K) in EK; [exact EK|]. intros s Hs. apply (grid_good h w _ f tri Hh Hw s Hs).
  - apply grid_closed; assumption.
  - apply dims_filtration; [intros s Hs; apply (grid_good h w _ f tri Hh Hw s Hs)|apply grid_dims; assumption].
  - intros vs N Nv. apply grid_complete; assumption.
  - intros s v Hs Ev. apply (grid_data h w _ f tri Hh Hw s Hs). exact Ev.
  - intros s u v Hs Ev. apply (grid_data h w _ f tri Hh Hw s Hs). exact Ev.
  - intros s u v t Hs Ev. apply (grid_data h w _ f tri Hh Hw s Hs). exact Ev.
  - intros Hm s Hs. apply (grid_max h w _ f tri Hh Hw s Hm Hs).
  - destruct (grid_count h w (entry rows w) f tri Hh Hw) as (N0 & N1 & N2).
    assert (P : forall d, length (k_range K d) = length (filter (fun s => sdim s =? d) (grid h w (entry rows w) f tri))).
    { intro d. rewrite (range_filter K d KK), <- IK. apply Permutation_length. apply filter_perm. symmetry. apply KK. }
    cbv beta zeta. rewrite !P. auto.
Qed.

(** Rows with different numbers of values are rejected. *)
Theorem C86_columns : forall lo hi tri f lines rows text, file_of lines text -> Forall2 denotes lines rows -> (forall r, In r rows -> r <> []) ->
  (exists r r', In r rows /\ In r' rows /\ length r <> length r') -> read_matrix lo hi tri f text = Throw RuntimeError.
Proof.
  intros lo hi tri f lines rows text Hf HR Hne (r1 & r2 & H1 & H2 & Hl). unfold read_matrix, matrix_size. rewrite (file_lines lines text Hf). fold size_step.
  destruct HR as [|l r lines rows Hd HR]; [destruct H1|]. cbn [foldM]. unfold size_step at 1. cbn [Nat.eqb bind]. rewrite (split_denoted l r Hd) by (apply Hne; simpl; auto).
  rewrite (size_bad (length r) lines rows); [reflexivity| |exact HR|intros; apply Hne; simpl; auto|].
  - assert (r <> []) by (apply Hne; simpl; auto). destruct r; [easy|simpl; lia].
  - destruct (Nat.eq_dec (length r1) (length r)) as [E|E].
    + destruct H2 as [<-|H2]; [congruence|]. exists r2. split; [exact H2|congruence].
    + destruct H1 as [<-|H1]; [congruence|]. exists r1. auto.
Qed.

(** an empty file *)
Theorem C86_empty_file : forall lo hi tri f, read_matrix lo hi tri f [] = Throw OutOfRange.
Proof. reflexivity. Qed.

(** FINDING: contrary to the documentation, empty lines are not permitted and lines
    starting with [#] are not ignored. *)
Theorem C86_empty_line_refuted : forall lo hi tri f w before after rows rows' text,
  file_of (before ++ [[]] ++ after) text -> Forall2 denotes before rows -> Forall2 denotes after rows' -> rows <> [] -> 1 < w ->
  (forall r, In r (rows ++ rows') -> length r = w) ->
  read_matrix lo hi tri f text = Throw RuntimeError.
Proof.
  intros lo hi tri f w before after rows rows' text Hf H1 H2 Hne Hw Hr. unfold read_matrix, matrix_size. rewrite (file_lines _ _ Hf). fold size_step.
  rewrite BarycentricFacts.foldM_app, (size_ok w before rows) by (auto; try lia; intros; apply Hr; apply in_or_app; auto). cbn [bind app foldM]. unfold size_step at 1.
  rewrite (split_blank []) by constructor. destruct (Nat.eqb_spec w 0); [lia|]. destruct (Nat.eqb_spec w 1); [lia|]. reflexivity.
Qed.

Definition example_rows : str := chars "1 5" ++ [newline] ++ chars " 3 -2" ++ [newline].
Theorem C86_comment_refuted : exists lo hi, read_matrix lo hi true Z.max (chars "# c" ++ newline :: example_rows) = Throw OutOfRange /\
  read_matrix lo hi true Z.max (chars "# a comment" ++ newline :: example_rows) = Throw RuntimeError /\
  exists K, read_matrix lo hi true Z.max example_rows = Ok K.
Proof. exists (-128)%Z, 127%Z. refine (conj _ (conj _ _)); [vm_compute; reflexivity|vm_compute; reflexivity|]. eexists. vm_compute. reflexivity. Qed.

Example C86_example :
  (exists K, read_matrix (-128) 127 true Z.max example_rows = Ok K /\
     by_index K = [Simplex [0] 1%Z; Simplex [1] 5%Z; Simplex [2] 3%Z; Simplex [3] (-2)%Z; Simplex [1; 0] 5%Z; Simplex [3; 2] 3%Z; Simplex [2; 0] 3%Z; Simplex [3; 1] 5%Z;
                   Simplex [3; 0] 1%Z; Simplex [3; 1; 0] 5%Z; Simplex [3; 2; 0] 3%Z]) /\
  matrix_file (-128) 127 [[1; 5]; [3; -2]]%Z 2 example_rows.
Proof.
  split; [eexists; split; vm_compute; reflexivity|]. exists [chars "1 5"; chars " 3 -2"]. refine (conj _ (conj _ _)).
  - apply (file_terminated [chars "1 5"; chars " 3 -2"]). repeat constructor; unfold no_newline, chars, newline; simpl; intuition discriminate.
  - constructor; [|constructor; [|constructor]].
    + apply (denotes_cons [] 1 (chars " 5") [5%Z]); [constructor|intros c t E; injection E as <- _; reflexivity|].
      apply (denotes_cons (chars " ") 5 [] []); [repeat constructor|intros c t E; discriminate|constructor; constructor].
    + apply (denotes_cons (chars " ") 3 (chars " -2") [-2]%Z); [repeat constructor|intros c t E; injection E as <- _; reflexivity|].
      apply (denotes_cons (chars " ") (-2) [] []); [repeat constructor|intros c t E; discriminate|constructor; constructor].
  - intros r [<-|[<-|[]]]; (split; [reflexivity|repeat constructor; lia]).
Qed.

Print Assumptions C86_matrix.
Print Assumptions C86_columns.
Print Assumptions C86_empty_file.
Print Assumptions C86_empty_line_refuted.
Print Assumptions C86_comment_refuted.
