(** * Triangulated grids in HDF5 files (C134) *)
From Coq Require Import List Arith Bool ZArith Lia Permutation Sorted.
From Verif Require Import Base BaseFacts Simplex SimplexFacts SpecComplex Complex ComplexFacts FiltrationFacts EnumerateFacts BarycentricFacts Hdf5 PropertiesSmall PropertiesPly.
Import ListNotations.

(** ** Specification *)
(** points of a grid, the edges to the right, upwards and along the falling diagonal, and the two triangles of a square *)
Inductive cell := Point (x y : nat) | Right (x y : nat) | Up (x y : nat) | Diagonal (x y : nat) | Lower (x y : nat) | Upper (x y : nat).
Section Grid.
Variables w h : nat.
Definition cell_ok (c : cell) : Prop :=
  match c with
  | Point x y => x < w /\ y < h
  | Right x y => x + 1 < w /\ y < h
  | Up x y => x < w /\ y + 1 < h
  | Diagonal x y | Lower x y | Upper x y => x + 1 < w /\ y + 1 < h
  end.
(** points are numbered row by row *)
Definition number (x y : nat) : nat := x + w * y.
(** the corners of a cell *)
Definition corners (c : cell) : list (nat * nat) :=
  match c with
  | Point x y => [(x, y)]
  | Right x y => [(x + 1, y); (x, y)]
  | Up x y => [(x, y + 1); (x, y)]
  | Diagonal x y => [(x, y + 1); (x + 1, y)]
  | Lower x y => [(x, y + 1); (x + 1, y); (x, y)]
  | Upper x y => [(x + 1, y + 1); (x, y + 1); (x + 1, y)]
  end.
Definition cell_verts (c : cell) : list nat := map (fun p => number (fst p) (snd p)) (corners c).
Variable f : Z -> Z -> Z.
Variable values : list Z.
Definition value (x y : nat) : Z := nth (number x y) values 0%Z.
Definition cell_data (c : cell) : Z :=
  match c with
  | Point x y => value x y
  | Right x y => f (value (x + 1) y) (value x y)
  | Up x y => f (value x (y + 1)) (value x y)
  | Diagonal x y => f (value x (y + 1)) (value (x + 1) y)
  | Lower x y => f (value x (y + 1)) (f (value x y) (value (x + 1) y))
  | Upper x y => f (value x (y + 1)) (f (value (x + 1) y) (value (x + 1) (y + 1)))
  end.
Definition cell_simplex (c : cell) : simplex := Simplex (cell_verts c) (cell_data c).

(** ** Cells *)
Lemma number_lt x y x' y' : x < w -> y < y' -> number x y < number x' y'.
Proof. intros Hx Hy. unfold number. assert (A : w * (y + 1) <= w * y') by (apply Nat.mul_le_mono_l; lia). lia. Qed.
Lemma number_inj x y x' y' : x < w -> x' < w -> number x y = number x' y' -> x = x' /\ y = y'.
Proof.
  intros Hx Hx' E. destruct (Nat.lt_trichotomy y y') as [L|[->|L]].
  - pose proof (number_lt x y x' y' Hx L). lia.
  - unfold number in E. lia.
  - pose proof (number_lt x' y' x y Hx' L). lia.
Qed.
Lemma number_bound x y : x < w -> y < h -> number x y < w * h.
Proof. intros Hx Hy. unfold number. assert (A : w * (y + 1) <= w * h) by (apply Nat.mul_le_mono_l; lia). lia. Qed.
Lemma number_step x y : w + number x y = number x (y + 1).
Proof. unfold number. lia. Qed.
Lemma corners_ok c : cell_ok c -> forall p, In p (corners c) -> fst p < w /\ snd p < h.
Proof. intros H p Hp. destruct c; cbn [cell_ok corners] in *; repeat destruct Hp as [<-|Hp]; try destruct Hp; cbn [fst snd]; lia. Qed.
Lemma cell_wf c : cell_ok c -> wf (cell_simplex c).
Proof.
  intro H. unfold wf. destruct c as [x y|x y|x y|x y|x y|x y]; cbn [cell_simplex verts cell_verts corners map fst snd cell_ok] in *; pose proof (number_step x y); pose proof (number_step (x + 1) y); repeat constructor; unfold number in *; lia.
Qed.
Lemma cell_verts_ne c : cell_verts c <> [].
Proof. destruct c; discriminate. Qed.
Lemma number_map_inj l l' : (forall p, In p l -> fst p < w) -> (forall p, In p l' -> fst p < w) -> map (fun p => number (fst p) (snd p)) l = map (fun p => number (fst p) (snd p)) l' -> l = l'.
Proof.
  revert l'. induction l as [|[x y] l IH]; intros [|[x' y'] l'] H H' E; try discriminate; [reflexivity|]. cbn [map fst snd] in E. injection E as E1 E2.
  destruct (number_inj x y x' y' (H _ (or_introl eq_refl)) (H' _ (or_introl eq_refl)) E1) as [-> ->]. f_equal. apply IH; [intros p Hp; apply H; right; exact Hp|intros p Hp; apply H'; right; exact Hp|exact E2].
Qed.
Lemma cell_inj c c' : cell_ok c -> cell_ok c' -> cell_verts c = cell_verts c' -> c = c'.
Proof.
  intros H H' E. apply number_map_inj in E; [|intros p Hp; apply (corners_ok c H p Hp)|intros p Hp; apply (corners_ok c' H' p Hp)].
  destruct c, c'; cbn [corners] in E; try discriminate E; injection E; intros; subst; try reflexivity; exfalso; lia.
Qed.

(** ** Reading *)
Lemma foldM_blocks {A B} (step : list B -> A -> outcome (list B)) (g : A -> list B) l : (forall a, In a l -> forall s, step s a = Ok (s ++ g a)) -> forall s, foldM step l s = Ok (s ++ flat_map g l).
Proof.
  induction l as [|a l IH]; intros H s; cbn [foldM flat_map]; [rewrite app_nil_r; reflexivity|]. rewrite (H a (or_introl eq_refl)). cbn [bind]. rewrite IH by (intros b Hb; apply H; right; exact Hb). rewrite <- app_assoc. reflexivity.
Qed.
Lemma flat_map_single {A B} (g : A -> B) l : flat_map (fun a => [g a]) l = map g l.
Proof. induction l as [|a l IH]; [reflexivity|]. cbn [flat_map map]. rewrite IH. reflexivity. Qed.
Hypothesis Hv : length values = w * h.
Definition edge_block (u v : nat) : list simplex := if v <? u then [simplex_of [u; v] (f (nth u values 0%Z) (nth v values 0%Z))] else [].
Definition triangle_block (t : list nat) : list simplex :=
  match t with
  | [u; v; p; q] => [simplex_of [u; q; p] (f (nth u values 0%Z) (f (nth q values 0%Z) (nth p values 0%Z))); simplex_of [u; v; q] (f (nth u values 0%Z) (f (nth v values 0%Z) (nth q values 0%Z)))]
  | _ => []
  end.
Definition block (y x : nat) : list simplex := flat_map (edge_block (coordinatesToIndex w x y)) (neighbourCoordinates w h x y) ++ triangle_block (triangleCoordinates w x y).
Lemma index_number x y : coordinatesToIndex w x y = number x y.
Proof. unfold coordinatesToIndex, number. lia. Qed.
Lemma get_value i : i < w * h -> get_ values i = Ok (nth i values 0%Z).
Proof. intro H. unfold get_. rewrite (nth_error_nth' values 0%Z) by lia. reflexivity. Qed.
Lemma neighbours_bound x y v : x < w -> y < h -> In v (neighbourCoordinates w h x y) -> v < w * h.
Proof.
  intros Hx Hy H. unfold neighbourCoordinates in H. rewrite !index_number in H.
  repeat (apply in_app_or in H; destruct H as [H|H]); repeat match type of H with context [if ?b then _ else _] => let E := fresh in destruct b eqn:E; [rewrite ?andb_true_iff, ?Nat.ltb_lt in E; destruct H as [<-|[]]; apply number_bound; lia|destruct H] end.
Qed.
Lemma cells_step x y s : x < w -> y < h -> add_cells f values w h y s x = Ok (s ++ block y x).
Proof.
  intros Hx Hy. unfold add_cells. rewrite (foldM_blocks (add_edge f values (coordinatesToIndex w x y)) (edge_block (coordinatesToIndex w x y))).
  - cbn [bind]. unfold block. rewrite app_assoc. set (s' := s ++ _). unfold triangleCoordinates. destruct ((x <? w - 1) && (0 <? y)) eqn:E; [|cbn [add_triangles triangle_block]; rewrite app_nil_r; reflexivity].
    apply andb_true_iff in E. rewrite !Nat.ltb_lt in E. rewrite !index_number. unfold add_triangles. cbn [at_ nth_error bind]. rewrite !get_value by (apply number_bound; lia). reflexivity.
  - intros v H' s'. unfold add_edge, edge_block. destruct (v <? coordinatesToIndex w x y); [|rewrite app_nil_r; reflexivity]. rewrite get_value by (rewrite index_number; apply number_bound; assumption). cbn [bind]. rewrite get_value by (apply (neighbours_bound x y); assumption). reflexivity.
Qed.
Definition listed : list simplex := map (fun i => simplex_vertex i (nth i values 0%Z)) (seq 0 (w * h)) ++ flat_map (fun y => flat_map (block y) (seq 0 w)) (seq 0 h).
Lemma read_listed : readHDF5 f [w; h] true values = let* K := k_of_range listed in Ok (Some K).
Proof.
  unfold readHDF5, listed. rewrite (foldM_blocks (add_vertex values) (fun i => [simplex_vertex i (nth i values 0%Z)])).
  - cbn [bind app]. rewrite (foldM_blocks _ (fun y => flat_map (block y) (seq 0 w))).
    + cbn [bind]. rewrite flat_map_single. reflexivity.
    + intros y Hy s. apply foldM_blocks. intros x Hx s'. apply cells_step; apply in_seq in Hx; apply in_seq in Hy; lia.
  - intros i Hi s. apply in_seq in Hi. unfold add_vertex, at_. rewrite (nth_error_nth' values 0%Z) by lia. reflexivity.
Qed.
Lemma cell_of l d c : cell_ok c -> (forall v, In v l <-> In v (cell_verts c)) -> d = cell_data c -> simplex_of l d = cell_simplex c.
Proof.
  intros H HI ->. apply simplex_ext; [|reflexivity]. apply wf_ext; [apply simplex_of_wf|apply cell_wf; exact H|]. intro v. rewrite simplex_of_In. apply HI.
Qed.
Lemma edge_In x y s : x < w -> y < h -> (In s (flat_map (edge_block (coordinatesToIndex w x y)) (neighbourCoordinates w h x y)) <->
  (0 < x /\ s = cell_simplex (Right (x - 1) y)) \/ (0 < y /\ s = cell_simplex (Up x (y - 1))) \/ (x + 1 < w /\ 0 < y /\ s = cell_simplex (Diagonal x (y - 1)))).
Proof.
  intros Hx Hy. unfold neighbourCoordinates. rewrite !flat_map_app, !in_app_iff, !index_number.
  assert (A1 : In s (flat_map (edge_block (number x y)) (if 0 <? x then [number (x - 1) y] else [])) <-> 0 < x /\ s = cell_simplex (Right (x - 1) y)).
  { destruct (Nat.ltb_spec 0 x) as [L|L]; cbn [flat_map app]; [|split; [intros []|lia]]. unfold edge_block. rewrite (proj2 (Nat.ltb_lt _ _)) by (unfold number; lia). cbn [app In].
    rewrite (cell_of _ _ (Right (x - 1) y)); [split; [intros [<-|[]]; auto|intros [_ ->]; auto]|cbn [cell_ok]; lia| |].
    - intro v. cbn [cell_verts corners map fst snd]. replace (x - 1 + 1) with x by lia. reflexivity.
    - cbn [cell_data]. unfold value. replace (x - 1 + 1) with x by lia. reflexivity. }
  assert (A2 : ~ In s (flat_map (edge_block (number x y)) (if x <? w - 1 then [number (x + 1) y] else []))).
  { destruct (Nat.ltb_spec x (w - 1)) as [L|L]; cbn [flat_map app]; [|intros []]. unfold edge_block. rewrite (proj2 (Nat.ltb_ge _ _)) by (unfold number; lia). intros []. }
  assert (A3 : In s (flat_map (edge_block (number x y)) (if 0 <? y then [number x (y - 1)] else [])) <-> 0 < y /\ s = cell_simplex (Up x (y - 1))).
  { destruct (Nat.ltb_spec 0 y) as [L|L]; cbn [flat_map app]; [|split; [intros []|lia]]. unfold edge_block. rewrite (proj2 (Nat.ltb_lt _ _)) by (apply number_lt; lia). cbn [app In].
    rewrite (cell_of _ _ (Up x (y - 1))); [split; [intros [<-|[]]; auto|intros [_ ->]; auto]|cbn [cell_ok]; lia| |].
    - intro v. cbn [cell_verts corners map fst snd]. replace (y - 1 + 1) with y by lia. reflexivity.
    - cbn [cell_data]. unfold value. replace (y - 1 + 1) with y by lia. reflexivity. }
  assert (A4 : ~ In s (flat_map (edge_block (number x y)) (if y <? h - 1 then [number x (y + 1)] else []))).
  { destruct (Nat.ltb_spec y (h - 1)) as [L|L]; cbn [flat_map app]; [|intros []]. unfold edge_block. rewrite (proj2 (Nat.ltb_ge _ _)) by (unfold number; lia). intros []. }
  assert (A5 : In s (flat_map (edge_block (number x y)) (if (x <? w - 1) && (0 <? y) then [number (x + 1) (y - 1)] else [])) <-> x + 1 < w /\ 0 < y /\ s = cell_simplex (Diagonal x (y - 1))).
  { destruct (Nat.ltb_spec x (w - 1)) as [L1|L1]; cbn [andb flat_map app]; [|split; [intros []|lia]]. destruct (Nat.ltb_spec 0 y) as [L|L]; cbn [flat_map app]; [|split; [intros []|lia]]. unfold edge_block. rewrite (proj2 (Nat.ltb_lt _ _)) by (apply number_lt; lia). cbn [app In].
    rewrite (cell_of _ _ (Diagonal x (y - 1))); [split; [intros [<-|[]]; repeat split; auto; lia|intros (_ & _ & ->); auto]|cbn [cell_ok]; lia| |].
    - intro v. cbn [cell_verts corners map fst snd]. replace (y - 1 + 1) with y by lia. reflexivity.
    - cbn [cell_data]. unfold value. replace (y - 1 + 1) with y by lia. reflexivity. }
  tauto.
Qed.
Lemma triangle_In x y s : x < w -> y < h -> (In s (triangle_block (triangleCoordinates w x y)) <-> x + 1 < w /\ 0 < y /\ (s = cell_simplex (Upper x (y - 1)) \/ s = cell_simplex (Lower x (y - 1)))).
Proof.
  intros Hx Hy. unfold triangleCoordinates. destruct (Nat.ltb_spec x (w - 1)) as [L1|L1]; cbn [andb]; [|split; [intros []|lia]]. destruct (Nat.ltb_spec 0 y) as [L|L]; [|split; [intros []|lia]]. rewrite !index_number. cbn [triangle_block In].
  rewrite (cell_of _ _ (Upper x (y - 1))); [rewrite (cell_of _ _ (Lower x (y - 1)))|cbn [cell_ok]; lia| |].
  - split; [intros [<-|[<-|[]]]; split; [lia|auto|lia|auto]|intros (_ & _ & [->| ->]); auto].
  - cbn [cell_ok]; lia.
  - intro v. cbn [cell_verts corners map fst snd In]. replace (y - 1 + 1) with y by lia. tauto.
  - cbn [cell_data]. unfold value. replace (y - 1 + 1) with y by lia. reflexivity.
  - intro v. cbn [cell_verts corners map fst snd In]. replace (y - 1 + 1) with y by lia. tauto.
  - cbn [cell_data]. unfold value. replace (y - 1 + 1) with y by lia. reflexivity.
Qed.
Lemma listed_In s : In s listed <-> exists c, cell_ok c /\ s = cell_simplex c.
Proof.
  unfold listed. rewrite in_app_iff, in_map_iff, in_flat_map. split.
  - intros [(i & <- & Hi)|(y & Hy & H)].
    + apply in_seq in Hi. assert (Nw : w <> 0) by (intros ->; cbn [Nat.mul] in Hi; lia). exists (Point (i mod w) (i / w)). pose proof (Nat.mod_upper_bound i w Nw) as M. pose proof (Nat.div_mod i w Nw) as D. split; [split; [exact M|apply Nat.div_lt_upper_bound; lia]|].
      unfold cell_simplex, simplex_vertex. cbn [cell_verts corners map fst snd cell_data]. unfold value. replace (number (i mod w) (i / w)) with i by (unfold number; lia). reflexivity.
    + apply in_flat_map in H. destruct H as (x & Hx & H). apply in_seq in Hx, Hy. unfold block in H. apply in_app_or in H. destruct H as [H|H].
      * apply edge_In in H; [|lia|lia]. destruct H as [[H ->]|[[H ->]|(H1 & H2 & ->)]]; eexists; (split; [|reflexivity]); cbn [cell_ok]; lia.
      * apply triangle_In in H; [|lia|lia]. destruct H as (H1 & H2 & [->| ->]); eexists; (split; [|reflexivity]); cbn [cell_ok]; lia.
  - intros (c & Hc & ->). destruct c as [x y|x y|x y|x y|x y|x y]; cbn [cell_ok] in Hc.
    + left. exists (number x y). split; [reflexivity|]. apply in_seq. pose proof (number_bound x y ltac:(lia) ltac:(lia)). lia.
    + right. exists y. split; [apply in_seq; lia|]. apply in_flat_map. exists (x + 1). split; [apply in_seq; lia|]. apply in_or_app. left. apply edge_In; [lia|lia|]. left. split; [lia|]. replace (x + 1 - 1) with x by lia. reflexivity.
    + right. exists (y + 1). split; [apply in_seq; lia|]. apply in_flat_map. exists x. split; [apply in_seq; lia|]. apply in_or_app. left. apply edge_In; [lia|lia|]. right. left. split; [lia|]. replace (y + 1 - 1) with y by lia. reflexivity.
    + right. exists (y + 1). split; [apply in_seq; lia|]. apply in_flat_map. exists x. split; [apply in_seq; lia|]. apply in_or_app. left. apply edge_In; [lia|lia|]. right. right. replace (y + 1 - 1) with y by lia. repeat split; lia.
    + right. exists (y + 1). split; [apply in_seq; lia|]. apply in_flat_map. exists x. split; [apply in_seq; lia|]. apply in_or_app. right. apply triangle_In; [lia|lia|]. replace (y + 1 - 1) with y by lia. split; [lia|]. split; [lia|auto].
    + right. exists (y + 1). split; [apply in_seq; lia|]. apply in_flat_map. exists x. split; [apply in_seq; lia|]. apply in_or_app. right. apply triangle_In; [lia|lia|]. replace (y + 1 - 1) with y by lia. split; [lia|]. split; [lia|auto].
Qed.
(** A two-dimensional field yields the triangulated grid: every cell once, with the functor applied to its values. *)
Theorem C134_read : exists K, readHDF5 f [w; h] true values = Ok (Some K) /\ kwf K /\ NoDup (map verts (by_index K)) /\ forall s, In s (by_index K) <-> exists c, cell_ok c /\ s = cell_simplex c.
Proof.
  destruct (of_range_functional listed) as (K & E & HK & HI).
  - intros s Hs. apply listed_In in Hs. destruct Hs as (c & Hc & ->). split; [apply cell_wf; exact Hc|apply cell_verts_ne].
  - intros s t Hs Ht Ev. apply listed_In in Hs, Ht. destruct Hs as (c & Hc & ->), Ht as (c' & Hc' & ->). f_equal. apply cell_inj; assumption.
  - exists K. rewrite read_listed, E. refine (conj eq_refl (conj HK (conj (kwf_nodup K HK) _))). intro s. rewrite HI. apply listed_In.
Qed.
End Grid.

(** ** Consequences *)
Ltac pick c := exists c; split; [cbn [cell_ok]; lia|].
Lemma cells_closed w h c vs : cell_ok w h c -> vs <> [] -> subset vs (cell_verts w c) -> exists c', cell_ok w h c' /\ set_eq (cell_verts w c') vs.
Proof.
  intros H N S. assert (Dec : forall v, In v vs \/ ~ In v vs) by (intro v; destruct (in_dec Nat.eq_dec v vs); auto).
  assert (Sub : forall l, (forall v, In v l -> In v vs) -> (forall v, In v (cell_verts w c) -> In v vs -> In v l) -> set_eq l vs) by (intros l A B v; split; [apply A|intro X; apply B; [apply S; exact X|exact X]]).
  assert (Ne : (forall v, In v (cell_verts w c) -> ~ In v vs) -> False) by (intro A; destruct vs as [|v vs]; [contradiction|]; apply (A v); [apply S; left; reflexivity|left; reflexivity]).
  destruct c as [x y|x y|x y|x y|x y|x y]; cbn [cell_ok] in H; unfold cell_verts in *; cbn [corners map fst snd In] in *.
  - destruct (Dec (number w x y)) as [D|D]; [pick (Point x y)|exfalso; apply Ne; intros v [<-|[]]; exact D]. apply Sub; cbn [corners map fst snd In]; intuition (subst; tauto).
  - destruct (Dec (number w x y)) as [D|D], (Dec (number w (x + 1) y)) as [E|E]; [pick (Right x y)|pick (Point x y)|pick (Point (x + 1) y)|exfalso; apply Ne; intuition (subst; tauto)]; (apply Sub; cbn [corners map fst snd In]; intuition (subst; tauto)).
  - destruct (Dec (number w x y)) as [D|D], (Dec (number w x (y + 1))) as [E|E]; [pick (Up x y)|pick (Point x y)|pick (Point x (y + 1))|exfalso; apply Ne; intuition (subst; tauto)]; (apply Sub; cbn [corners map fst snd In]; intuition (subst; tauto)).
  - destruct (Dec (number w (x + 1) y)) as [D|D], (Dec (number w x (y + 1))) as [E|E]; [pick (Diagonal x y)|pick (Point (x + 1) y)|pick (Point x (y + 1))|exfalso; apply Ne; intuition (subst; tauto)]; (apply Sub; cbn [corners map fst snd In]; intuition (subst; tauto)).
  - destruct (Dec (number w x (y + 1))) as [D|D], (Dec (number w (x + 1) y)) as [E|E], (Dec (number w x y)) as [F|F];
      [pick (Lower x y)|pick (Diagonal x y)|pick (Up x y)|pick (Point x (y + 1))|pick (Right x y)|pick (Point (x + 1) y)|pick (Point x y)|exfalso; apply Ne; intuition (subst; tauto)]; (apply Sub; cbn [corners map fst snd In]; intuition (subst; tauto)).
  - destruct (Dec (number w (x + 1) (y + 1))) as [D|D], (Dec (number w x (y + 1))) as [E|E], (Dec (number w (x + 1) y)) as [F|F];
      [pick (Upper x y)|pick (Right x (y + 1))|pick (Up (x + 1) y)|pick (Point (x + 1) (y + 1))|pick (Diagonal x y)|pick (Point x (y + 1))|pick (Point (x + 1) y)|exfalso; apply Ne; intuition (subst; tauto)]; (apply Sub; cbn [corners map fst snd In]; intuition (subst; tauto)).
Qed.
Definition grid (a b : nat) : list (nat * nat) := list_prod (seq 0 a) (seq 0 b).
Definition all_cells (w h : nat) : list cell :=
  map (fun p => Point (fst p) (snd p)) (grid w h) ++ map (fun p => Right (fst p) (snd p)) (grid (w - 1) h) ++ map (fun p => Up (fst p) (snd p)) (grid w (h - 1)) ++
  map (fun p => Diagonal (fst p) (snd p)) (grid (w - 1) (h - 1)) ++ map (fun p => Lower (fst p) (snd p)) (grid (w - 1) (h - 1)) ++ map (fun p => Upper (fst p) (snd p)) (grid (w - 1) (h - 1)).
Lemma grid_In a b p : In p (grid a b) <-> fst p < a /\ snd p < b.
Proof. destruct p as [x y]. unfold grid. rewrite in_prod_iff, !in_seq. cbn [fst snd]. lia. Qed.
Lemma grid_length a b : length (grid a b) = a * b.
Proof. unfold grid. rewrite prod_length, !seq_length. reflexivity. Qed.
Lemma all_cells_In w h c : In c (all_cells w h) <-> cell_ok w h c.
Proof.
  unfold all_cells. rewrite !in_app_iff, !in_map_iff. split.
  - intros [(p & <- & H)|[(p & <- & H)|[(p & <- & H)|[(p & <- & H)|[(p & <- & H)|(p & <- & H)]]]]]; apply grid_In in H; cbn [cell_ok]; lia.
  - destruct c as [x y|x y|x y|x y|x y|x y]; cbn [cell_ok]; intro H; [left|right; left|right; right; left|right; right; right; left|right; right; right; right; left|right; right; right; right; right]; exists (x, y); (split; [reflexivity|]); apply grid_In; cbn [fst snd]; lia.
Qed.
Lemma grid_NoDup a b : NoDup (grid a b).
Proof.
  unfold grid. generalize (seq_NoDup a 0). generalize (seq 0 a). induction l as [|x l IH]; intro N; cbn [list_prod]; [constructor|]. inversion N as [|? ? N1 N2]; subst. apply NoDup_app_disjoint; [|apply IH; exact N2|].
  - apply NoDup_map_inj; [apply seq_NoDup|]. intros u v _ _ E. injection E as ->. reflexivity.
  - intros [u v] H1 H2. apply in_map_iff in H1. destruct H1 as (v' & E & _). injection E as <- _. apply in_prod_iff in H2. apply N1. apply H2.
Qed.
Lemma all_cells_NoDup w h : NoDup (all_cells w h).
Proof.
  assert (G : forall (g : nat * nat -> cell) a b, (forall p q, g p = g q -> p = q) -> NoDup (map g (grid a b))) by (intros g a b Hg; apply NoDup_map_inj; [apply grid_NoDup|intros; apply Hg; assumption]).
  unfold all_cells. repeat apply NoDup_app_disjoint; try (apply G; intros [? ?] [? ?] E; injection E as -> ->; reflexivity);
    (intros c H1 H2; apply in_map_iff in H1; destruct H1 as (p & <- & _); repeat (apply in_app_or in H2; destruct H2 as [H2|H2]); apply in_map_iff in H2; destruct H2 as (q & E & _); discriminate).
Qed.
Lemma chi_app a b : chi (a ++ b) = (chi a + chi b)%Z.
Proof. unfold chi. induction a as [|s a IH]; cbn [app fold_right]; [reflexivity|]. rewrite IH. lia. Qed.
Lemma chi_perm a b : Permutation a b -> chi a = chi b.
Proof. unfold chi. induction 1; cbn [fold_right]; lia. Qed.
Lemma chi_same {A} (g : A -> simplex) k l : (forall a, length (verts (g a)) = k) -> chi (map g l) = (sign (k - 1) * Z.of_nat (length l))%Z.
Proof. intro H. unfold chi. induction l as [|a l IH]; cbn [map fold_right length]; [lia|]. rewrite IH, H. lia. Qed.
(** The complex is closed under faces and its Euler characteristic is that of a disc.  With the maximum as functor the data of a simplex are the maximum over its vertices, and sorting yields a filtration. *)
Theorem C134_complex f w h values K : length values = w * h -> readHDF5 f [w; h] true values = Ok (Some K) ->
  closed (by_index K) /\ (0 < w -> 0 < h -> chi (by_index K) = 1%Z) /\
  ((forall a b, f a b = Z.max a b) -> (forall s, In s (by_index K) -> is_max_over (fun v => nth v values 0%Z) (verts s) (data s)) /\ filtration_order (by_index (k_sort data_cmp K))).
Proof.
  intros Hv E. destruct (C134_read w h f values Hv) as (K' & E' & HK & HN & HI). rewrite E in E'. injection E' as <-. refine (conj _ (conj _ _)).
  - intros s vs Hs N S. apply HI in Hs. destruct Hs as (c & Hc & ->). destruct (cells_closed w h c vs Hc N S) as (c' & Hc' & X). exists (cell_simplex w f values c'). split; [apply HI; eauto|exact X].
  - intros Hw Hh. assert (P : Permutation (by_index K) (map (cell_simplex w f values) (all_cells w h))).
    { apply NoDup_Permutation; [apply (NoDup_map_inv _ _ HN)|apply NoDup_map_inj; [apply all_cells_NoDup|]|].
      - intros c c' Hc Hc' X. apply all_cells_In in Hc, Hc'. apply (cell_inj w h); [exact Hc|exact Hc'|]. exact (f_equal verts X).
      - intro s. rewrite HI, in_map_iff. split; intros (c & A & B); exists c; [split; [symmetry; exact B|apply all_cells_In; exact A]|split; [apply all_cells_In; exact B|symmetry; exact A]]. }
    rewrite (chi_perm _ _ P). unfold all_cells. rewrite !map_app, !map_map, !chi_app. rewrite (chi_same _ 1), (chi_same _ 2), (chi_same _ 2), (chi_same _ 2), (chi_same _ 3), (chi_same _ 3) by reflexivity. rewrite !grid_length. unfold sign. cbn [Nat.sub Nat.even].
    destruct w as [|w]; [lia|]. destruct h as [|h]; [lia|]. replace (S w - 1) with w by lia. replace (S h - 1) with h by lia. rewrite !Nat2Z.inj_mul, !Nat2Z.inj_succ. ring.
  - intro Hf. assert (M : forall s, In s (by_index K) -> is_max_over (fun v => nth v values 0%Z) (verts s) (data s)).
    { intros s Hs. apply HI in Hs. destruct Hs as (c & _ & ->). unfold is_max_over. destruct c as [x y|x y|x y|x y|x y|x y]; unfold cell_simplex, cell_verts, cell_data; cbn [verts data corners map fst snd]; rewrite ?Hf; fold (value w values x y); unfold value; (split; [|cbn [In]; intros v X; repeat (destruct X as [<-|X]; [lia|]); destruct X]).
      - eexists; split; [left; reflexivity|reflexivity].
      - destruct (Z.max_spec (nth (number w (x + 1) y) values 0%Z) (nth (number w x y) values 0%Z)) as [[_ ->]|[_ ->]]; eexists; (split; [|reflexivity]); simpl; auto.
      - destruct (Z.max_spec (nth (number w x (y + 1)) values 0%Z) (nth (number w x y) values 0%Z)) as [[_ ->]|[_ ->]]; eexists; (split; [|reflexivity]); simpl; auto.
      - destruct (Z.max_spec (nth (number w x (y + 1)) values 0%Z) (nth (number w (x + 1) y) values 0%Z)) as [[_ ->]|[_ ->]]; eexists; (split; [|reflexivity]); simpl; auto.
      - set (a := nth (number w x (y + 1)) values 0%Z). set (b := nth (number w x y) values 0%Z). set (d := nth (number w (x + 1) y) values 0%Z). destruct (Z.max_spec b d) as [[_ ->]|[_ ->]]; [destruct (Z.max_spec a d) as [[_ ->]|[_ ->]]|destruct (Z.max_spec a b) as [[_ ->]|[_ ->]]]; unfold a, b, d; eexists; (split; [|reflexivity]); simpl; auto.
      - set (a := nth (number w x (y + 1)) values 0%Z). set (b := nth (number w (x + 1) y) values 0%Z). set (d := nth (number w (x + 1) (y + 1)) values 0%Z). destruct (Z.max_spec b d) as [[_ ->]|[_ ->]]; [destruct (Z.max_spec a d) as [[_ ->]|[_ ->]]|destruct (Z.max_spec a b) as [[_ ->]|[_ ->]]]; unfold a, b, d; eexists; (split; [|reflexivity]); simpl; auto. }
    split; [exact M|]. apply filtration_data; [exact HK|]. intros s t Hs Ht S. destruct (M s Hs) as [_ U]. destruct (M t Ht) as [(v & Hvt & <-) _]. apply U. apply S. exact Hvt.
Qed.
(** Fields of other dimensions are ignored, and other types are an error. *)
Theorem C134_others f extents known values : (length extents <> 2 -> readHDF5 f extents known values = Ok None) /\ (length extents = 2 -> known = false -> readHDF5 f extents known values = Throw RuntimeError).
Proof. destruct extents as [|a [|b [|c l]]]; cbn [length readHDF5]; split; intros; subst; try reflexivity; try lia; try discriminate. Qed.

Definition field_cells (r : outcome (option complex)) : outcome (option (list (list nat * Z))) := let* r := r in Ok (option_map (fun K => map (fun s => (verts s, data s)) (by_index K)) r).
Example C134_example : field_cells (readHDF5 Z.max [2; 2] true [3; 1; 4; 2]%Z) =
  Ok (Some [([0], 3%Z); ([1], 1%Z); ([2], 4%Z); ([3], 2%Z); ([1; 0], 3%Z); ([2; 0], 4%Z); ([2; 1], 4%Z); ([3; 2; 1], 4%Z); ([2; 1; 0], 4%Z); ([3; 2], 4%Z); ([3; 1], 2%Z)]) /\
  readHDF5 Z.max [2; 2; 2] true [] = Ok None /\ readHDF5 Z.max [2; 2] false [3; 1; 4; 2]%Z = Throw RuntimeError.
Proof. vm_compute. auto. Qed.
(** The library stores the entry in row [r] and column [c] of a field with [b] columns at [r * b + c], but the reader uses the
    number of rows as the width: in a field with two rows and three columns, neighbouring entries are not connected, and the
    last entry of a row is connected with the first entry of the next one. *)
Theorem C134_rectangle_refuted : exists K, readHDF5 Z.max [2; 3] true [0; 1; 2; 3; 4; 5]%Z = Ok (Some K) /\
  let at_entry r c := r * 3 + c in
  ~ In [at_entry 1 0; at_entry 0 0] (map verts (by_index K)) /\ In [at_entry 1 0; at_entry 0 2] (map verts (by_index K)).
Proof. eexists. split; [vm_compute; reflexivity|]. vm_compute. split; [|tauto]. intro H. repeat (destruct H as [H|H]; [discriminate|]). exact H. Qed.

Print Assumptions C134_read.
Print Assumptions C134_complex.
Print Assumptions C134_others.
