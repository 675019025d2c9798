(** * Graphs as sparse adjacency matrices (C130) *)
From Coq Require Import String Ascii List Arith Bool ZArith Lia Permutation Sorted.
From Verif Require Import Base BaseFacts SpecText LoadMatrix LoadFacts StringUtilities PropertiesString Simplex SimplexFacts Complex ComplexFacts DualFacts RepFacts FiltrationFacts BarycentricFacts InterlevelFacts SparseAdjacency.
Import ListNotations.
Local Open Scope list_scope.
Local Open Scope nat_scope.

(** ** Specification *)
(** a line of the matrix, and of the indicator *)
Definition matrix_line (conv : str -> nat * bool) (e : nat * nat) (l : str) : Prop :=
  exists a b, l = a ++ ","%char :: b /\ ~ In ","%char a /\ ~ In ","%char b /\ b <> [] /\ fst (conv a) = fst e /\ fst (conv b) = snd e.
Definition indicator_line (conv : str -> nat * bool) (g : nat) (l : str) : Prop := exists a t b, l = a ++ t ++ b /\ spaces a /\ spaces b /\ trimmed t /\ conv t = (g, true).
(** the graph of a node, nodes being numbered from 1 *)
Definition node_graph (ids : list nat) (v g : nat) : Prop := 1 <= v /\ nth_error ids (v - 1) = Some g.
(** the data of an attribute, or zero *)
Definition column (a : option (list (list Z) * nat)) (i : nat) (d : Z) : Prop :=
  match a with
  | None => d = 0%Z
  | Some (rows, j) => exists row, nth_error rows i = Some row /\ nth_error row j = Some d
  end.
Definition same_pair (e f : nat * nat) : Prop := e = f \/ e = (snd f, fst f).
(** the simplices of one graph: the nodes that occur in edges, and the edges, whose first occurrence counts *)
Definition graph_vertex nodeAttributes ids (edges : list (nat * nat)) g (s : simplex) : Prop :=
  exists v, node_graph ids v g /\ (exists e, In e edges /\ (fst e = v \/ snd e = v)) /\ verts s = [v] /\ column nodeAttributes (v - 1) (data s).
Definition graph_edge edgeAttributes ids (edges : list (nat * nat)) g (s : simplex) : Prop :=
  exists i e, nth_error edges i = Some e /\ fst e <> snd e /\ node_graph ids (fst e) g /\ (forall j f, j < i -> nth_error edges j = Some f -> ~ same_pair f e) /\
    verts s = [Nat.max (fst e) (snd e); Nat.min (fst e) (snd e)] /\ column edgeAttributes i (data s).

Section Reader.
Variable conv : str -> nat * bool.
Variables nodeAttributes edgeAttributes : option (list (list Z) * nat).

(** ** Lines *)
Lemma fields_plain first a : ~ In comma a -> forall cur s, fields first cur (a ++ s) = fields first (cur ++ a) s.
Proof.
  induction a as [|c a IH]; intros H cur s; cbn [app]; [rewrite app_nil_r; reflexivity|]. cbn [fields]. destruct (Ascii.eqb_spec c comma) as [->|N]; [exfalso; apply H; simpl; auto|]. rewrite IH by (intro X; apply H; simpl; auto). rewrite <- app_assoc. reflexivity.
Qed.
Lemma split_two a b : ~ In comma a -> ~ In comma b -> b <> [] -> split_comma (a ++ ","%char :: b) = [a; b].
Proof.
  intros Ha Hb Hne. change ","%char with comma. unfold split_comma. rewrite fields_plain by exact Ha. cbn [app fields]. rewrite Ascii.eqb_refl. f_equal. rewrite <- (app_nil_r b) at 1. rewrite fields_plain by exact Hb. cbn [app fields]. destruct b; [contradiction|reflexivity].
Qed.
Lemma lines_text (lines : list str) : (forall l, In l lines -> ~ In newline l) -> getlines [] (text_of lines []) = lines.
Proof. intro H. rewrite getlines_text by (intros l X; apply in_app_or in X; destruct X as [X|[<-|[]]]; [apply H; exact X|intros []]). apply app_nil_r. Qed.
Lemma edges_read edges M : (forall l, In l M -> ~ In newline l) -> Forall2 (matrix_line conv) edges M -> sam_edges conv (text_of M []) = Ok edges.
Proof.
  intros Hnl H. unfold sam_edges. rewrite (lines_text M Hnl). clear Hnl. match goal with |- foldM ?f _ _ = _ => enough (G : forall acc, foldM f M acc = Ok (acc ++ edges)) by apply G end. induction H as [|e l es ls He _ IH]; intro acc; cbn [foldM]; [rewrite app_nil_r; reflexivity|].
  destruct He as (a & b & -> & Ha & Hb & Hne & E1 & E2). rewrite (split_two a b Ha Hb Hne). cbn [bind]. rewrite E1, E2, IH, <- app_assoc. destruct e; reflexivity.
Qed.
Lemma indicator_read ids I : (forall l, In l I -> ~ In newline l) -> Forall2 (indicator_line conv) ids I -> sam_indicator conv (text_of I []) = Ok ids.
Proof.
  intros Hnl H. unfold sam_indicator. rewrite (lines_text I Hnl). clear Hnl. match goal with |- foldM ?f _ _ = _ => enough (G : forall acc, foldM f I acc = Ok (acc ++ ids)) by apply G end. induction H as [|g l gs ls Hg _ IH]; intro acc; cbn [foldM]; [rewrite app_nil_r; reflexivity|].
  destruct Hg as (a & t & b & E & Ha & Hb & Ht & Ec). rewrite (C84_trim_unique l t a b Ht Ha Hb E), Ec. cbn [bind]. rewrite IH, <- app_assoc. reflexivity.
Qed.

(** ** Complexes that are filled one by one *)
Definition first_in (g : nat) (s : simplex) (items : list (nat * simplex)) : Prop :=
  exists l1 l2, items = l1 ++ (g, s) :: l2 /\ forall t, In (g, t) l1 -> verts t <> verts s.
Definition holds (n : nat) (Ks : list complex) (items : list (nat * simplex)) : Prop :=
  length Ks = n /\ forall g, g < n -> kwf (nth g Ks k_empty) /\ forall s, In s (by_index (nth g Ks k_empty)) <-> first_in g s items.

Lemma first_in_snoc g s items g' t : first_in g s (items ++ [(g', t)]) <-> first_in g s items \/ (g' = g /\ t = s /\ forall x, In (g, x) items -> verts x <> verts s).
Proof.
  split.
  - intros (l1 & l2 & E & H). destruct l2 as [|x l2] using rev_ind.
    + apply app_inj_tail in E. destruct E as [-> E]. injection E as -> ->. right. auto.
    + clear IHl2. left. rewrite app_comm_cons, app_assoc in E. apply app_inj_tail in E. destruct E as [-> _]. exists l1, l2. auto.
  - intros [(l1 & l2 & -> & H)|(-> & -> & H)]; [exists l1, (l2 ++ [(g', t)]); rewrite <- app_assoc; auto|]. exists items, []. auto.
Qed.
Lemma first_in_verts g (x : simplex) items : In (g, x) items -> exists s, first_in g s items /\ verts s = verts x.
Proof.
  induction items as [|[g' y] items IH]; [intros []|]. intro H.
  assert (D : (g' = g /\ verts y = verts x) \/ ~ (g' = g /\ verts y = verts x)). { destruct (Nat.eq_dec g' g), (list_eq_dec Nat.eq_dec (verts y) (verts x)); tauto. }
  destruct D as [[-> E]|D]; [exists y; split; [exists [], items; split; [reflexivity|intros t []]|exact E]|].
  destruct H as [H|H]; [injection H as -> ->; exfalso; apply D; auto|]. destruct (IH H) as (s & (l1 & l2 & -> & Hs) & E). exists s. split; [|exact E]. exists ((g', y) :: l1), l2. split; [reflexivity|]. intros t [X|X]; [injection X as -> ->; intro Y; apply D; split; [reflexivity|congruence]|apply Hs; exact X].
Qed.
Lemma first_in_In g s items : first_in g s items -> In (g, s) items.
Proof. intros (l1 & l2 & -> & _). apply in_or_app. simpl. auto. Qed.

Lemma get_nth {A} (l : list A) i d : i < length l -> get_ l i = Ok (nth i l d).
Proof. intro H. unfold get_. rewrite (nth_error_nth' l d H). reflexivity. Qed.
Lemma push_holds n Ks items g s : holds n Ks items -> g < n -> good s -> exists Ks', push_to Ks g s = Ok Ks' /\ holds n Ks' (items ++ [(g, s)]).
Proof.
  intros [Hl H] Hg Hs. unfold push_to. rewrite (get_nth Ks g k_empty) by lia. cbn [bind]. set (K := nth g Ks k_empty) in *. destruct (H g Hg) as [HK HI]. fold K in HK, HI.
  assert (HO : snd (k_push_back K s) = Ok tt) by (unfold k_push_back; destruct (k_contains K s); [reflexivity|]; rewrite good_dimension by exact Hs; reflexivity).
  pose proof (push_back_kwf K s HK (proj1 Hs)) as HK'. pose proof (push_back_by_index K s HK (proj1 Hs)) as HB. destruct (k_push_back K s) as [K' r]. cbn [fst snd] in *. subst r.
  exists (upd Ks g K'). split; [reflexivity|]. split; [rewrite upd_length; exact Hl|]. intros g' Hg'. rewrite nth_upd. replace (g <? length Ks) with true by (symmetry; apply Nat.ltb_lt; lia). rewrite andb_true_r. destruct (Nat.eqb_spec g' g) as [->|N].
  - split; [exact HK'|]. intro t. rewrite HB, in_app_iff, HI, first_in_snoc. destruct (k_contains K s) eqn:Ec.
    + split; [intros [X|[]]; auto|]. intros [X|(_ & -> & X)]; [auto|]. exfalso. apply contains_In in Ec. apply in_map_iff in Ec. destruct Ec as (y & Ey & Hy). apply HI in Hy. apply (X y (first_in_In _ _ _ Hy)). exact Ey.
    + apply contains_false in Ec. destruct (verts s) as [|a r] eqn:Ev; [destruct Hs; contradiction|]. split; [intros [X|[<-|[]]]; [auto|]|intros [X|(_ & -> & X)]; [auto|right; left; reflexivity]].
      right. refine (conj eq_refl (conj eq_refl _)). intros x Hx E. destruct (first_in_verts g x items Hx) as (y & Hy & Ey). apply HI in Hy. apply Ec. rewrite <- Ev. apply in_map_iff. exists y. split; [congruence|exact Hy].
  - destruct (H g' Hg') as [H1 H2]. split; [exact H1|]. intro t. rewrite H2, first_in_snoc. split; [auto|]. intros [X|(X & _)]; [exact X|congruence].
Qed.

(** ** Attributes *)
Definition value (a : option (list (list Z) * nat)) (i : nat) : Z :=
  match a with None => 0%Z | Some (rows, j) => nth j (nth i rows []) 0%Z end.
Definition covers (a : option (list (list Z) * nat)) (i : nat) : Prop := exists d, column a i d.
Lemma attribute_ok a i s : data s = 0%Z -> covers a i -> attribute a i s = Ok (Simplex (verts s) (value a i)).
Proof.
  intros Hd (d & Hc). unfold attribute, column in *. destruct a as [[rows j]|]; [|destruct s; cbn in *; subst; reflexivity].
  destruct Hc as (row & H1 & H2). unfold get_. rewrite H1. cbn [bind]. rewrite H2. cbn [bind value]. unfold set_data. rewrite (nth_error_nth _ _ _ H1), (nth_error_nth _ _ _ H2). reflexivity.
Qed.
Lemma column_value a i d : covers a i -> (column a i d <-> d = value a i).
Proof.
  intros (d' & Hc). unfold column, value in *. destruct a as [[rows j]|]; [|tauto]. destruct Hc as (row & H1 & H2). rewrite (nth_error_nth _ _ _ H1), (nth_error_nth _ _ _ H2). split.
  - intros (row' & X1 & X2). congruence.
  - intros ->. eauto.
Qed.

(** ** Indices *)
Lemma sorted_unique_sorted l : StronglySorted lt (cpp_unique Nat.eqb (cpp_sort Nat.ltb l)).
Proof. apply cpp_unique_sorted_le. apply cpp_sort_le. Qed.
Lemma sorted_unique_In l x : In x (cpp_unique Nat.eqb (cpp_sort Nat.ltb l)) <-> In x l.
Proof. rewrite cpp_unique_In by (intros a b; apply Nat.eqb_eq). apply cpp_sort_In. Qed.
Lemma node_graph_id ids v g : node_graph ids v g -> graph_id ids v = g /\ In g ids.
Proof. intros [H1 H2]. destruct v as [|v]; [lia|]. cbn [graph_id]. replace (S v - 1) with v in H2 by lia. split; [apply nth_error_nth; exact H2|eapply nth_error_In; exact H2]. Qed.
Lemma graph_index_ok ids v g : node_graph ids v g -> nth_error (graph_ids ids) (graph_index ids v) = Some g.
Proof.
  intro H. destruct (node_graph_id _ _ _ H) as [E Hin]. unfold graph_index. rewrite E. destruct (position_In g (graph_ids ids)) as (i & Ei & Hi); [apply SSlt_NoDup; apply sorted_unique_sorted|apply sorted_unique_In; exact Hin|]. rewrite Ei. exact Hi.
Qed.
Lemma node_index_ok ids edges v : (forall u, In u (sam_vertices edges) -> 1 <= u <= length ids) -> 1 <= v <= length ids -> node_index ids edges v = v - 1.
Proof.
  intros He Hv. unfold node_index. assert (E : cpp_unique Nat.eqb (cpp_sort Nat.ltb (sam_vertices edges ++ seq 1 (length ids))) = seq 1 (length ids)).
  { apply SSlt_ext; [apply sorted_unique_sorted|apply seq_sorted|]. intro x. rewrite sorted_unique_In, in_app_iff, in_seq. split; [intros [H|H]; [apply He in H; lia|lia]|right; lia]. }
  rewrite E. destruct (position_In v (seq 1 (length ids))) as (i & Ei & Hi); [apply seq_NoDup|apply in_seq; lia|]. rewrite Ei. assert (Hl : i < length (seq 1 (length ids))) by (apply nth_error_Some; congruence). rewrite seq_length in Hl. apply (nth_error_nth _ _ 0) in Hi. rewrite seq_nth in Hi by exact Hl. lia.
Qed.

(** ** The loops *)
Section Loops.
Variables (ids : list nat) (edges : list (nat * nat)) (graphLabels : list str).
Let n := length (graph_ids ids).
Hypothesis Hgraph : forall v, In v (sam_vertices edges) -> exists g, node_graph ids v g.
Hypothesis Hlabels : n <= length graphLabels.
Hypothesis Hnode : forall v, In v (sam_vertices edges) -> covers nodeAttributes (v - 1).
Hypothesis Hedge : forall i, i < length edges -> covers edgeAttributes i.

Lemma vertices_In v : In v (sam_vertices edges) <-> exists e, In e edges /\ (fst e = v \/ snd e = v).
Proof.
  unfold sam_vertices. rewrite nodup_In, in_flat_map. split; intros (e & He & H); exists e; (split; [exact He|]); [destruct H as [H|[H|[]]]; auto|destruct H as [H|H]; simpl; auto].
Qed.
Lemma vertices_range v : In v (sam_vertices edges) -> 1 <= v <= length ids.
Proof. intro H. destruct (Hgraph v H) as (g & H1 & H2). assert (v - 1 < length ids) by (apply nth_error_Some; congruence). lia. Qed.

Definition vitem (v : nat) : nat * simplex := (graph_index ids v, Simplex [v] (value nodeAttributes (v - 1))).
Definition eitem (ie : nat * (nat * nat)) : nat * simplex := (graph_index ids (fst (snd ie)), simplex_of [fst (snd ie); snd (snd ie)] (value edgeAttributes (fst ie))).
Lemma index_lt v g : node_graph ids v g -> graph_index ids v < n.
Proof. intro H. apply nth_error_Some. rewrite (graph_index_ok _ _ _ H). discriminate. Qed.

(** the labels of the graphs with a node in the list *)
Definition labelled (vs : list nat) (labels : list str) : Prop :=
  length labels = n /\ forall g, g < n -> nth g labels [] = if existsb (fun v => graph_index ids v =? g) vs then nth g graphLabels [] else [].
Lemma vertices_loop vs : incl vs (sam_vertices edges) -> forall Ks labels done items, holds n Ks items -> labelled done labels ->
  exists Ks' labels', foldM (sam_vertex nodeAttributes ids edges graphLabels) vs (Ks, labels) = Ok (Ks', labels') /\ holds n Ks' (items ++ map vitem vs) /\ labelled (done ++ vs) labels'.
Proof.
  induction vs as [|v vs IH]; intros Hi Ks labels done items HK HL; cbn [foldM map].
  - exists Ks, labels. rewrite !app_nil_r. auto.
  - assert (Hv : In v (sam_vertices edges)) by (apply Hi; simpl; auto). destruct (Hgraph v Hv) as (g & Hg). pose proof (index_lt v g Hg) as Hlt.
    unfold sam_vertex at 1. rewrite (get_nth Ks _ k_empty) by (destruct HK as [-> _]; exact Hlt). cbn [bind]. unfold at_. rewrite (nth_error_nth' graphLabels []) by lia. cbn [bind].
    rewrite node_index_ok; [|exact vertices_range|apply vertices_range; exact Hv]. rewrite attribute_ok; [|reflexivity|apply Hnode; exact Hv]. cbn [bind simplex_vertex verts].
    destruct (push_holds n Ks items (graph_index ids v) (Simplex [v] (value nodeAttributes (v - 1))) HK Hlt) as (Ks' & E & HK'); [split; [repeat constructor|discriminate]|]. rewrite E. cbn [bind].
    destruct (IH (fun x Hx => Hi x (or_intror Hx)) Ks' (upd labels (graph_index ids v) (nth (graph_index ids v) graphLabels [])) (done ++ [v]) _ HK') as (Ks2 & l2 & E2 & H2 & L2).
    { destruct HL as [L1 L2]. split; [rewrite upd_length; exact L1|]. intros g' Hg'. rewrite nth_upd, L1. replace (graph_index ids v <? n) with true by (symmetry; apply Nat.ltb_lt; exact Hlt). rewrite andb_true_r, existsb_app. cbn [existsb]. rewrite orb_false_r. destruct (Nat.eqb_spec g' (graph_index ids v)) as [->|N].
      - rewrite Nat.eqb_refl, orb_true_r. reflexivity.
      - replace (graph_index ids v =? g') with false by (symmetry; apply Nat.eqb_neq; auto). rewrite orb_false_r. apply L2. exact Hg'. }
    exists Ks2, l2. rewrite <- app_assoc in H2, L2. auto.
Qed.
Lemma edges_loop es : (forall ie, In ie es -> (exists g, node_graph ids (fst (snd ie)) g /\ node_graph ids (snd (snd ie)) g) /\ fst ie < length edges) -> forall Ks items, holds n Ks items ->
  exists Ks', foldM (sam_edge edgeAttributes ids) es Ks = Ok Ks' /\ holds n Ks' (items ++ map eitem es).
Proof.
  induction es as [|[i [u v]] es IH]; intros Hi Ks items HK; cbn [foldM map]; [exists Ks; rewrite app_nil_r; auto|].
  destruct (Hi (i, (u, v)) (or_introl eq_refl)) as [(g & H1 & H2) Hlt]. cbn [fst snd] in H1, H2, Hlt. unfold sam_edge at 1. rewrite (proj1 (node_graph_id _ _ _ H1)), (proj1 (node_graph_id _ _ _ H2)), Nat.eqb_refl. cbn [negb].
  pose proof (index_lt u g H1) as Hu. rewrite (get_nth Ks _ k_empty) by (destruct HK as [-> _]; exact Hu). cbn [bind]. rewrite attribute_ok; [|reflexivity|apply Hedge; exact Hlt]. cbn [bind].
  destruct (push_holds n Ks items (graph_index ids u) (Simplex (verts (simplex_of [u; v] 0%Z)) (value edgeAttributes i)) HK Hu) as (Ks' & E & HK').
  { split; [apply (simplex_of_wf [u; v] 0%Z)|]. intro X. assert (Y : In u (verts (simplex_of [u; v] 0%Z))) by (apply simplex_of_In; simpl; auto). cbn [verts] in X. rewrite X in Y. destruct Y. }
  match goal with |- context [bind ?m _] => replace m with (Ok Ks') by (symmetry; exact E) end. cbn [bind]. destruct (IH (fun x Hx => Hi x (or_intror Hx)) Ks' _ HK') as (Ks2 & E2 & H2'). exists Ks2. rewrite <- app_assoc in H2'. auto.
Qed.

Lemma holds_empty : holds n (repeat k_empty n) [].
Proof.
  split; [apply repeat_length|]. intros g Hg. rewrite nth_repeat. split; [apply empty_kwf|]. intro s. split; [intros []|]. intros (l1 & l2 & E & _). destruct l1; discriminate.
Qed.

End Loops.
End Reader.

Lemma pair_verts u v d : u <> v -> verts (simplex_of [u; v] d) = [Nat.max u v; Nat.min u v].
Proof.
  intro N. change (verts (simplex_of [u; v] d) = verts (Simplex [Nat.max u v; Nat.min u v] d)). apply wf_ext; [apply simplex_of_wf|apply SSorted_cons; [repeat constructor|apply Forall_cons; [lia|constructor]]|]. intro x. rewrite simplex_of_In. cbn [verts In]. lia.
Qed.
Lemma loop_verts u d : verts (simplex_of [u; u] d) = [u].
Proof. change (verts (simplex_of [u; u] d) = verts (Simplex [u] d)). apply wf_ext; [apply simplex_of_wf|repeat constructor|]. intro x. rewrite simplex_of_In. cbn [verts In]. tauto. Qed.

Lemma combine_seq_In {A} (l : list A) i k x : In (i, x) (combine (seq k (length l)) l) <-> k <= i /\ nth_error l (i - k) = Some x.
Proof.
  revert k. induction l as [|a l IH]; intro k; cbn [length seq combine]; [split; [intros []|intros [_ H]; destruct (i - k); discriminate]|]. cbn [In]. rewrite IH. split.
  - intros [H|[H1 H2]]; [injection H as -> ->; split; [lia|]; rewrite Nat.sub_diag; reflexivity|]. split; [lia|]. replace (i - k) with (S (i - S k)) by lia. exact H2.
  - intros [H1 H2]. destruct (Nat.eq_dec i k) as [->|N]; [rewrite Nat.sub_diag in H2; injection H2 as ->; auto|]. right. split; [lia|]. replace (i - k) with (S (i - S k)) in H2 by lia. exact H2.
Qed.
Lemma nth_error_some_nth {A} (l : list A) i d : i < length l -> nth_error l i = Some (nth i l d).
Proof. apply nth_error_nth'. Qed.

Lemma graph_index_unique ids v g k : node_graph ids v g -> (graph_index ids v = k <-> nth_error (graph_ids ids) k = Some g).
Proof.
  intro H. pose proof (graph_index_ok ids v g H) as E. split; [intros <-; exact E|]. intro F. assert (N : NoDup (graph_ids ids)) by (apply SSlt_NoDup; apply sorted_unique_sorted).
  rewrite NoDup_nth_error in N. apply N; [apply nth_error_Some; congruence|congruence].
Qed.

(** ** First occurrences *)
Lemma first_in_app g s A B : first_in g s (A ++ B) <-> first_in g s A \/ (first_in g s B /\ forall t, In (g, t) A -> verts t <> verts s).
Proof.
  induction B as [|[g' t] B IH] using rev_ind.
  - rewrite app_nil_r. split; [auto|]. intros [H|[(l1 & l2 & E & _) _]]; [exact H|destruct l1; discriminate].
  - rewrite app_assoc, !first_in_snoc, IH. split.
    + intros [[H|[H1 H2]]|(-> & -> & H)]; [auto|auto|]. right. split; [right; refine (conj eq_refl (conj eq_refl _)); intros x Hx; apply H, in_or_app; auto|]. intros x Hx. apply H, in_or_app. auto.
    + intros [H|[[H|(-> & -> & H)] H2]]; [auto|auto|]. right. refine (conj eq_refl (conj eq_refl _)). intros x Hx. apply in_app_or in Hx. destruct Hx as [Hx|Hx]; auto.
Qed.
Lemma first_in_functional g s (L : list (nat * simplex)) : (forall x y, In (g, x) L -> In (g, y) L -> verts x = verts y -> x = y) -> (first_in g s L <-> In (g, s) L).
Proof.
  intro H. split; [apply first_in_In|]. intro X. destruct (first_in_verts g s L X) as (y & Hy & E). replace s with y; [exact Hy|]. apply H; auto using first_in_In.
Qed.
Lemma first_in_nth g s L : first_in g s L <-> exists i, nth_error L i = Some (g, s) /\ forall j t, j < i -> nth_error L j = Some (g, t) -> verts t <> verts s.
Proof.
  split.
  - intros (l1 & l2 & -> & H). exists (length l1). split; [rewrite nth_error_app2, Nat.sub_diag by lia; reflexivity|]. intros j t Hj E. rewrite nth_error_app1 in E by exact Hj. apply H. eapply nth_error_In; exact E.
  - intros (i & E & H). destruct (nth_error_split _ _ E) as (l1 & l2 & -> & <-). exists l1, l2. split; [reflexivity|]. intros t Ht. apply In_nth_error in Ht. destruct Ht as (j & Ej). assert (j < length l1) by (apply nth_error_Some; congruence). apply (H j); [assumption|]. rewrite nth_error_app1; assumption.
Qed.
Lemma nth_combine_seq {A B} (f : nat * A -> B) (l : list A) i : forall k, nth_error (map f (combine (seq k (length l)) l)) i = option_map (fun a => f (k + i, a)) (nth_error l i).
Proof.
  revert i. induction l as [|a l IH]; intros i k; cbn [length seq combine map]; [destruct i; reflexivity|]. destruct i as [|i]; cbn [nth_error option_map]; [rewrite Nat.add_0_r; reflexivity|]. rewrite IH. destruct (nth_error l i); cbn [option_map]; [do 3 f_equal; lia|reflexivity].
Qed.

(** the first items of a graph are the simplices of that graph *)
Lemma first_items na ea ids edges vs k g s :
  (forall e, In e edges -> exists g, node_graph ids (fst e) g /\ node_graph ids (snd e) g) ->
  (forall v, In v (sam_vertices edges) -> covers na (v - 1)) -> (forall i, i < length edges -> covers ea i) ->
  Permutation vs (sam_vertices edges) -> nth_error (graph_ids ids) k = Some g ->
  (first_in k s (map (vitem na ids) vs ++ map (eitem ea ids) (combine (seq 0 (length edges)) edges)) <-> graph_vertex na ids edges g s \/ graph_edge ea ids edges g s).
Proof.
  intros Hgraph Hn He Hp Hk. assert (HV : forall v, In v vs <-> exists e, In e edges /\ (fst e = v \/ snd e = v)). { intro v. rewrite <- vertices_In. split; intro X; [eapply Permutation_in; [exact Hp|exact X]|eapply Permutation_in; [symmetry; exact Hp|exact X]]. }
  assert (HG : forall v, In v vs -> exists g, node_graph ids v g). { intros v Hv. apply HV in Hv. destruct Hv as (e & X & [<-|<-]); destruct (Hgraph e X) as (g' & Y1 & Y2); eauto. }
  assert (HC : forall v, In v vs -> covers na (v - 1)). { intros v Hv. apply Hn. eapply Permutation_in; [exact Hp|exact Hv]. }
  assert (HA : forall t, In (k, t) (map (vitem na ids) vs) <-> graph_vertex na ids edges g t).
  { intro t. rewrite in_map_iff. split.
    - intros (v & Ev & Hv). unfold vitem in Ev. injection Ev as E1 E2. destruct (HG v Hv) as (g' & Hg'). exists v. split.
      + apply (graph_index_unique ids v g' k Hg') in E1. replace g with g' by congruence. exact Hg'.
      + split; [apply HV; exact Hv|]. rewrite <- E2. split; [reflexivity|]. cbn [data]. apply column_value; [apply HC; exact Hv|reflexivity].
    - intros (v & Hg & Hv & E1 & E2). apply HV in Hv. exists v. split; [|exact Hv]. unfold vitem. apply (column_value _ _ _ (HC v Hv)) in E2. f_equal; [apply (graph_index_unique ids v g k Hg); exact Hk|]. destruct t as [tv td]. cbn [verts data] in *. subst. reflexivity. }
  rewrite first_in_app, first_in_functional, HA.
  2:{ intros x y Hx Hy E. apply in_map_iff in Hx. apply in_map_iff in Hy. destruct Hx as (v & Ev & _). destruct Hy as (w & Ew & _). unfold vitem in Ev, Ew. injection Ev as _ <-. injection Ew as _ <-. cbn [verts] in E. injection E as ->. reflexivity. }
  assert (HE : forall i e, nth_error edges i = Some e -> exists g', node_graph ids (fst e) g' /\ node_graph ids (snd e) g' /\ (graph_index ids (fst e) = k <-> g' = g)).
  { intros i e Hi. apply nth_error_In in Hi. destruct (Hgraph e Hi) as (g' & H1 & H2). exists g'. refine (conj H1 (conj H2 _)). rewrite (graph_index_unique ids _ g' k H1). split; congruence. }
  split.
  - intros [H|[H HF]]; [auto|]. right. apply first_in_nth in H. destruct H as (i & Ei & Hf). rewrite nth_combine_seq in Ei. destruct (nth_error edges i) as [e|] eqn:Ee; [|discriminate]. cbn [option_map Nat.add] in Ei. unfold eitem in Ei. cbn [fst snd] in Ei. injection Ei as E1 E2.
    destruct (HE i e Ee) as (g' & G1 & G2 & G3). apply G3 in E1. subst g'. exists i, e.
    assert (Hne : fst e <> snd e).
    { intro X. apply (HF (Simplex [fst e] (value na (fst e - 1)))); [apply HA; exists (fst e); refine (conj G1 (conj _ (conj eq_refl _)))|rewrite <- E2, <- X, loop_verts; reflexivity].
      - exists e. split; [eapply nth_error_In; exact Ee|auto].
      - apply column_value; [apply HC; apply HV; exists e; split; [eapply nth_error_In; exact Ee|auto]|reflexivity]. }
    refine (conj Ee (conj Hne (conj G1 (conj _ (conj _ _))))).
    + intros j f Hj Ef Hsame. destruct (HE j f Ef) as (g' & F1 & F2 & F3). assert (Eg : graph_index ids (fst f) = k).
      { apply F3. destruct Hsame as [->| ->]; cbn [fst] in *; [destruct F1, G1; congruence|destruct F1, G2 as [_ G2]; congruence]. }
      apply (Hf j (simplex_of [fst f; snd f] (value ea j)) Hj); [rewrite nth_combine_seq, Ef; cbn [option_map Nat.add]; unfold eitem; cbn [fst snd]; rewrite Eg; reflexivity|].
      rewrite <- E2. destruct Hsame as [->| ->]; cbn [fst snd]; rewrite !pair_verts by auto; [reflexivity|]. rewrite Nat.max_comm, Nat.min_comm. reflexivity.
    + rewrite <- E2. apply pair_verts. exact Hne.
    + apply column_value; [apply He; apply nth_error_Some; congruence|]. rewrite <- E2. reflexivity.
  - intros [H|(i & e & Ee & Hne & G1 & Hf & E1 & E2)]; [auto|]. right. split.
    + apply first_in_nth. exists i. rewrite nth_combine_seq, Ee. cbn [option_map Nat.add]. split.
      * f_equal. unfold eitem. cbn [fst snd]. f_equal; [apply (graph_index_unique ids _ g k G1); exact Hk|]. apply column_value in E2; [|apply He; apply nth_error_Some; congruence]. destruct s as [sv sd]. cbn [verts data] in *. subst. unfold simplex_of at 1. f_equal. exact (pair_verts (fst e) (snd e) 0%Z Hne).
      * intros j t Hj Ej E. rewrite nth_combine_seq in Ej. destruct (nth_error edges j) as [f|] eqn:Ef; [|discriminate]. cbn [option_map Nat.add] in Ej. unfold eitem in Ej. cbn [fst snd] in Ej. injection Ej as _ <-. apply (Hf j f Hj Ef). rewrite E1 in E.
        destruct (Nat.eq_dec (fst f) (snd f)) as [X|X]; [rewrite <- X, loop_verts in E; discriminate|]. rewrite pair_verts in E by exact X. injection E as F1 F2. destruct f as [f1 f2], e as [e1 e2]. cbn [fst snd] in *. unfold same_pair. cbn [fst snd]. assert ((f1 = e1 /\ f2 = e2) \/ (f1 = e2 /\ f2 = e1)) as [[-> ->]|[-> ->]] by lia; auto.
    + intros t Ht E. apply HA in Ht. destruct Ht as (v & _ & _ & Ev & _). rewrite Ev, E1 in E. discriminate.
Qed.

(** ** Final theorems *)
(** all nodes of edges have a graph, and no edge joins two graphs *)
Definition consistent (ids : list nat) (edges : list (nat * nat)) : Prop := forall e, In e edges -> exists g, node_graph ids (fst e) g /\ node_graph ids (snd e) g.
(** the attributes exist for all nodes of edges, and for all edges *)
Definition attributes_exist na ea (edges : list (nat * nat)) : Prop :=
  (forall e v, In e edges -> fst e = v \/ snd e = v -> exists d, column na (v - 1) d) /\ (forall i, i < length edges -> exists d, column ea i d).
(** the label of a graph, which is empty for graphs without edges *)
Definition label_of ids (edges : list (nat * nat)) (graphLabels : list str) k g (l : str) : Prop :=
  ((exists e, In e edges /\ node_graph ids (fst e) g) -> nth_error graphLabels k = Some l) /\ (~ (exists e, In e edges /\ node_graph ids (fst e) g) -> l = []).

Theorem C130_read : forall conv na ea order M I edges ids gids graphLabels,
  (forall l : list nat, Permutation (order l) l) ->
  (forall l, In l (M ++ I) -> ~ In newline l) ->
  Forall2 (matrix_line conv) edges M -> Forall2 (indicator_line conv) ids I ->
  consistent ids edges -> attributes_exist na ea edges ->
  StronglySorted lt gids -> (forall g, In g gids <-> In g ids) -> length gids <= length graphLabels ->
  exists Ks labels, readSAM conv na ea order (text_of M []) (text_of I []) graphLabels = Ok (Ks, labels) /\
    length Ks = length gids /\
    (forall k g K, nth_error gids k = Some g -> nth_error Ks k = Some K ->
       NoDup (map verts (by_index K)) /\
       (forall i j s t, i < j -> nth_error (by_index K) i = Some s -> nth_error (by_index K) j = Some t -> (data s <= data t)%Z) /\
       (forall s, In s (by_index K) <-> graph_vertex na ids edges g s \/ graph_edge ea ids edges g s)) /\
    (length gids = length graphLabels -> labels = graphLabels) /\
    (length gids < length graphLabels -> length labels = length gids /\ forall k g l, nth_error gids k = Some g -> nth_error labels k = Some l -> label_of ids edges graphLabels k g l).
Proof.
  intros conv na ea order M I edges ids gids graphLabels Ho Hnl HM HI Hc [Hn He] Hs Hg Hlab. unfold readSAM.
  rewrite (edges_read conv edges M) by (auto; intros l Hl; apply Hnl, in_or_app; auto). cbn [bind]. rewrite (indicator_read conv ids I) by (auto; intros l Hl; apply Hnl, in_or_app; auto). cbn [bind].
  assert (EG : graph_ids ids = gids). { apply SSlt_ext; [apply sorted_unique_sorted|exact Hs|]. intro x. unfold graph_ids. rewrite sorted_unique_In, Hg. tauto. }
  assert (Hn' : forall v, In v (sam_vertices edges) -> covers na (v - 1)). { intros v Hv. apply vertices_In in Hv. destruct Hv as (e & H1 & H2). exact (Hn e v H1 H2). }
  assert (Hv' : forall v, In v (sam_vertices edges) -> exists g, node_graph ids v g). { intros v Hv. apply vertices_In in Hv. destruct Hv as (e & H1 & [<-|<-]); destruct (Hc e H1) as (g & G1 & G2); eauto. }
  assert (Hlab' : length (graph_ids ids) <= length graphLabels) by (rewrite EG; exact Hlab).
  destruct (vertices_loop na ids edges graphLabels Hv' Hlab' Hn' (order (sam_vertices edges))) with (Ks := repeat k_empty (length (graph_ids ids))) (labels := repeat (@nil ascii) (length (graph_ids ids))) (done := @nil nat) (items := @nil (nat * simplex)) as (Ks & labels & E1 & K1 & L1).
  { intros x Hx. eapply Permutation_in; [apply Ho|exact Hx]. }
  { apply holds_empty. }
  { split; [apply repeat_length|]. intros g _. apply nth_repeat. }
  match goal with |- context [bind ?m _] => replace m with (Ok (Ks, labels)) by (symmetry; exact E1) end. cbn [bind].
  destruct (edges_loop ea ids edges He (combine (seq 0 (length edges)) edges)) with (Ks := Ks) (items := map (vitem na ids) (order (sam_vertices edges))) as (Ks2 & E2 & K2).
  { intros [i e] Hie. apply combine_seq_In in Hie. destruct Hie as [_ Hie]. rewrite Nat.sub_0_r in Hie. cbn [fst snd]. split; [apply Hc; eapply nth_error_In; exact Hie|apply nth_error_Some; cbn [fst snd] in *; congruence]. }
  { exact K1. }
  rewrite E2. cbn [bind]. do 2 eexists. split; [reflexivity|]. destruct K2 as [KL K2]. cbn [app] in L1. destruct L1 as [LL L1]. rewrite EG in *. split; [rewrite map_length; exact KL|]. split; [|split].
  - intros k g K Hk HK. rewrite nth_error_map in HK. destruct (nth_error Ks2 k) as [K0|] eqn:EK; [|discriminate]. cbn [option_map] in HK. injection HK as <-.
    assert (Hlt : k < length gids) by (apply nth_error_Some; congruence). destruct (K2 k Hlt) as [W HB]. rewrite (nth_error_nth _ _ k_empty EK) in W, HB. split; [apply (kwf_nodup _ (sort_kwf data_cmp K0 W))|]. split.
    + apply sorted_by_value; [apply data_cmp_swo|]. intros s t. unfold data_cmp. destruct (Z.eqb_spec (data t) (data s)); [lia|]. rewrite Z.ltb_ge. lia.
    + intro s. cbn [k_sort by_index]. rewrite cpp_sort_In, HB. apply first_items; auto. rewrite EG. exact Hk.
  - intro X. replace (length labels <? length graphLabels) with false; [reflexivity|]. symmetry. apply Nat.ltb_ge. lia.
  - intro X. replace (length labels <? length graphLabels) with true by (symmetry; apply Nat.ltb_lt; lia). split; [exact LL|]. intros k g l Hk Hl. assert (Hlt : k < length gids) by (apply nth_error_Some; congruence). specialize (L1 k Hlt). pose proof (eq_trans (eq_sym L1) (nth_error_nth _ _ [] Hl)) as L2. cbv beta in L2. subst l.
    assert (D : existsb (fun v => graph_index ids v =? k) (order (sam_vertices edges)) = true <-> exists e, In e edges /\ node_graph ids (fst e) g).
    { rewrite existsb_exists. split.
      - intros (v & Hv & E). apply Nat.eqb_eq in E. apply (Permutation_in _ (Ho _)) in Hv. apply vertices_In in Hv. destruct Hv as (e & H1 & H2). destruct (Hc e H1) as (g' & G1 & G2). exists e. split; [exact H1|]. replace g with g'; [exact G1|].
        assert (node_graph ids v g') by (destruct H2 as [<-|<-]; assumption). apply (graph_index_unique ids v g' k) in E; [|assumption]. rewrite EG in E. congruence.
      - intros (e & H1 & H2). exists (fst e). split; [apply (Permutation_in _ (Permutation_sym (Ho _))), vertices_In; eauto|]. apply Nat.eqb_eq. apply (graph_index_unique ids _ g k H2). rewrite EG. exact Hk. }
    split; intro Y.
    + rewrite (proj2 D Y). apply nth_error_nth'. lia.
    + destruct (existsb _ _); [exfalso; apply Y, D; reflexivity|reflexivity].
Qed.

(** lines of the matrix that do not consist of two fields *)
Definition bad_line (l : str) : Prop :=
  ~ In ","%char l \/ (exists a, ~ In ","%char a /\ l = a ++ [","%char]) \/ (exists a b c, l = a ++ ","%char :: b ++ ","%char :: c /\ c <> []).
Lemma fields_ge first cur s : s <> [] \/ first = true -> 1 <= length (fields first cur s).
Proof. intros H. revert first cur H. induction s as [|c s IH]; intros first cur H; cbn [fields]; [destruct H as [H|H]; [contradiction|subst; simpl; lia]|]. destruct (Ascii.eqb c comma); [simpl; lia|]. destruct s; [|apply IH; left; discriminate]. cbn [fields]. destruct first; [simpl; lia|]. destruct (cur ++ [c]) eqn:E; [destruct cur; discriminate|simpl; lia]. Qed.
Lemma fields_comma first cur a s : length (fields first cur (a ++ comma :: s)) >= 1 + length (fields false [] s).
Proof.
  revert first cur. induction a as [|c a IH]; intros first cur; cbn [app fields]; [rewrite Ascii.eqb_refl; simpl; lia|]. destruct (Ascii.eqb c comma); [specialize (IH false []); simpl; lia|apply IH].
Qed.
Lemma bad_split l : bad_line l -> length (split_comma l) <> 2.
Proof.
  unfold split_comma. intros [H|[(a & H & ->)|(a & b & c & -> & H)]]; change ","%char with comma in *.
  - rewrite <- (app_nil_r l), fields_plain by exact H. simpl. lia.
  - rewrite fields_plain by exact H. cbn [fields app]. rewrite Ascii.eqb_refl. simpl. lia.
  - pose proof (fields_comma true [] a (b ++ comma :: c)). pose proof (fields_comma false [] b c). pose proof (fields_ge false [] c (or_introl H)). lia.
Qed.
Lemma foldM_error {A S} (f : S -> A -> outcome S) (l : list A) x e : (forall s a, (exists s', f s a = Ok s') \/ f s a = Throw e) -> In x l -> (forall s, f s x = Throw e) -> forall s, foldM f l s = Throw e.
Proof.
  intros Hf Hx He. induction l as [|a l IH]; [destruct Hx|]. intro s. cbn [foldM]. destruct Hx as [->|Hx]; [rewrite He; reflexivity|]. destruct (Hf s a) as [(s' & ->)| ->]; cbn [bind]; [apply IH; exact Hx|reflexivity].
Qed.

Theorem C130_matrix_errors : forall conv na ea order M indicator graphLabels l,
  (forall m, In m M -> ~ In newline m) -> In l M -> bad_line l ->
  readSAM conv na ea order (text_of M []) indicator graphLabels = Throw RuntimeError.
Proof.
  intros conv na ea order M indicator graphLabels l Hnl Hl Hb. unfold readSAM, sam_edges. rewrite (lines_text M Hnl). rewrite (foldM_error _ M l RuntimeError); [reflexivity| |exact Hl|].
  - intros s a. destruct (split_comma a) as [|x [|y [|z r]]]; eauto.
  - intro s. apply bad_split in Hb. destruct (split_comma l) as [|x [|y [|z r]]]; try reflexivity. exfalso. apply Hb. reflexivity.
Qed.
Theorem C130_indicator_errors : forall conv na ea order M I edges graphLabels l a t b,
  (forall l, In l (M ++ I) -> ~ In newline l) -> Forall2 (matrix_line conv) edges M ->
  In l I -> l = a ++ t ++ b -> spaces a -> spaces b -> trimmed t -> snd (conv t) = false ->
  readSAM conv na ea order (text_of M []) (text_of I []) graphLabels = Throw RuntimeError.
Proof.
  intros conv na ea order M I edges graphLabels l a t b Hnl HM Hl E Ha Hb Ht Hc. unfold readSAM. rewrite (edges_read conv edges M) by (auto; intros x Hx; apply Hnl, in_or_app; auto). cbn [bind]. unfold sam_indicator. rewrite (lines_text I) by (intros x Hx; apply Hnl, in_or_app; auto). rewrite (foldM_error _ I l RuntimeError); [reflexivity| |exact Hl|].
  - intros s x. destruct (conv (trim x)) as [g [|]]; eauto.
  - intro s. rewrite (C84_trim_unique l t a b Ht Ha Hb E). destruct (conv t) as [g [|]]; [discriminate|reflexivity].
Qed.

(** an edge between two graphs is rejected *)
Lemma first_crossing ids (edges : list (nat * nat)) k : (exists e, In e edges /\ graph_id ids (fst e) <> graph_id ids (snd e)) ->
  exists m1 i e m2, combine (seq k (length edges)) edges = m1 ++ (i, e) :: m2 /\ graph_id ids (fst e) <> graph_id ids (snd e) /\ In e edges /\ forall j f, In (j, f) m1 -> graph_id ids (fst f) = graph_id ids (snd f) /\ In f edges /\ k <= j < k + length edges.
Proof.
  revert k. induction edges as [|e edges IH]; intros k (f & Hf & Hc); [destruct Hf|]. cbn [length seq combine]. destruct (Nat.eq_dec (graph_id ids (fst e)) (graph_id ids (snd e))) as [E|E].
  - destruct (IH (S k)) as (m1 & i & x & m2 & H1 & H2 & H3 & H4); [exists f; split; [destruct Hf as [->|Hf]; [contradiction|exact Hf]|exact Hc]|]. exists ((k, e) :: m1), i, x, m2. rewrite H1. refine (conj eq_refl (conj H2 (conj (or_intror H3) _))). intros j y [X|X]; [injection X as -> ->; refine (conj E (conj (or_introl eq_refl) _)); lia|]. apply H4 in X. destruct X as (X1 & X2 & X3). refine (conj X1 (conj (or_intror X2) _)). lia.
  - exists [], k, e, (combine (seq (S k) (length edges)) edges). refine (conj eq_refl (conj E (conj (or_introl eq_refl) _))). intros j y [].
Qed.
Theorem C130_crossing : forall conv na ea order M I edges ids gids graphLabels e g g',
  (forall l : list nat, Permutation (order l) l) -> (forall l, In l (M ++ I) -> ~ In newline l) ->
  Forall2 (matrix_line conv) edges M -> Forall2 (indicator_line conv) ids I ->
  (forall f, In f edges -> 1 <= fst f <= length ids /\ 1 <= snd f <= length ids) -> attributes_exist na ea edges ->
  NoDup gids -> (forall g, In g gids <-> In g ids) -> length gids <= length graphLabels ->
  In e edges -> node_graph ids (fst e) g -> node_graph ids (snd e) g' -> g <> g' ->
  readSAM conv na ea order (text_of M []) (text_of I []) graphLabels = Throw RuntimeError.
Proof.
  intros conv na ea order M I edges ids gids graphLabels e g g' Ho Hnl HM HI Hr [Hn He] Hs Hg Hlab Hin G1 G2 Hne. unfold readSAM.
  rewrite (edges_read conv edges M) by (auto; intros l Hl; apply Hnl, in_or_app; auto). cbn [bind]. rewrite (indicator_read conv ids I) by (auto; intros l Hl; apply Hnl, in_or_app; auto). cbn [bind].
  assert (Hlab' : length (graph_ids ids) <= length graphLabels). { rewrite <- Hlab. apply NoDup_incl_length; [apply SSlt_NoDup, sorted_unique_sorted|]. intros x Hx. apply Hg. apply (sorted_unique_In ids x). exact Hx. }
  assert (HR : forall v, 1 <= v <= length ids -> exists g, node_graph ids v g). { intros v Hv. exists (nth (v - 1) ids 0). split; [lia|]. apply nth_error_nth'. lia. }
  assert (Hn' : forall v, In v (sam_vertices edges) -> covers na (v - 1)). { intros v Hv. apply vertices_In in Hv. destruct Hv as (f & H1 & H2). exact (Hn f v H1 H2). }
  assert (Hv' : forall v, In v (sam_vertices edges) -> exists g, node_graph ids v g). { intros v Hv. apply vertices_In in Hv. destruct Hv as (f & H1 & H2). apply HR. destruct (Hr f H1). destruct H2 as [<-|<-]; lia. }
  destruct (vertices_loop na ids edges graphLabels Hv' Hlab' Hn' (order (sam_vertices edges))) with (Ks := repeat k_empty (length (graph_ids ids))) (labels := repeat (@nil ascii) (length (graph_ids ids))) (done := @nil nat) (items := @nil (nat * simplex)) as (Ks & labels & E1 & K1 & L1).
  { intros x Hx. eapply Permutation_in; [apply Ho|exact Hx]. }
  { apply holds_empty. }
  { split; [apply repeat_length|]. intros x _. apply nth_repeat. }
  match goal with |- context [bind ?m _] => replace m with (Ok (Ks, labels)) by (symmetry; exact E1) end. cbn [bind].
  destruct (first_crossing ids edges 0) as (m1 & i & x & m2 & EC & C1 & C2 & C3). { exists e. split; [exact Hin|]. rewrite (proj1 (node_graph_id _ _ _ G1)), (proj1 (node_graph_id _ _ _ G2)). exact Hne. }
  rewrite EC, foldM_app. destruct (edges_loop ea ids edges He m1) with (Ks := Ks) (items := map (vitem na ids) (order (sam_vertices edges))) as (Ks2 & E2 & K2).
  { intros [j f] Hf. apply C3 in Hf. destruct Hf as (F1 & F2 & F3). cbn [fst snd]. split; [|lia]. destruct (Hr f F2) as [R1 R2]. destruct (HR _ R1) as (h1 & A1). destruct (HR _ R2) as (h2 & A2). exists h1. split; [exact A1|]. replace h1 with h2; [exact A2|]. rewrite (proj1 (node_graph_id _ _ _ A1)), (proj1 (node_graph_id _ _ _ A2)) in F1. congruence. }
  { exact K1. }
  rewrite E2. cbn [bind foldM]. unfold sam_edge at 1. destruct x as [u v]. cbn [fst snd] in C1. replace (graph_id ids u =? graph_id ids v) with false by (symmetry; apply Nat.eqb_neq; exact C1). reflexivity.
Qed.

(** ** Examples *)
Definition digit (s : str) : nat * bool :=
  match s with [c] => let k := nat_of_ascii c in if (48 <=? k) && (k <=? 57) then (k - 48, true) else (0, false) | _ => (0, false) end.
Definition L (s : string) : str := list_ascii_of_string s.
Definition simplices (r : outcome (list complex * list str)) : outcome (list (list (list nat)) * list str) :=
  let* r := r in Ok (map (fun K => map verts (by_index K)) (fst r), snd r).

(** two graphs with three and two nodes; each edge occurs in both directions *)
Example C130_two :
  simplices (readSAM digit None None (fun l => l) (text_of (map L ["1,2"; "2,1"; "2,3"; "3,2"; "4,5"; "5,4"]%string) []) (text_of (map L ["1"; "1"; "1"; "2"; "2"]%string) []) [L "a"; L "b"]) =
  Ok ([[[1]; [2]; [3]; [2; 1]; [3; 2]]; [[4]; [5]; [5; 4]]], [L "a"; L "b"]).
Proof. vm_compute. reflexivity. Qed.
Example C130_attributes :
  (let* r := readSAM digit (Some ([[7%Z]; [3%Z]], 0)) (Some ([[9%Z]], 0)) (fun l => l) (text_of [L "1,2"] []) (text_of [L "1"; L "1"] []) [L "a"] in Ok (map by_index (fst r))) =
  Ok [[Simplex [2] 3%Z; Simplex [1] 7%Z; Simplex [2; 1] 9%Z]].
Proof. vm_compute. reflexivity. Qed.
Example C130_line : readSAM digit None None (fun l => l) (text_of [L "1,2"; L "12"] []) [] [L "a"] = Throw RuntimeError.
Proof. apply (C130_matrix_errors _ _ _ _ _ _ _ (L "12")); [intros m [<-|[<-|[]]]; simpl; intuition discriminate|simpl; auto|left; simpl; intuition discriminate]. Qed.
Example C130_cross : readSAM digit None None (fun l => l) (text_of [L "1,2"] []) (text_of [L "1"; L "2"] []) [L "a"; L "b"] = Throw RuntimeError.
Proof. vm_compute. reflexivity. Qed.

(** ** Findings *)
Lemma digit_line (g : nat) c : nat_of_ascii c = 48 + g -> g <= 9 -> indicator_line digit g [c].
Proof.
  intros E H. assert (S : isspace c = false). { destruct (isspace c) eqn:X; [|reflexivity]. exfalso. revert E X. clear -H. destruct c as [b0 b1 b2 b3 b4 b5 b6 b7]. destruct b0, b1, b2, b3, b4, b5, b6, b7; cbn; intros; try discriminate; lia. }
  exists [], [c], []. refine (conj eq_refl (conj (Forall_nil _) (conj (Forall_nil _) (conj (conj _ _) _)))).
  - intros x t E'. injection E' as <- _. exact S.
  - intros x t E'. destruct t as [|y [|? ?]]; [|discriminate|discriminate]. injection E' as <-. exact S.
  - unfold digit. rewrite E. replace (48 <=? 48 + g) with true by (symmetry; apply Nat.leb_le; lia). replace (48 + g <=? 57) with true by (symmetry; apply Nat.leb_le; lia). cbn [andb]. f_equal. lia.
Qed.
Lemma digit_pair a b e : ~ In ","%char [a] -> ~ In ","%char [b] -> digit [a] = (fst e, true) -> digit [b] = (snd e, true) -> matrix_line digit e [a; ","%char; b].
Proof. intros H1 H2 E1 E2. exists [a], [b]. rewrite E1, E2. refine (conj eq_refl (conj H1 (conj H2 (conj _ (conj eq_refl eq_refl))))). discriminate. Qed.

(** The reader collects "those nodes that are only defined implicitly because they are isolated", but only for
    the indices of attributes: the nodes of the indicator do not all occur in the complexes. *)
Theorem C130_isolated_refuted : ~ (forall conv order M I edges ids graphLabels Ks labels v g,
  (forall l : list nat, Permutation (order l) l) ->
  Forall2 (matrix_line conv) edges M -> Forall2 (indicator_line conv) ids I -> consistent ids edges -> node_graph ids v g ->
  readSAM conv None None order (text_of M []) (text_of I []) graphLabels = Ok (Ks, labels) ->
  exists K, In K Ks /\ In [v] (map verts (by_index K))).
Proof.
  intro H. set (Ks := match readSAM digit None None (fun l => l) (text_of [L "1,2"] []) (text_of [L "1"; L "1"; L "1"] []) [L "a"] with Ok r => fst r | _ => [] end).
  specialize (H digit (fun l => l) [L "1,2"] [L "1"; L "1"; L "1"] [(1, 2)] [1; 1; 1] [L "a"] Ks [L "a"] 3 1).
  destruct H as (K & HK & Hv).
  - intro l. apply Permutation_refl.
  - constructor; [|constructor]. apply digit_pair; [| |reflexivity|reflexivity]; simpl; intuition discriminate.
  - assert (X : indicator_line digit 1 (L "1")) by (apply digit_line; [reflexivity|lia]). repeat (constructor; [exact X|]). constructor.
  - intros e [<-|[]]. exists 1. repeat split; simpl; auto.
  - split; [lia|reflexivity].
  - vm_compute. reflexivity.
  - vm_compute in HK. destruct HK as [<-|[]]. vm_compute in Hv. intuition discriminate.
Qed.

(** The labels belong to the graphs 1, 2, ...; if identifiers are missing, the reader shall choose the labels of
    those that exist ("in case labels are not contiguous, they will be assigned correctly here").  It uses the
    rank of the identifier instead. *)
Theorem C130_label_refuted : ~ (forall conv order M I edges ids gids graphLabels Ks labels k g l,
  (forall l : list nat, Permutation (order l) l) ->
  Forall2 (matrix_line conv) edges M -> Forall2 (indicator_line conv) ids I -> consistent ids edges ->
  StronglySorted lt gids -> (forall g, In g gids <-> In g ids) ->
  readSAM conv None None order (text_of M []) (text_of I []) graphLabels = Ok (Ks, labels) ->
  nth_error gids k = Some g -> nth_error graphLabels (g - 1) = Some l -> (exists e, In e edges /\ node_graph ids (fst e) g) -> nth_error labels k = Some l).
Proof.
  intro H. set (Ks := match readSAM digit None None (fun l => l) (text_of [L "1,2"; L "3,4"] []) (text_of [L "1"; L "1"; L "3"; L "3"] []) [L "a"; L "b"; L "c"] with Ok r => fst r | _ => [] end).
  specialize (H digit (fun l => l) [L "1,2"; L "3,4"] [L "1"; L "1"; L "3"; L "3"] [(1, 2); (3, 4)] [1; 1; 3; 3] [1; 3] [L "a"; L "b"; L "c"] Ks [L "a"; L "b"] 1 3 (L "c")).
  assert (E : nth_error [L "a"; L "b"] 1 = Some (L "c")); [apply H|discriminate].
  - intro l. apply Permutation_refl.
  - repeat constructor; (apply digit_pair; [| |reflexivity|reflexivity]); simpl; intuition discriminate.
  - repeat constructor; (apply digit_line; [reflexivity|lia]).
  - intros e [<-|[<-|[]]]; [exists 1|exists 3]; repeat split; simpl; auto; lia.
  - repeat constructor.
  - simpl. tauto.
  - vm_compute. reflexivity.
  - reflexivity.
  - reflexivity.
  - exists (3, 4). split; [simpl; auto|]. split; [simpl; lia|reflexivity].
Qed.

(** Without labels ([setReadGraphLabels(false)]) every graph with an edge makes the reader fail. *)
Theorem C130_no_labels_refuted : ~ (forall conv order M I edges ids,
  (forall l : list nat, Permutation (order l) l) ->
  Forall2 (matrix_line conv) edges M -> Forall2 (indicator_line conv) ids I -> consistent ids edges ->
  exists r, readSAM conv None None order (text_of M []) (text_of I []) [] = Ok r).
Proof.
  intro H. destruct (H digit (fun l => l) [L "1,2"] [L "1"; L "1"] [(1, 2)] [1; 1]) as (r & E).
  - intro l. apply Permutation_refl.
  - constructor; [|constructor]. apply digit_pair; [| |reflexivity|reflexivity]; simpl; intuition discriminate.
  - repeat constructor; (apply digit_line; [reflexivity|lia]).
  - intros e [<-|[]]. exists 1. repeat split; simpl; auto.
  - vm_compute in E. discriminate.
Qed.
(** A node without graph is no error: it becomes a vertex of the first graph. *)
Theorem C130_foreign_refuted : ~ (forall conv order M I edges ids graphLabels r,
  (forall l : list nat, Permutation (order l) l) ->
  Forall2 (matrix_line conv) edges M -> Forall2 (indicator_line conv) ids I ->
  readSAM conv None None order (text_of M []) (text_of I []) graphLabels = Ok r -> consistent ids edges).
Proof.
  intro H. set (r := match readSAM digit None None (fun l => l) (text_of [L "7,8"] []) (text_of [L "1"] []) [L "a"] with Ok r => r | _ => ([], []) end).
  destruct (H digit (fun l => l) [L "7,8"] [L "1"] [(7, 8)] [1] [L "a"] r) with (e := (7, 8)) as (g & [_ E] & _).
  - intro l. apply Permutation_refl.
  - constructor; [|constructor]. apply digit_pair; [| |reflexivity|reflexivity]; simpl; intuition discriminate.
  - repeat constructor; (apply digit_line; [reflexivity|lia]).
  - vm_compute. reflexivity.
  - simpl. auto.
  - simpl in E. discriminate.
Qed.

Print Assumptions C130_read.
Print Assumptions C130_matrix_errors.
Print Assumptions C130_indicator_errors.
Print Assumptions C130_crossing.
Print Assumptions C130_isolated_refuted.
Print Assumptions C130_label_refuted.
Print Assumptions C130_no_labels_refuted.
Print Assumptions C130_foreign_refuted.
