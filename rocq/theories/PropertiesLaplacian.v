(** * Weighted adjacency and Laplacian matrices. *)
From Coq Require Import List Arith Bool ZArith Lia Permutation Sorted Relations.
From Verif Require Import Base BaseFacts Simplex SimplexFacts SpecComplex Complex ComplexFacts FiltrationFacts History SubcomplexFacts
  PropertiesComplex RipsFacts PropertiesRips BarycentricFacts SpecComponents Quantiles SpecLaplacian Laplacian.
Import ListNotations.

(** ** sums *)
Lemma sumZ_S n f : sumZ (S n) f = (sumZ n f + f n)%Z.
Proof.
  unfold sumZ. rewrite seq_S, map_app, fold_right_app. cbn [map fold_right Nat.add].
  generalize (map f (seq 0 n)). intro l. induction l as [|a l IH]; cbn [fold_right]; lia.
Qed.
Lemma sumZ_ext n f g : (forall i, i < n -> f i = g i) -> sumZ n f = sumZ n g.
Proof. intro H. unfold sumZ. f_equal. apply map_ext_in. intros i Hi. apply H. apply in_seq in Hi. lia. Qed.
Lemma sumZ_plus n f g : sumZ n (fun i => f i + g i)%Z = (sumZ n f + sumZ n g)%Z.
Proof. induction n; [reflexivity|]. rewrite !sumZ_S, IHn. lia. Qed.
Lemma sumZ_scale n c f : sumZ n (fun i => c * f i)%Z = (c * sumZ n f)%Z.
Proof. induction n; [unfold sumZ; simpl; lia|]. rewrite !sumZ_S, IHn. lia. Qed.
Lemma sumZ_zero n f : (forall i, i < n -> f i = 0%Z) -> sumZ n f = 0%Z.
Proof. intro H. induction n; [reflexivity|]. rewrite sumZ_S, IHn, H by auto. reflexivity. Qed.
Lemma sumZ_swap n m f : sumZ n (fun i => sumZ m (fun j => f i j)) = sumZ m (fun j => sumZ n (fun i => f i j)).
Proof.
  induction n; [symmetry; apply sumZ_zero; reflexivity|]. rewrite sumZ_S, IHn. rewrite <- sumZ_plus. apply sumZ_ext. intros j Hj. rewrite sumZ_S. reflexivity.
Qed.
(** the sum of a function that differs from 0 at one position only *)
Lemma sumZ_single n k f : k < n -> (forall i, i < n -> i <> k -> f i = 0%Z) -> sumZ n f = f k.
Proof.
  intros Hk H. induction n; [lia|]. rewrite sumZ_S. destruct (Nat.eq_dec n k) as [->|Hn].
  - rewrite (sumZ_zero k); [lia|]. intros i Hi. apply H; lia.
  - rewrite IHn by (try lia; intros; apply H; lia). rewrite (H n) by lia. lia.
Qed.
Lemma sumZ_list l : fold_right Z.add 0%Z l = sumZ (length l) (fun j => nth j l 0%Z).
Proof. unfold sumZ. f_equal. induction l as [|a l IH]; [reflexivity|]. cbn [length seq map nth]. f_equal. rewrite <- seq_shift, map_map. exact IH. Qed.

(** ** entries *)

Lemma nth_repeat_lt {A} (x d : A) n i : i < n -> nth i (repeat x n) d = x.
Proof. revert i. induction n; intros i H; [lia|]. destruct i; simpl; [reflexivity|]. apply IHn. lia. Qed.
Lemma ent_constant n x i j : i < n -> j < n -> ent (m_constant n x) i j = x.
Proof. intros Hi Hj. unfold ent, m_constant. rewrite !nth_repeat_lt by assumption. reflexivity. Qed.
Lemma square_constant n x : square n (m_constant n x).
Proof. unfold m_constant. split; [apply repeat_length|]. intros row H. apply repeat_spec in H. subst. apply repeat_length. Qed.
Lemma square_row n M i : square n M -> i < n -> exists row, nth_error M i = Some row /\ length row = n /\ nth i M [] = row.
Proof.
  intros [H1 H2] Hi. destruct (nth_error M i) as [row|] eqn:E; [|apply nth_error_None in E; lia]. exists row. refine (conj eq_refl (conj _ _)).
  - apply H2. eapply nth_error_In; eauto.
  - apply nth_error_nth; exact E.
Qed.
Lemma m_get_ok n M i j : square n M -> i < n -> j < n -> m_get M i j = Ok (ent M i j).
Proof.
  intros HM Hi Hj. destruct (square_row n M i HM Hi) as (row & E & Hl & En). unfold m_get, ent. rewrite En. unfold get_ at 1. rewrite E. cbn [bind].
  unfold get_. rewrite (nth_error_nth' row 0%Z) by lia. reflexivity.
Qed.
Lemma nth_upd {A} (l : list A) i k a d : i < length l -> nth k (upd l i a) d = if i =? k then a else nth k l d.
Proof.
  revert i k. induction l as [|x l IH]; intros i k H; [simpl in H; lia|]. destruct i, k; simpl; try reflexivity. simpl in H. rewrite IH by lia. reflexivity.
Qed.
Lemma m_set_ok n M i j x : square n M -> i < n -> j < n ->
  exists M', m_set M i j x = Ok M' /\ square n M' /\ forall k l, k < n -> l < n -> ent M' k l = if (i =? k) && (j =? l) then x else ent M k l.
Proof.
  intros HM Hi Hj. destruct (square_row n M i HM Hi) as (row & E & Hl & En). unfold m_set. unfold get_ at 1. rewrite E. cbn [bind].
  unfold get_. rewrite (nth_error_nth' row 0%Z) by lia. cbn [bind]. eexists. split; [reflexivity|]. destruct HM as [H1 H2]. split.
  - split; [rewrite upd_length; exact H1|]. intros r Hr. apply In_nth_error in Hr. destruct Hr as [k Hk]. rewrite nth_error_upd in Hk.
    destruct ((i =? k) && (i <? length M)); [injection Hk as <-; rewrite upd_length; exact Hl|]. apply H2. eapply nth_error_In; eauto.
  - intros k l Hk Hll. unfold ent. rewrite nth_upd by lia. destruct (Nat.eqb_spec i k) as [<-|]; cbn [andb]; [|reflexivity]. rewrite nth_upd by lia. rewrite En. reflexivity.
Qed.
Lemma nth_combine {A B} (l : list A) (m : list B) i a b : length l = length m -> nth i (combine l m) (a, b) = (nth i l a, nth i m b).
Proof. apply combine_nth. Qed.
Lemma m_zip_ok n f A B : square n A -> square n B -> square n (m_zip f A B) /\
  forall i j, i < n -> j < n -> ent (m_zip f A B) i j = f (ent A i j) (ent B i j).
Proof.
  intros HA HB. pose proof HA as [LA RA]. pose proof HB as [LB RB]. split.
  - split; [unfold m_zip; rewrite map_length, combine_length; lia|]. intros row Hr. unfold m_zip in Hr. apply in_map_iff in Hr. destruct Hr as ((a & b) & <- & Hin).
    rewrite map_length, combine_length. cbn [fst snd]. rewrite (RA a), (RB b) by (eauto using in_combine_l, in_combine_r). lia.
  - intros i j Hi Hj. unfold ent, m_zip. set (g := fun rows : list Z * list Z => _). rewrite (nth_indep _ [] (g ([], []))) by (rewrite map_length, combine_length; lia).
    rewrite map_nth, combine_nth by lia. unfold g. cbn [fst snd]. destruct (square_row n A i HA Hi) as (ra & _ & La & ->). destruct (square_row n B i HB Hi) as (rb & _ & Lb & ->).
    set (h := fun xy : Z * Z => _). rewrite (nth_indep _ 0%Z (h (0, 0)%Z)) by (rewrite map_length, combine_length; lia). rewrite map_nth, combine_nth by lia. reflexivity.
Qed.
Lemma rowsum_ok n M i : square n M -> i < n -> get_ (m_rowsums M) i = Ok (sumZ n (fun j => ent M i j)).
Proof.
  intros HM Hi. destruct (square_row n M i HM Hi) as (row & E & Hl & En). unfold get_, m_rowsums. rewrite nth_error_map, E. cbn [option_map]. rewrite sumZ_list, Hl.
  f_equal. apply sumZ_ext. intros j _. unfold ent. rewrite En. reflexivity.
Qed.

(** ** vertices *)
Definition edges_have_ends (K : complex) : Prop := forall s v, In s (by_index K) -> length (verts s) = 2 -> In v (verts s) -> In v (k_vertices K).

Lemma vertices_NoDup K : kwf K -> NoDup (k_vertices K).
Proof. intro HK. destruct (vertices_spec K HK) as [H _]. clear - H. induction H as [|a l H IH HF]; constructor; auto. intro Hin. rewrite Forall_forall in HF. specialize (HF a Hin). lia. Qed.
Lemma vertex_index_ok K v : In v (k_vertices K) -> exists i, vertex_index K v = Ok i /\ i < length (k_vertices K) /\ nth i (k_vertices K) 0 = v.
Proof.
  intro Hv. unfold vertex_index. destruct (position (Nat.eqb v) (k_vertices K)) as [i|] eqn:E.
  - exists i. apply position_some in E. destruct E as (u & Hu & E & _). apply Nat.eqb_eq in E. subst u. refine (conj eq_refl (conj _ _)); [eapply nth_error_lt; eauto|apply nth_error_nth; exact Hu].
  - rewrite ComplexFacts.position_none in E. specialize (E v Hv). rewrite Nat.eqb_refl in E. discriminate.
Qed.
Lemma vertex_index_none K v : ~ In v (k_vertices K) -> vertex_index K v = Throw OutOfRange.
Proof.
  intro Hv. unfold vertex_index. destruct (position (Nat.eqb v) (k_vertices K)) as [i|] eqn:E; [|reflexivity].
  apply position_some in E. destruct E as (u & Hu & E & _). apply Nat.eqb_eq in E. subst u. elim Hv. eapply nth_error_In; eauto.
Qed.
Lemma pair_set_eq (a b u v : nat) : a <> b -> (set_eq [a; b] [u; v] <-> (u = a /\ v = b) \/ (u = b /\ v = a)).
Proof.
  intro Hne. split.
  - intro H. pose proof (proj1 (H a) ltac:(simpl; auto)) as A. pose proof (proj1 (H b) ltac:(simpl; auto)) as B. simpl in A, B.
    pose proof (proj2 (H u) ltac:(simpl; auto)) as C. pose proof (proj2 (H v) ltac:(simpl; auto)) as D. simpl in C, D. intuition congruence.
  - intros [[-> ->]|[-> ->]] w; simpl; tauto.
Qed.

Section Adjacency.
  Variable K : complex.
  Hypothesis HK : kwf K.
  Let vs := k_vertices K.
  Let n := length vs.
  Let vx i := nth i vs 0.

  Lemma vx_inj i j : i < n -> j < n -> vx i = vx j -> i = j.
  Proof. intros Hi Hj E. apply (proj1 (NoDup_nth vs 0) (vertices_NoDup K HK)); assumption. Qed.

  (** the matrix after the simplices of [pre] *)
  Definition adj_inv (pre : list simplex) (W : dense) : Prop :=
    square n W /\ (forall i j, i < n -> j < n -> edge_weight pre (vx i) (vx j) (ent W i j)) /\
    forall g, sumZ n (fun i => sumZ n (fun j => ent W i j * g (vx i) (vx j)))%Z = sum_over (edge_term (fun u v => g u v + g v u)%Z) pre.

  Lemma edge_weight_other pre s u v x : (u = v \/ ~ set_eq (verts s) [u; v]) -> edge_weight pre u v x -> edge_weight (pre ++ [s]) u v x.
  Proof.
    intros H [[Hne (t & Ht & E & D)]|[-> H']].
    - left. split; [exact Hne|]. exists t. split; [apply in_or_app; auto|auto].
    - right. split; [reflexivity|]. destruct (Nat.eq_dec u v) as [|Hne]; [auto|]. right. intros (t & Ht & E). apply in_app_or in Ht. destruct Ht as [Ht|[<-|[]]].
      + destruct H' as [|H']; [contradiction|]. apply H'. exists t; auto.
      + destruct H; [contradiction|]. contradiction.
  Qed.

  Lemma sum_over_app {A} (f : A -> Z) l x : sum_over f (l ++ [x]) = (sum_over f l + f x)%Z.
  Proof. unfold sum_over. rewrite map_app, fold_right_app. cbn [map fold_right]. induction (map f l) as [|a m IH]; cbn [fold_right]; lia. Qed.

  Lemma sum_pair n' (h h' : nat -> nat -> Z) a b : a < n' -> b < n' -> (forall i j, i < n' -> j < n' -> ~ (i = a /\ j = b) -> h' i j = h i j) ->
    sumZ n' (fun i => sumZ n' (fun j => h' i j)) = (sumZ n' (fun i => sumZ n' (fun j => h i j)) + (h' a b - h a b))%Z.
  Proof.
    intros Ha Hb H. assert (E : forall i j, i < n' -> j < n' -> h' i j = (h i j + (if ((i =? a) && (j =? b))%nat then h' a b - h a b else 0))%Z).
    { intros i j Hi Hj. destruct (Nat.eqb_spec i a), (Nat.eqb_spec j b); cbn [andb]; subst; try (rewrite H by (try assumption; intros [? ?]; congruence); lia). lia. }
    rewrite (sumZ_ext n' _ (fun i => sumZ n' (fun j => h i j) + sumZ n' (fun j => if ((i =? a) && (j =? b))%nat then h' a b - h a b else 0))%Z).
    - rewrite sumZ_plus. f_equal. rewrite (sumZ_single n' a); [rewrite (sumZ_single n' b)|exact Ha|].
      + rewrite !Nat.eqb_refl. reflexivity.
      + exact Hb.
      + intros j Hj Hne. destruct (Nat.eqb_spec j b); [contradiction|]. rewrite andb_false_r. reflexivity.
      + intros i Hi Hne. apply sumZ_zero. intros j Hj. destruct (Nat.eqb_spec i a); [contradiction|]. reflexivity.
    - intros i Hi. rewrite <- sumZ_plus. apply sumZ_ext. intros j Hj. apply E; assumption.
  Qed.

  Lemma edge_weight_zero pre u v x : edge_weight pre u v x -> ~ has pre [u; v] -> x = 0%Z.
  Proof. intros [[_ (t & Ht & E & _)]|[-> _]] H; [|reflexivity]. elim H. exists t; auto. Qed.

  Lemma adj_fold pre post : pre ++ post = by_index K -> (forall s v, In s pre -> length (verts s) = 2 -> In v (verts s) -> In v vs) ->
    exists W, foldM (adjacency_step K) pre (m_constant n 0) = Ok W /\ adj_inv pre W.
  Proof.
    revert post. induction pre as [|s pre IH] using rev_ind; intros post Epre HE.
    - exists (m_constant n 0). split; [reflexivity|]. refine (conj (square_constant n 0) (conj _ _)).
      + intros i j Hi Hj. rewrite ent_constant by assumption. right. split; [reflexivity|]. right. intros (s & [] & _).
      + intro g. apply sumZ_zero. intros i Hi. apply sumZ_zero. intros j Hj. rewrite ent_constant by assumption. reflexivity.
    - destruct (IH (s :: post)) as (W & EW & HW & Hent & Hsum).
      { rewrite <- app_assoc in Epre. exact Epre. } { intros t v Ht. apply HE. apply in_or_app; auto. }
      rewrite foldM_app, EW. cbn [bind foldM]. assert (Hs : In s (by_index K)) by (rewrite <- Epre; apply in_or_app; left; apply in_or_app; right; simpl; auto).
      destruct (kwf_good K HK s Hs) as [Hwf Hne].
      assert (Hfresh : ~ has pre (verts s)).
      { intros (t & Ht & E). pose proof (kwf_nodup K HK) as ND. rewrite <- Epre in ND. rewrite !map_app, <- app_assoc in ND. cbn [map app] in ND. apply NoDup_remove_2 in ND. apply ND.
        apply in_or_app. left. replace (verts s) with (verts t); [apply in_map; exact Ht|]. apply wf_ext; [|exact Hwf|exact E].
        apply (kwf_good K HK). rewrite <- Epre. apply in_or_app; left; apply in_or_app; auto. }
      unfold adjacency_step. unfold sdim. destruct (Nat.eqb_spec (length (verts s) - 1) 1) as [Hd|Hd]; cbn [negb].
      2:{ exists W. split; [reflexivity|]. refine (conj HW (conj _ _)).
        - intros i j Hi Hj. apply edge_weight_other; [|apply Hent; assumption]. destruct (Nat.eq_dec (vx i) (vx j)) as [|Hv]; [auto|]. right. intro E. apply Hd.
          assert (L : length (verts s) = 2); [|lia]. apply Nat.le_antisymm.
          + apply (NoDup_incl_length (l := verts s) (l' := [vx i; vx j])); [apply SSgt_NoDup; exact Hwf|]. intros w Hw. apply E. exact Hw.
          + apply (NoDup_incl_length (l := [vx i; vx j]) (l' := verts s)); [constructor; [intros [X|[]]; congruence|constructor; [intros []|constructor]]|]. intros w Hw. apply E. exact Hw.
        - intro g. rewrite Hsum, sum_over_app. assert (T : edge_term (fun u v => g u v + g v u)%Z s = 0%Z); [|lia]. unfold edge_term. destruct (verts s) as [|a [|b [|c l]]]; simpl in Hd; try reflexivity. lia. }
      assert (HE' : forall v, In v (verts s) -> In v vs) by (intros v Hv; apply (HE s v); auto; [apply in_or_app; right; simpl; auto|]; destruct (verts s); [easy|simpl in *; lia]).
      unfold s_nth. destruct (verts s) as [|a [|b [|c l]]] eqn:Ev; simpl in Hd; try lia. cbn [at_ nth_error bind]. unfold at_; cbn [nth_error bind].
      destruct (vertex_index_ok K a (HE' a ltac:(simpl; auto))) as (i & Ei & Hi & Ni). destruct (vertex_index_ok K b (HE' b ltac:(simpl; auto))) as (j & Ej & Hj & Nj).
      fold vs n in Hi, Hj. fold vs in Ni, Nj. rewrite Ei. cbn [bind]. rewrite Ej. cbn [bind].
      assert (Hab : a <> b). { intros ->. assert (ND : NoDup [b; b]) by (rewrite <- Ev; apply SSgt_NoDup; exact Hwf). inversion ND as [|? ? X]; subst. apply X. simpl; auto. }
      assert (Hij : i <> j) by (intros ->; congruence).
      destruct (m_set_ok n W i j (data s) HW Hi Hj) as (W1 & E1 & S1 & N1). rewrite E1. cbn [bind]. rewrite (m_get_ok n W1 i j S1 Hi Hj). cbn [bind].
      destruct (m_set_ok n W1 j i (ent W1 i j) S1 Hj Hi) as (W2 & E2 & S2 & N2). rewrite E2. exists W2. split; [reflexivity|].
      assert (N : forall k l, k < n -> l < n -> ent W2 k l = if ((k =? i) && (l =? j)) || ((k =? j) && (l =? i)) then data s else ent W k l).
      { intros k l Hk Hl. rewrite N2, !N1 by assumption. rewrite !Nat.eqb_refl. cbn [andb]. rewrite (Nat.eqb_sym i k), (Nat.eqb_sym j k), (Nat.eqb_sym i l), (Nat.eqb_sym j l).
        destruct (Nat.eqb_spec k i), (Nat.eqb_spec l j), (Nat.eqb_spec k j), (Nat.eqb_spec l i); subst; cbn [andb orb]; try reflexivity; congruence. }
      refine (conj S2 (conj _ _)).
      + intros k l Hk Hl. rewrite N by assumption. destruct (((k =? i) && (l =? j)) || ((k =? j) && (l =? i))) eqn:T.
        * left. assert (T' : (k = i /\ l = j) \/ (k = j /\ l = i)).
          { apply orb_true_iff in T. destruct T as [T|T]; apply andb_true_iff in T; destruct T as [T1 T2]; apply Nat.eqb_eq in T1, T2; auto. }
          assert (Hv : (vx k = a /\ vx l = b) \/ (vx k = b /\ vx l = a)) by (unfold vx; destruct T' as [[-> ->]|[-> ->]]; auto).
          split; [destruct Hv as [[-> ->]|[-> ->]]; auto|]. exists s. refine (conj _ (conj _ eq_refl)); [apply in_or_app; right; simpl; auto|]. rewrite Ev. apply pair_set_eq; auto.
        * apply edge_weight_other; [|apply Hent; assumption]. right. rewrite Ev. intro E. apply pair_set_eq in E; [|exact Hab].
          assert (T' : (k = i /\ l = j) \/ (k = j /\ l = i)). { destruct E as [[A B]|[A B]]; [left|right]; split; apply vx_inj; auto; unfold vx in *; congruence. }
          destruct T' as [[-> ->]|[-> ->]]; rewrite !Nat.eqb_refl in T; cbn [andb] in T; [|rewrite orb_true_r in T]; discriminate.
      + intro g. rewrite sum_over_app, <- Hsum. unfold edge_term. rewrite Ev.
        assert (Z1 : ent W i j = 0%Z). { apply (edge_weight_zero pre (vx i) (vx j)); [apply Hent; assumption|]. unfold vx. rewrite Ni, Nj. exact Hfresh. }
        assert (Z2 : ent W j i = 0%Z). { apply (edge_weight_zero pre (vx j) (vx i)); [apply Hent; assumption|]. unfold vx. rewrite Ni, Nj. intros (t & Ht & E). apply Hfresh. exists t. split; [exact Ht|]. intro w. rewrite (E w). simpl. tauto. }
        rewrite (sum_pair n (fun k l => ent W1 k l * g (vx k) (vx l))%Z _ j i Hj Hi), (sum_pair n (fun k l => ent W k l * g (vx k) (vx l))%Z _ i j Hi Hj).
        * rewrite (N j i), (N1 i j), (N1 j i) by assumption. rewrite !Nat.eqb_refl. rewrite orb_true_r. cbn [andb]. destruct (Nat.eqb_spec i j); [contradiction|]. cbn [andb]. rewrite Z1, Z2. unfold vx. rewrite Ni, Nj. lia.
        * intros k l Hk Hl Hn. rewrite N1 by assumption. destruct (Nat.eqb_spec i k), (Nat.eqb_spec j l); cbn [andb]; try reflexivity. elim Hn; auto.
        * intros k l Hk Hl Hn. rewrite N2 by assumption. destruct (Nat.eqb_spec j k), (Nat.eqb_spec i l); cbn [andb]; try reflexivity. elim Hn; auto.
  Qed.
End Adjacency.

(** ** C104 *)
Theorem C104_adjacency : forall K, reachable K -> edges_have_ends K ->
  let vs := k_vertices K in let n := length vs in
  exists W, weightedAdjacencyMatrix K = Ok W /\ square n W /\
    forall i j, i < n -> j < n -> edge_weight (by_index K) (nth i vs 0) (nth j vs 0) (ent W i j).
Proof.
  intros K HR HE vs n. destruct (adj_fold K (reachable_kwf K HR) (by_index K) []) as (W & EW & H1 & H2 & _); [apply app_nil_r|exact HE|].
  exists W. auto.
Qed.

Lemma diag_fold n V : length V = n -> forall m, m <= n -> exists L, foldM (fun L i => let* x := get_ V i in m_set L i i x) (seq 0 m) (m_constant n 0) = Ok L /\ square n L /\
  forall i j, i < n -> j < n -> ent L i j = if (i =? j) && (i <? m) then nth i V 0%Z else 0%Z.
Proof.
  intros HV. induction m as [|m IH]; intro Hm.
  - exists (m_constant n 0). refine (conj eq_refl (conj (square_constant n 0) _)). intros i j Hi Hj. rewrite ent_constant by assumption. rewrite andb_false_r. reflexivity.
  - destruct IH as (L & EL & SL & NL); [lia|]. rewrite seq_S, foldM_app, EL. cbn [bind foldM Nat.add]. unfold get_. rewrite (nth_error_nth' V 0%Z) by lia. cbn [bind].
    destruct (m_set_ok n L m m (nth m V 0%Z) SL) as (L' & E' & S' & N'); [lia|lia|]. rewrite E'. exists L'. refine (conj eq_refl (conj S' _)).
    intros i j Hi Hj. rewrite N', NL by assumption. destruct (Nat.eqb_spec m i), (Nat.eqb_spec m j), (Nat.eqb_spec i j), (Nat.ltb_spec i m), (Nat.ltb_spec i (S m)); cbn [andb]; subst; try reflexivity; lia.
Qed.

Lemma laplacian_entries K n W : weightedAdjacencyMatrix K = Ok W -> square n W -> exists L, weightedLaplacianMatrix K = Ok L /\ square n L /\
  forall i j, i < n -> j < n -> ent L i j = ((if (i =? j)%nat then sumZ n (fun k => ent W i k) else 0) - ent W i j)%Z.
Proof.
  intros EW HW. unfold weightedLaplacianMatrix. rewrite EW. cbn [bind]. assert (LV : length (m_rowsums W) = n) by (unfold m_rowsums; rewrite map_length; apply HW).
  rewrite LV. replace (length W) with n by (symmetry; apply HW). destruct (diag_fold n (m_rowsums W) LV n (le_n n)) as (D & ED & SD & ND). rewrite ED. cbn [bind].
  destruct (m_zip_ok n Z.sub D W SD HW) as [SL NL]. eexists. refine (conj eq_refl (conj SL _)). intros i j Hi Hj. rewrite NL, ND by assumption.
  destruct (Nat.eqb_spec i j); cbn [andb]; [|reflexivity]. destruct (Nat.ltb_spec i n); [|lia]. f_equal. pose proof (rowsum_ok n W i HW Hi) as R. apply get_ok in R. apply nth_error_nth with (d := 0%Z) in R. exact R.
Qed.

Lemma edge_weight_fun K u v x y : kwf K -> edge_weight (by_index K) u v x -> edge_weight (by_index K) v u y -> x = y.
Proof.
  intros HK [[Hne (s & Hs & Es & <-)]|[-> H]] [[Hne' (t & Ht & Et & <-)]|[-> H']]; try reflexivity.
  - assert (E : verts s = verts t). { apply wf_ext; [apply (kwf_good K HK s Hs)|apply (kwf_good K HK t Ht)|]. intro w. rewrite (Es w), (Et w). simpl. tauto. }
    f_equal. apply (nodup_verts_eq K s t); auto.
  - destruct H' as [->|H']; [contradiction|]. elim H'. exists s. split; [exact Hs|]. intro w. rewrite (Es w). simpl; tauto.
  - destruct H as [->|H]; [contradiction|]. elim H. exists t. split; [exact Ht|]. intro w. rewrite (Et w). simpl; tauto.
Qed.

(** The entries outside of the diagonal are the negative weights, and all rows sum to zero;
    this determines the matrix. *)
Theorem C104_laplacian : forall K, reachable K -> edges_have_ends K ->
  let vs := k_vertices K in let n := length vs in
  exists L, weightedLaplacianMatrix K = Ok L /\ square n L /\
    (forall i j, i < n -> j < n -> i <> j -> edge_weight (by_index K) (nth i vs 0) (nth j vs 0) (- ent L i j)) /\
    (forall i, i < n -> sumZ n (fun j => ent L i j) = 0%Z) /\
    (forall i j, i < n -> j < n -> ent L i j = ent L j i).
Proof.
  intros K HR HE vs n. pose proof (reachable_kwf K HR) as HK. destruct (C104_adjacency K HR HE) as (W & EW & SW & NW). fold vs n in SW, NW. destruct (laplacian_entries K n W EW SW) as (L & EL & SL & NL).
  assert (Wsym : forall i j, i < n -> j < n -> ent W i j = ent W j i).
  { intros i j Hi Hj. apply (edge_weight_fun K (nth i vs 0) (nth j vs 0)); auto. }
  assert (Wdiag : forall i, i < n -> ent W i i = 0%Z) by (intros i Hi; destruct (NW i i Hi Hi) as [[X _]|[X _]]; [contradiction|exact X]).
  exists L. refine (conj EL (conj SL (conj _ (conj _ _)))).
  - intros i j Hi Hj Hne. rewrite NL by assumption. destruct (Nat.eqb_spec i j); [contradiction|]. replace (- (0 - ent W i j))%Z with (ent W i j) by lia. apply NW; assumption.
  - intros i Hi. rewrite (sumZ_ext n _ (fun j => (if (i =? j)%nat then sumZ n (fun k => ent W i k) else 0) + (-1) * ent W i j)%Z) by (intros j Hj; rewrite NL by assumption; lia).
    rewrite sumZ_plus, sumZ_scale, (sumZ_single n i (fun j => if (i =? j)%nat then _ else 0)%Z) by (try exact Hi; intros j _ Hne; destruct (Nat.eqb_spec i j); congruence). rewrite Nat.eqb_refl. change (sumZ n (ent W i)) with (sumZ n (fun k => ent W i k)). ring.
  - intros i j Hi Hj. rewrite !NL by assumption. rewrite (Nat.eqb_sym j i). destruct (Nat.eqb_spec i j) as [->|]; [reflexivity|]. rewrite (Wsym i j) by assumption. reflexivity.
Qed.

(** The quadratic form of the Laplacian is the sum of the weighted squared differences over
    the edges. *)
Theorem C104_form : forall K x, reachable K -> edges_have_ends K ->
  let vs := k_vertices K in let n := length vs in
  exists L, weightedLaplacianMatrix K = Ok L /\
    sumZ n (fun i => sumZ n (fun j => x (nth i vs 0%nat) * ent L i j * x (nth j vs 0%nat)))%Z =
    sum_over (edge_term (fun u v => (x u - x v) * (x u - x v))%Z) (by_index K).
Proof.
  intros K x HR HE vs n. pose proof (reachable_kwf K HR) as HK. destruct (adj_fold K HK (by_index K) []) as (W & EW & SW & NW & SumW); [apply app_nil_r|exact HE|]. fold vs n in SW, NW, SumW.
  destruct (laplacian_entries K n W EW SW) as (L & EL & SL & NL). exists L. split; [exact EL|]. clear EL SL EW.
  assert (Wsym : forall i j, i < n -> j < n -> ent W i j = ent W j i).
  { intros i j Hi Hj. apply (edge_weight_fun K (nth i vs 0) (nth j vs 0)); auto. }
  set (xi i := x (nth i vs 0)). set (S1 := sumZ n (fun i => sumZ n (fun j => ent W i j * (xi i * xi i)))%Z). set (S2 := sumZ n (fun i => sumZ n (fun j => ent W i j * (xi i * xi j)))%Z).
  assert (A : sumZ n (fun i => sumZ n (fun j => xi i * ent L i j * xi j))%Z = (S1 - S2)%Z).
  { unfold S1, S2. replace (S1 - S2)%Z with (S1 + (-1) * S2)%Z by lia. unfold S1, S2. rewrite <- Z.add_opp_r, Z.opp_eq_mul_m1, Z.mul_comm, <- sumZ_scale, <- sumZ_plus. apply sumZ_ext. intros i Hi.
    rewrite <- sumZ_scale, <- sumZ_plus. 
    rewrite (sumZ_ext n _ (fun j => (if (i =? j)%nat then sumZ n (fun k => ent W i k) * (xi i * xi j) else 0) + (-1) * (ent W i j * (xi i * xi j)))%Z)
      by (intros j Hj; rewrite NL by assumption; destruct (i =? j)%nat; ring).
    rewrite !sumZ_plus. f_equal. rewrite (sumZ_single n i (fun j => if (i =? j)%nat then _ else 0)%Z) by (try exact Hi; intros j _ Hne; destruct (Nat.eqb_spec i j); congruence). rewrite Nat.eqb_refl.
    rewrite Z.mul_comm, <- sumZ_scale. apply sumZ_ext. intros j _. ring. }
  change (sumZ n (fun i => sumZ n (fun j => x (nth i vs 0%nat) * ent L i j * x (nth j vs 0%nat)))%Z) with (sumZ n (fun i => sumZ n (fun j => xi i * ent L i j * xi j))%Z). rewrite A.
  assert (B : (2 * (S1 - S2))%Z = sumZ n (fun i => sumZ n (fun j => ent W i j * ((xi i - xi j) * (xi i - xi j))))%Z).
  { assert (S1' : S1 = sumZ n (fun i => sumZ n (fun j => ent W i j * (xi j * xi j)))%Z).
    { unfold S1. rewrite sumZ_swap. apply sumZ_ext. intros i Hi. apply sumZ_ext. intros j Hj. rewrite (Wsym j i) by assumption. reflexivity. }
    replace (2 * (S1 - S2))%Z with (S1 + S1 + (-2) * S2)%Z by lia. rewrite S1' at 2. unfold S1, S2. rewrite <- sumZ_scale, <- !sumZ_plus. apply sumZ_ext. intros i Hi.
    rewrite <- sumZ_scale, <- !sumZ_plus. apply sumZ_ext. intros j Hj. ring. }
  unfold xi in B. rewrite (SumW (fun u v => (x u - x v) * (x u - x v))%Z) in B.
  assert (C : sum_over (edge_term (fun u v => (x u - x v) * (x u - x v) + (x v - x u) * (x v - x u))%Z) (by_index K) = (2 * sum_over (edge_term (fun u v => (x u - x v) * (x u - x v))%Z) (by_index K))%Z).
  { clear. unfold sum_over. induction (by_index K) as [|s l IH]; [reflexivity|]. cbn [map fold_right]. rewrite IH. unfold edge_term at 1 3. destruct (verts s) as [|a [|b [|c r]]]; try ring. }
  lia.
Qed.

(** edges with positive weights *)
Definition positive_edges (K : complex) : Prop := forall s, In s (by_index K) -> length (verts s) = 2 -> (0 < data s)%Z.

Lemma edge_terms_zero g l : (forall s, In s l -> length (verts s) = 2 -> (0 < data s)%Z) -> (forall u v, 0 <= g u v)%Z -> 
  sum_over (edge_term g) l = 0%Z -> forall s u v, In s l -> verts s = [u; v] -> g u v = 0%Z.
Proof.
  intros Hp Hg. assert (NN : forall s, In s l -> (0 <= edge_term g s)%Z).
  { intros s Hs. unfold edge_term. destruct (verts s) as [|a [|b [|c r]]] eqn:E; try lia. specialize (Hp s Hs). rewrite E in Hp. specialize (Hp eq_refl). specialize (Hg a b). nia. }
  assert (G : sum_over (edge_term g) l = 0%Z -> forall s, In s l -> edge_term g s = 0%Z).
  { clear Hp. unfold sum_over. induction l as [|t l IH]; intros H0 s Hs; [destruct Hs|]. cbn [map fold_right] in H0.
    assert (R : (0 <= fold_right Z.add 0 (map (edge_term g) l))%Z). { assert (NN' : forall s, In s l -> (0 <= edge_term g s)%Z) by (intros; apply NN; simpl; auto). clear - NN'. induction l as [|t l IH]; cbn [map fold_right]; [lia|]. specialize (IH ltac:(intros; apply NN'; simpl; auto)). specialize (NN' t ltac:(simpl; auto)). lia. }
    pose proof (NN t ltac:(simpl; auto)). destruct Hs as [<-|Hs]; [lia|]. apply IH; auto; [intros; apply NN; simpl; auto|lia]. }
  intros H0 s u v Hs E. specialize (G H0 s Hs). unfold edge_term in G. rewrite E in G. specialize (Hp s Hs). rewrite E in Hp. specialize (Hp eq_refl). nia.
Qed.

(** With positive weights, the kernel of the Laplacian consists of the functions that are
    constant on the connected components; in particular, the matrix is positive
    semi-definite (for weights that are not negative). *)
Theorem C104_semidefinite : forall K x, reachable K -> edges_have_ends K -> (forall s, In s (by_index K) -> length (verts s) = 2 -> (0 <= data s)%Z) ->
  let vs := k_vertices K in let n := length vs in
  exists L, weightedLaplacianMatrix K = Ok L /\
    (0 <= sumZ n (fun i => sumZ n (fun j => x (nth i vs 0%nat) * ent L i j * x (nth j vs 0%nat))))%Z.
Proof.
  intros K x HR HE Hp vs n. destruct (C104_form K x HR HE) as (L & EL & F). fold vs n in F. exists L. split; [exact EL|]. rewrite F. clear F EL.
  unfold sum_over. induction (by_index K) as [|s l IH]; cbn [map fold_right]; [lia|]. specialize (IH ltac:(intros; apply Hp; simpl; auto)). specialize (Hp s ltac:(simpl; auto)).
  unfold edge_term at 1. destruct (verts s) as [|a [|b [|c r]]]; try lia. specialize (Hp eq_refl). pose proof (Z.square_nonneg (x a - x b)). nia.
Qed.

Theorem C104_kernel : forall K x, reachable K -> edges_have_ends K -> positive_edges K ->
  let vs := k_vertices K in let n := length vs in
  exists L, weightedLaplacianMatrix K = Ok L /\
    ((forall i, i < n -> sumZ n (fun j => ent L i j * x (nth j vs 0%nat))%Z = 0%Z) <->
     (forall u v, In u vs -> joined K u v -> x u = x v)).
Proof.
  intros K x HR HE Hp vs n. pose proof (reachable_kwf K HR) as HK. destruct (C104_form K x HR HE) as (L & EL & F). fold vs n in F. exists L. split; [exact EL|].
  destruct (C104_laplacian K HR HE) as (L' & EL' & SL & NL & RL & _). rewrite EL in EL'. injection EL' as <-. fold vs n in NL, RL. split.
  - intro H0. assert (Z : sum_over (edge_term (fun u v => (x u - x v) * (x u - x v))%Z) (by_index K) = 0%Z).
    { rewrite <- F. apply sumZ_zero. intros i Hi. rewrite (sumZ_ext n _ (fun j => x (nth i vs 0%nat) * (ent L i j * x (nth j vs 0%nat)))%Z) by (intros; ring). rewrite sumZ_scale, H0 by exact Hi. lia. }
    assert (E : forall s u v, In s (by_index K) -> verts s = [u; v] -> x u = x v).
    { intros s u v Hs Es. pose proof (edge_terms_zero _ _ Hp (fun u v => Z.square_nonneg (x u - x v)) Z s u v Hs Es) as Q. nia. }
    assert (G : forall u v, joined K u v -> x u = x v); [|intros u v _; apply G].
    intros u v J. induction J as [u v (s & Hs & Es)|u|u v _ IH|u v w _ IH1 _ IH2]; try congruence.
    destruct (Nat.eq_dec u v) as [->|Hne]; [reflexivity|]. destruct (kwf_good K HK s Hs) as [Hwf _].
    assert (ND : NoDup (verts s)) by (apply SSgt_NoDup; exact Hwf). assert (Hu : In u (verts s)) by (apply Es; simpl; auto). assert (Hv : In v (verts s)) by (apply Es; simpl; auto).
    assert (Len : length (verts s) <= 2) by (apply (NoDup_incl_length (l' := [u; v]) ND); intros w Hw; apply Es; exact Hw).
    destruct (verts s) as [|a [|b [|c r]]] eqn:Ev; simpl in Len; try lia; [destruct Hu|simpl in Hu, Hv; destruct Hu as [<-|[]]; destruct Hv as [<-|[]]; congruence|].
    pose proof (E s a b Hs Ev). simpl in Hu, Hv. destruct Hu as [<-|[<-|[]]], Hv as [<-|[<-|[]]]; congruence.
  - intros HJ i Hi. rewrite <- (Z.mul_0_r (x (nth i vs 0))), <- (RL i Hi), <- sumZ_scale. apply sumZ_ext. intros j Hj.
    destruct (Nat.eq_dec i j) as [<-|Hne]; [ring|]. destruct (NL i j Hi Hj Hne) as [[_ (s & Hs & Es & _)]|[Z _]]; [|assert (ent L i j = 0%Z) by lia; nia].
    rewrite (HJ (nth i vs 0) (nth j vs 0)); [ring|apply nth_In; exact Hi|]. apply rst_step. exists s; auto.
Qed.

(** An edge with an end that is not a vertex of the complex. *)
Theorem C104_throws : forall K s v, reachable K -> In s (by_index K) -> length (verts s) = 2 -> In v (verts s) -> ~ In v (k_vertices K) ->
  weightedAdjacencyMatrix K = Throw OutOfRange /\ weightedLaplacianMatrix K = Throw OutOfRange.
Proof.
  intros K s v HR Hs Hl Hv Hn. pose proof (reachable_kwf K HR) as HK. assert (A : weightedAdjacencyMatrix K = Throw OutOfRange); [|unfold weightedLaplacianMatrix; rewrite A; auto].
  assert (P : exists pre t post, by_index K = pre ++ t :: post /\ (forall s v, In s pre -> length (verts s) = 2 -> In v (verts s) -> In v (k_vertices K)) /\
    exists a b, verts t = [a; b] /\ (~ In a (k_vertices K) \/ ~ In b (k_vertices K))).
  { clear HR HK. induction (by_index K) as [|t l IH]; [destruct Hs|]. 
    assert (D : (exists a b, verts t = [a; b] /\ (~ In a (k_vertices K) \/ ~ In b (k_vertices K))) \/ (length (verts t) = 2 -> forall v, In v (verts t) -> In v (k_vertices K))).
    { destruct (verts t) as [|a [|b [|c r]]] eqn:Et; try (right; intro X; simpl in X; lia). destruct (in_dec Nat.eq_dec a (k_vertices K)) as [Ha|Ha]; [|left; exists a, b; auto].
      destruct (in_dec Nat.eq_dec b (k_vertices K)) as [Hb|Hb]; [|left; exists a, b; auto]. right. intros _ w [<-|[<-|[]]]; auto. }
    destruct D as [D|D]; [exists [], t, l; refine (conj eq_refl (conj _ D)); intros ? ? []|].
    destruct Hs as [<-|Hs]; [elim Hn; apply D; assumption|]. destruct (IH Hs) as (pre & t' & post & -> & Hpre & D'). exists (t :: pre), t', post. refine (conj eq_refl (conj _ D')).
    intros r w [<-|Hr] L W; [apply D; assumption|apply (Hpre r); assumption]. }
  destruct P as (pre & t & post & E & Hpre & a & b & Et & Hab). destruct (adj_fold K HK pre (t :: post) (eq_sym E) Hpre) as (W & EW & _).
  unfold weightedAdjacencyMatrix. rewrite E, foldM_app, EW. cbn [bind foldM]. unfold adjacency_step at 1. unfold sdim, s_nth, at_. rewrite Et. cbn [length Nat.sub Nat.eqb negb nth_error bind].
  destruct (in_dec Nat.eq_dec a (k_vertices K)) as [Ha|Ha]; [|rewrite vertex_index_none by exact Ha; reflexivity].
  destruct (vertex_index_ok K a Ha) as (i & -> & _). cbn [bind]. rewrite vertex_index_none by tauto. reflexivity.
Qed.

(** FINDING: [pinvWeightedLaplacianMatrix] divides integers, so that for at least two vertices
    it inverts the Laplacian itself, which is singular; without vertices, it divides by zero. *)
Theorem C104_pinv_refuted : forall K, reachable K -> edges_have_ends K ->
  let n := length (k_vertices K) in
  (n = 0 -> pinv_arguments K = UB) /\
  (2 <= n -> exists M A x, pinv_arguments K = Ok (M, A) /\ (exists i, i < n /\ x i <> 0%Z) /\ forall i, i < n -> sumZ n (fun j => ent A i j * x j)%Z = 0%Z).
Proof.
  intros K HR HE n. destruct (C104_laplacian K HR HE) as (L & EL & SL & _ & RL & _). fold n in SL, RL. unfold pinv_arguments. rewrite EL. cbn [bind]. replace (length L) with n by (symmetry; apply SL). split.
  - intros ->. reflexivity.
  - intro H2. destruct (Nat.eqb_spec n 0); [lia|]. do 2 eexists. exists (fun _ => 1%Z). refine (conj eq_refl (conj _ _)); [exists 0; split; [lia|discriminate]|].
    rewrite Nat.div_small by lia. destruct (m_zip_ok n Z.add (m_constant n (Z.of_nat 0)) L (square_constant n 0) SL) as [_ N]. intros i Hi. rewrite <- (RL i Hi). apply sumZ_ext.
    intros j Hj. rewrite N, ent_constant by assumption. lia.
Qed.

(** the complex of the test of the project, with different weights *)
Example C104_example :
  let K := match k_of_range (map (fun p => simplex_of (fst p) (snd p)) [([1], 1%Z); ([2], 1%Z); ([3], 1%Z); ([4], 1%Z); ([1; 2], 5%Z); ([1; 3], 7%Z); ([2; 3], 2%Z); ([2; 4], 3%Z); ([1; 2; 3], 9%Z)]) with Ok K => K | _ => k_empty end in
  weightedAdjacencyMatrix K = Ok [[0; 5; 7; 0]; [5; 0; 2; 3]; [7; 2; 0; 0]; [0; 3; 0; 0]]%Z /\
  weightedLaplacianMatrix K = Ok [[12; -5; -7; 0]; [-5; 10; -2; -3]; [-7; -2; 9; 0]; [0; -3; 0; 3]]%Z /\
  reachable K /\ edges_have_ends K /\ positive_edges K.
Proof.
  intro K. assert (EK : k_of_range (map (fun p => simplex_of (fst p) (snd p)) [([1], 1%Z); ([2], 1%Z); ([3], 1%Z); ([4], 1%Z); ([1; 2], 5%Z); ([1; 3], 7%Z); ([2; 3], 2%Z); ([2; 4], 3%Z); ([1; 2; 3], 9%Z)]) = Ok K) by (vm_compute; reflexivity).
  refine (conj _ (conj _ (conj _ (conj _ _)))); [vm_compute; reflexivity|vm_compute; reflexivity| | |].
  - eapply of_range_reachable; [|exact EK]. intros s Hs. apply in_map_iff in Hs. destruct Hs as (p & <- & _). apply simplex_of_wf.
  - intros s v Hs Hl Hv. vm_compute in Hs. change (In v [1; 2; 3; 4]). repeat (destruct Hs as [<-|Hs]; [simpl in Hl, Hv |- *; try discriminate; tauto|]). destruct Hs.
  - intros s Hs Hl. vm_compute in Hs. repeat (destruct Hs as [<-|Hs]; [simpl in Hl |- *; try discriminate; lia|]). destruct Hs.
Qed.

Print Assumptions C104_adjacency.
Print Assumptions C104_laplacian.
Print Assumptions C104_form.
Print Assumptions C104_semidefinite.
Print Assumptions C104_kernel.
Print Assumptions C104_throws.
Print Assumptions C104_pinv_refuted.
