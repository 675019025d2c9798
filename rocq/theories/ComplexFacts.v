(** * Facts about the simplicial complex container. *)

From Coq Require Import List Arith Lia Bool Permutation Sorted ZArith.
From Verif Require Import Base BaseFacts Simplex SimplexFacts Matrix SpecComplex Complex.
Import ListNotations.

Definition good (s : simplex) : Prop := wf s /\ verts s <> [].
Definition dim_le (s t : simplex) : Prop := sdim s <= sdim t.

Record kwf (K : complex) : Prop := {
  kwf_good : forall s, In s (by_index K) -> good s;
  kwf_nodup : NoDup (map verts (by_index K));
  kwf_perm : Permutation (by_index K) (by_dim K);
  kwf_sorted : StronglySorted dim_le (by_dim K)
}.

Lemma set_eq_wf s t : wf s -> wf t -> (set_eq (verts s) (verts t) <-> verts s = verts t).
Proof.
  intros H1 H2. split; [apply wf_ext; auto|]. intros E v. rewrite E. tauto.
Qed.

Lemma good_dimension s : good s -> s_dimension s = Ok (sdim s).
Proof.
  intros [_ H]. unfold s_dimension, sdim. destruct (verts s); [easy|]. simpl. f_equal. lia.
Qed.

Lemma simplex_of_good l d : l <> [] -> good (simplex_of l d).
Proof.
  intro H. split; [apply simplex_of_wf|]. destruct l as [|a l]; [easy|].
  intro E. assert (In a (verts (simplex_of (a :: l) d))) by (apply simplex_of_In; simpl; auto).
  rewrite E in H0. easy.
Qed.

Lemma wf_simplex_of s : wf s -> s = simplex_of (verts s) (data s).
Proof.
  intro H. pose proof (simplex_of_id s (data s) H) as E. destruct s as [v d].
  unfold simplex_of in *. simpl in *. rewrite E. auto.
Qed.

Lemma set_data_good s d : good s -> good (set_data s d).
Proof. auto. Qed.

Lemma with_data_good s d : good s -> good (simplex_with_data s d).
Proof. auto. Qed.

Lemma boundary_good s f : good s -> In f (boundary s) -> good f.
Proof.
  intros [Hw _] H. split; [eapply boundary_wf; eauto|].
  pose proof (boundary_size s f Hw H) as E. apply in_boundary in H. destruct H as [H2 _].
  intro N. unfold s_size in *. rewrite N in E. simpl in E. lia.
Qed.

Lemma boundary_sdim s f : wf s -> In f (boundary s) -> S (sdim f) = sdim s.
Proof.
  intros Hw H. pose proof (boundary_size s f Hw H) as E. apply in_boundary in H. destruct H as [H2 _].
  unfold sdim, s_size in *. lia.
Qed.

(** ** membership *)
Lemma contains_In K s : k_contains K s = true <-> In (verts s) (map verts (by_index K)).
Proof. apply existsb_seqb. Qed.

Lemma contains_false K s : k_contains K s = false <-> ~ In (verts s) (map verts (by_index K)).
Proof. rewrite <- contains_In. destruct (k_contains K s); split; congruence. Qed.

Lemma has_In K vs s : kwf K -> wf s -> set_eq (verts s) vs ->
  (has (by_index K) vs <-> In (verts s) (map verts (by_index K))).
Proof.
  intros HK Hw E. rewrite in_map_iff. split.
  - intros (t & Ht & Et). exists t. split; auto.
    apply wf_ext; auto; [apply (kwf_good K HK t Ht)|]. intro v. rewrite (Et v), (E v). tauto.
  - intros (t & Et & Ht). exists t. split; auto. rewrite Et. auto.
Qed.

Lemma contains_has K l d : kwf K ->
  (k_contains K (simplex_of l d) = true <-> has (by_index K) l).
Proof.
  intro HK. rewrite contains_In. symmetry. apply has_In; auto using simplex_of_wf.
  intro v. apply simplex_of_In.
Qed.

Lemma nodup_verts_eq K s t : kwf K -> In s (by_index K) -> In t (by_index K) ->
  verts s = verts t -> s = t.
Proof.
  intros HK Hs Ht E. pose proof (kwf_nodup K HK) as Hn.
  revert Hs Ht Hn. induction (by_index K) as [|a l IH]; simpl; intros Hs Ht Hn; [easy|].
  inversion Hn; subst.
  destruct Hs as [<-|Hs], Ht as [<-|Ht]; auto.
  - exfalso. apply H1. rewrite E. apply in_map; auto.
  - exfalso. apply H1. rewrite <- E. apply in_map; auto.
Qed.

Lemma position_some {A} (p : A -> bool) l i :
  position p l = Some i -> exists a, nth_error l i = Some a /\ p a = true /\
    forall j b, j < i -> nth_error l j = Some b -> p b = false.
Proof.
  revert i; induction l as [|x l IH]; intros i; simpl; [discriminate|].
  destruct (p x) eqn:E.
  - intros [= <-]. exists x. simpl. repeat split; auto. lia.
  - destruct (position p l) as [k|] eqn:F; [|discriminate]. intros [= <-].
    destruct (IH k eq_refl) as (a & H1 & H2 & H3). exists a. simpl. repeat split; auto.
    intros [|j] b Hj Hb; simpl in Hb; [congruence|]. apply (H3 j b); auto. lia.
Qed.

Lemma position_none {A} (p : A -> bool) l :
  position p l = None <-> forall a, In a l -> p a = false.
Proof.
  induction l as [|x l IH]; simpl; [split; auto; easy|].
  destruct (p x) eqn:E.
  - split; [discriminate|]. intro H. rewrite (H x) in E by auto. discriminate.
  - destruct (position p l); simpl.
    + split; [discriminate|]. intro H. exfalso.
      assert (Some n = None) by (apply IH; intros; apply H; auto). discriminate.
    + split; auto. intros _ a [<-|Ha]; auto. apply IH; auto.
Qed.

Lemma nth_error_verts_inj K i j s t : kwf K ->
  nth_error (by_index K) i = Some s -> nth_error (by_index K) j = Some t ->
  verts s = verts t -> i = j.
Proof.
  intros HK Hi Hj E. pose proof (kwf_nodup K HK) as Hn.
  rewrite NoDup_nth_error in Hn. apply Hn.
  - rewrite map_length. eapply nth_error_lt; eauto.
  - rewrite !nth_error_map, Hi, Hj. simpl. congruence.
Qed.

Lemma find_pos_spec K s i : kwf K ->
  (k_find K s = Some i <-> exists t, nth_error (by_index K) i = Some t /\ verts t = verts s).
Proof.
  intro HK. unfold k_find. split.
  - intro H. apply position_some in H. destruct H as (a & H1 & H2 & _).
    exists a. split; auto. apply s_eqb_eq in H2. auto.
  - intros (t & H1 & H2). destruct (position (s_eqb s) (by_index K)) as [k|] eqn:E.
    + apply position_some in E. destruct E as (a & H3 & H4 & _). f_equal.
      apply (nth_error_verts_inj K k i a t); auto. apply s_eqb_eq in H4. congruence.
    + exfalso. rewrite position_none in E. specialize (E t (nth_error_In _ _ H1)).
      apply s_eqb_neq in E. congruence.
Qed.

Lemma find_pos_none K s : k_find K s = None <-> k_contains K s = false.
Proof.
  unfold k_find, k_contains. rewrite position_none. split.
  - intro H. destruct (existsb (s_eqb s) (by_index K)) eqn:E; auto.
    apply existsb_exists in E. destruct E as (x & Hx & E). rewrite H in E; auto.
  - intros H a Ha. destruct (s_eqb s a) eqn:E; auto.
    rewrite <- H. symmetry. apply existsb_exists. eauto.
Qed.

Lemma lookup_some K s t : kwf K ->
  (k_lookup K s = Some t <-> In t (by_index K) /\ verts t = verts s).
Proof.
  intro HK. unfold k_lookup. split.
  - intro H. apply find_some in H. destruct H as [H1 H2]. apply s_eqb_eq in H2. auto.
  - intros [H1 H2]. destruct (find (s_eqb s) (by_index K)) as [u|] eqn:E.
    + apply find_some in E. destruct E as [E1 E2]. apply s_eqb_eq in E2. f_equal.
      apply (nodup_verts_eq K); auto. congruence.
    + exfalso. pose proof (find_none _ _ E _ H1) as N. apply s_eqb_neq in N. congruence.
Qed.

Lemma lookup_none K s : k_lookup K s = None <-> k_contains K s = false.
Proof.
  unfold k_lookup, k_contains. split.
  - intro H. destruct (existsb (s_eqb s) (by_index K)) eqn:E; auto.
    apply existsb_exists in E. destruct E as (x & Hx & E). rewrite (find_none _ _ H x Hx) in E. discriminate.
  - intro H. destruct (find (s_eqb s) (by_index K)) as [u|] eqn:E; auto.
    apply find_some in E. assert (existsb (s_eqb s) (by_index K) = true) by (apply existsb_exists; eauto).
    congruence.
Qed.

(** ** the dimension view *)
Lemma dim_insert_perm s l : Permutation (dim_insert s l) (s :: l).
Proof.
  induction l as [|t l IH]; simpl; auto. destruct (sdim s <? sdim t); auto.
  rewrite IH. apply perm_swap.
Qed.

Lemma dim_insert_sorted s l : StronglySorted dim_le l -> StronglySorted dim_le (dim_insert s l).
Proof.
  induction 1 as [|t l Hl IH Ht]; simpl; [repeat constructor|].
  destruct (Nat.ltb_spec (sdim s) (sdim t)).
  - constructor; [constructor; auto|]. constructor; [unfold dim_le; lia|].
    eapply Forall_impl; [|exact Ht]. unfold dim_le. simpl. intros; lia.
  - constructor; auto. rewrite Forall_forall in *. intros u Hu.
    apply (Permutation_in _ (dim_insert_perm s l)) in Hu. destruct Hu as [<-|Hu]; auto.
Qed.

Lemma split_at_spec old l : In (verts old) (map verts l) ->
  exists t, l = fst (split_at old l) ++ t :: snd (split_at old l) /\ verts t = verts old.
Proof.
  induction l as [|a l IH]; simpl; [easy|]. intro H.
  destruct (s_eqb old a) eqn:E.
  - exists a. simpl. split; auto. apply s_eqb_eq in E. auto.
  - destruct H as [H|H]; [apply s_eqb_neq in E; congruence|].
    destruct (split_at old l) as [p q]. simpl in *. destruct (IH H) as (t & -> & Ht).
    exists t. auto.
Qed.

Lemma last_opt_split {A} (l : list A) x : last_opt l = Some x -> exists l', l = l' ++ [x].
Proof.
  induction l as [|a l IH]; [discriminate|]. destruct l as [|b l].
  - intros [= ->]. exists []. auto.
  - intro H. destruct (IH H) as (l' & E). exists (a :: l'). simpl. f_equal. exact E.
Qed.

Lemma dim_replace_sorted old s l :
  In (verts old) (map verts l) -> StronglySorted dim_le l -> StronglySorted dim_le (dim_replace old s l).
Proof.
  intros Hi Hs. unfold dim_replace. destruct (split_at_spec old l Hi) as (t & El & Et).
  destruct (split_at old l) as [pre post]; simpl in *. rewrite El in Hs.
  apply StronglySorted_app in Hs. destruct Hs as (Hp & Hq & Hpq).
  inversion Hq as [|? ? Hq' Ht]; subst. rewrite Forall_forall in Ht.
  destruct (_ && _) eqn:C.
  - apply andb_true_iff in C. destruct C as [C1 C2].
    apply StronglySorted_app. split; [auto|]. split.
    + constructor; auto. apply Forall_forall. intros x Hx. destruct post as [|z post]; [easy|].
      apply Nat.leb_le in C2. inversion Hq' as [|? ? _ Hz]; subst. rewrite Forall_forall in Hz.
      destruct Hx as [<-|Hx]; [exact C2|]. specialize (Hz x Hx). unfold dim_le in *. lia.
    + intros x y Hx [<-|Hy].
      * destruct (last_opt pre) as [w|] eqn:L; [|apply last_opt_none in L; subst; easy].
        apply Nat.leb_le in C1. destruct (last_opt_split _ _ L) as (pre' & ->).
        apply StronglySorted_app in Hp. destruct Hp as (_ & _ & Hp).
        apply in_app_or in Hx. destruct Hx as [Hx|[<-|[]]]; [|exact C1].
        specialize (Hp x w Hx (or_introl eq_refl)). unfold dim_le in *. lia.
      * apply Hpq; simpl; auto.
  - apply dim_insert_sorted. apply StronglySorted_app. refine (conj Hp (conj Hq' _)).
    intros x y Hx Hy. apply Hpq; simpl; auto.
Qed.

Lemma dim_replace_perm old s l t :
  In t l -> verts t = verts old -> NoDup (map verts l) ->
  exists rest, Permutation l (t :: rest) /\ Permutation (dim_replace old s l) (s :: rest).
Proof.
  intros Hi Et Hn. assert (Hi' : In (verts old) (map verts l)) by (rewrite <- Et; apply in_map; auto).
  destruct (split_at_spec old l Hi') as (t' & El & Et').
  assert (t' = t).
  { assert (Ht' : In t' l) by (rewrite El; apply in_or_app; simpl; auto).
    clear El. revert Hi Ht' Hn. clear Hi'. induction l as [|a l IH]; simpl; intros H1 H2 H3; [easy|].
    inversion H3; subst. destruct H1 as [<-|H1], H2 as [<-|H2]; auto.
    - exfalso. apply H4. rewrite Et, <- Et'. apply in_map; auto.
    - exfalso. apply H4. rewrite Et', <- Et. apply in_map; auto. }
  subst t'. unfold dim_replace. destruct (split_at old l) as [pre post]; simpl in *.
  exists (pre ++ post). split.
  - rewrite El. symmetry. apply Permutation_middle.
  - destruct (_ && _); [symmetry; apply Permutation_middle|apply dim_insert_perm].
Qed.

(** ** preservation of the invariant *)
Lemma empty_kwf : kwf k_empty.
Proof. constructor; simpl; auto; try easy; constructor. Qed.

Lemma push_back_new K s : kwf K -> good s -> k_contains K s = false ->
  k_push_back K s = (Complex (by_index K ++ [s]) (dim_insert s (by_dim K)), Ok tt) /\
  kwf (Complex (by_index K ++ [s]) (dim_insert s (by_dim K))).
Proof.
  intros HK Hs Hc. unfold k_push_back. rewrite Hc, good_dimension by auto. split; auto.
  constructor; simpl.
  - intros t Ht. apply in_app_or in Ht. destruct Ht as [Ht|[<-|[]]]; auto. apply (kwf_good K HK); auto.
  - rewrite map_app. simpl. apply (Permutation_NoDup (l := verts s :: map verts (by_index K))).
    + rewrite Permutation_app_comm. auto.
    + constructor; [apply contains_false; auto|apply kwf_nodup; auto].
  - rewrite dim_insert_perm, <- (kwf_perm K HK). rewrite Permutation_app_comm. auto.
  - apply dim_insert_sorted, kwf_sorted; auto.
Qed.

Lemma push_back_dup K s : k_contains K s = true -> k_push_back K s = (K, Ok tt).
Proof. intro H. unfold k_push_back. rewrite H. auto. Qed.

Lemma push_back_kwf K s : kwf K -> wf s -> kwf (fst (k_push_back K s)).
Proof.
  intros HK Hs. destruct (k_contains K s) eqn:E; [rewrite push_back_dup; auto|].
  destruct (verts s) eqn:V.
  - unfold k_push_back. rewrite E. unfold s_dimension. rewrite V. auto.
  - destruct (push_back_new K s HK) as [-> H]; auto. split; auto. congruence.
Qed.

Lemma push_back_by_index K s : kwf K -> wf s ->
  by_index (fst (k_push_back K s)) =
  by_index K ++ if k_contains K s then [] else match verts s with [] => [] | _ => [s] end.
Proof.
  intros HK Hs. unfold k_push_back. destruct (k_contains K s); simpl; [rewrite app_nil_r; auto|].
  unfold s_dimension. destruct (verts s); simpl; auto. rewrite app_nil_r; auto.
Qed.

Lemma insert_kwf K l : kwf K -> (forall s, In s l -> wf s) -> kwf (fst (k_insert K l)).
Proof.
  revert K; induction l as [|s l IH]; intros K HK Hl; simpl; auto.
  pose proof (push_back_kwf K s HK (Hl s (or_introl eq_refl))) as H.
  destruct (k_push_back K s) as [K' [u|e| |]]; simpl in *; auto.
Qed.

Lemma upd_split {A} (l : list A) i a x :
  nth_error l i = Some x ->
  exists p q, l = p ++ x :: q /\ upd l i a = p ++ a :: q /\ length p = i.
Proof.
  revert i; induction l as [|y l IH]; intros [|i]; simpl; try discriminate.
  - intros [= ->]. exists [], l. auto.
  - intro H. destruct (IH i H) as (p & q & -> & E & L). exists (y :: p), q. simpl. rewrite E. auto.
Qed.

Lemma replace_kwf K i s : kwf K -> wf s -> kwf (fst (k_replace K i s)).
Proof.
  intros HK Hs. unfold k_replace. destruct (nth_error (by_index K) i) as [old|] eqn:E; auto.
  destruct (negb (s_eqb old s) && k_contains K s) eqn:C; auto.
  destruct (verts s) eqn:V; [unfold s_dimension; rewrite V; auto|].
  assert (Hg : good s) by (split; congruence). rewrite good_dimension by auto. simpl.
  destruct (upd_split _ i s old E) as (p & q & El & Eu & _).
  pose proof (kwf_perm K HK) as HP.
  assert (Hio : In old (by_index K)) by (eapply nth_error_In; eauto).
  assert (Hnd : NoDup (map verts (by_dim K))).
  { eapply Permutation_NoDup; [apply Permutation_map; exact HP|]. apply kwf_nodup; auto. }
  assert (Hid : In old (by_dim K)) by (eapply Permutation_in; eauto).
  constructor; simpl.
  - rewrite Eu. intros t Ht. apply in_app_or in Ht. destruct Ht as [Ht|[<-|Ht]]; auto;
      apply (kwf_good K HK); rewrite El; apply in_or_app; simpl; auto.
  - rewrite Eu. pose proof (kwf_nodup K HK) as Hn. rewrite El in Hn.
    rewrite map_app in *. simpl in *. apply NoDup_remove in Hn. destruct Hn as [Hn Hno].
    apply (Permutation_NoDup (l := verts s :: (map verts p ++ map verts q))).
    + apply Permutation_middle.
    + constructor; auto. apply andb_false_iff in C. destruct C as [C|C].
      * apply negb_false_iff, s_eqb_eq in C. rewrite <- C. auto.
      * apply contains_false in C. rewrite El, map_app in C. simpl in C.
        intro H. apply C. apply in_or_app. apply in_app_or in H. simpl. tauto.
  - destruct (dim_replace_perm old s (by_dim K) old Hid eq_refl Hnd) as (rest & P1 & P2).
    rewrite P2, Eu. rewrite <- Permutation_middle. constructor.
    assert (P3 : Permutation (old :: p ++ q) (old :: rest)).
    { rewrite Permutation_middle, <- El, HP. auto. }
    apply Permutation_cons_inv in P3. auto.
  - apply dim_replace_sorted; [apply in_map; auto|apply kwf_sorted; auto].
Qed.

Lemma filter_perm {A} (f : A -> bool) l l' : Permutation l l' -> Permutation (filter f l) (filter f l').
Proof.
  induction 1; simpl; auto.
  - destruct (f x); auto.
  - destruct (f x), (f y); auto. apply perm_swap.
  - eapply perm_trans; eauto.
Qed.

Lemma NoDup_map_filter {A B} (g : A -> B) f l : NoDup (map g l) -> NoDup (map g (filter f l)).
Proof.
  induction l as [|a l IH]; simpl; intro H; auto. inversion H; subst.
  destruct (f a); simpl; auto. constructor; auto.
  rewrite in_map_iff in *. intros (x & E & Hx). apply filter_In in Hx. apply H2. exists x. tauto.
Qed.

Lemma filter_kwf K f : kwf K -> kwf (Complex (filter f (by_index K)) (filter f (by_dim K))).
Proof.
  intro HK. constructor; simpl.
  - intros s Hs. apply filter_In in Hs. apply (kwf_good K HK). tauto.
  - apply NoDup_map_filter, kwf_nodup; auto.
  - apply filter_perm, kwf_perm; auto.
  - apply StronglySorted_filter, kwf_sorted; auto.
Qed.

Lemma remove_wv_kwf K s : kwf K -> kwf (k_remove_without_validation K s).
Proof. apply filter_kwf. Qed.

Lemma perm_kwf K l : kwf K -> Permutation l (by_index K) -> kwf (Complex l (by_dim K)).
Proof.
  intros HK HP. constructor; simpl.
  - intros s Hs. apply (kwf_good K HK). eapply Permutation_in; eauto.
  - eapply Permutation_NoDup; [symmetry; apply Permutation_map; exact HP|apply kwf_nodup; auto].
  - rewrite HP. apply kwf_perm; auto.
  - apply kwf_sorted; auto.
Qed.

Lemma sort_kwf cmp K : kwf K -> kwf (k_sort cmp K).
Proof. intro HK. apply perm_kwf; auto. apply cpp_sort_perm. Qed.

Lemma replace_at_kwf K old s : kwf K -> wf s -> kwf (k_replace_at K old s).
Proof. intros HK Hs. unfold k_replace_at. destruct (k_find K old); auto. apply replace_kwf; auto. Qed.

(** ** creation of missing faces *)
Lemma restore_face_kwf d K f : kwf K -> wf f -> kwf (restore_face d K f).
Proof. intros HK Hf. unfold restore_face. destruct (k_contains K f); auto. apply push_back_kwf; auto. Qed.

Lemma restore_kwf K s : kwf K -> wf s -> kwf (checkAndRestoreValidity K s).
Proof.
  intros HK Hs. unfold checkAndRestoreValidity.
  assert (Hb : forall f, In f (boundary s) -> wf f) by (intros; eapply boundary_wf; eauto).
  revert K HK Hb. induction (boundary s) as [|f l IH]; intros K HK Hb; simpl; auto.
  apply IH; [apply restore_face_kwf|]; simpl in *; auto.
Qed.

Lemma missing_loop_kwf fuel i K K' : kwf K -> missing_faces_loop fuel i K = Ok K' -> kwf K'.
Proof.
  revert i K. induction fuel as [|f IH]; intros i K HK; simpl;
    destruct (nth_error (by_index K) i) as [s|] eqn:E; try congruence.
  apply IH. apply restore_kwf; auto. apply (kwf_good K HK). eapply nth_error_In; eauto.
Qed.

Lemma missing_kwf K K' : kwf K -> createMissingFaces K = Ok K' -> kwf K'.
Proof. apply missing_loop_kwf. Qed.

Lemma sweep_kwf l st : kwf (fst st) -> kwf (fst (fold_left sweep_step l st)).
Proof.
  revert st; induction l as [|s l IH]; intros st HK; simpl; auto.
  apply IH. unfold sweep_step. destruct (checkValidity (fst st) s); auto.
  apply remove_wv_kwf; auto.
Qed.

Lemma sweep_loop_kwf fuel K K' : kwf K -> sweep_loop fuel K = Ok K' -> kwf K'.
Proof.
  revert K; induction fuel as [|f IH]; intros K HK; simpl; [discriminate|].
  pose proof (sweep_kwf (by_index K) (K, false) HK) as H. unfold sweep.
  destruct (fold_left sweep_step (by_index K) (K, false)) as [K1 [|]]; simpl in *; eauto. congruence.
Qed.

Lemma remove_kwf K s K' : kwf K -> k_remove K s = Ok K' -> kwf K'.
Proof. intros HK. apply sweep_loop_kwf, remove_wv_kwf; auto. Qed.

Lemma recalc_kwf lo hi um sk K : kwf K -> kwf (recalculateWeights lo hi um sk K).
Proof.
  intro HK. unfold recalculateWeights.
  assert (Hb : forall s, In s (by_dim K) -> wf s).
  { intros s Hs. apply (kwf_good K HK). eapply Permutation_in; [symmetry; apply kwf_perm|]; auto. }
  revert Hb HK. generalize (by_dim K). intros l. revert K.
  induction l as [|s l IH]; intros K Hb HK; simpl; auto.
  apply IH; [simpl in *; auto|]. unfold recalculate_step. destruct (_ || _); auto.
  apply replace_at_kwf; auto. exact (Hb s (or_introl eq_refl)).
Qed.

Lemma reset_kwf hi K : kwf K -> kwf (reset_weights hi K).
Proof.
  intro HK. unfold reset_weights.
  assert (Hb : forall s, In s (by_index K) -> wf s) by (intros s Hs; apply (kwf_good K HK); auto).
  revert Hb HK. generalize (by_index K). intros l. revert K.
  induction l as [|s l IH]; intros K Hb HK; simpl; auto.
  apply IH; [simpl in *; auto|]. apply replace_at_kwf; auto. exact (Hb s (or_introl eq_refl)).
Qed.

Lemma assign_kwf w l K : kwf K -> (forall s, In s l -> wf s) ->
  kwf (fst (assign_vertex_weights w l K)).
Proof.
  revert K; induction l as [|s l IH]; intros K HK Hl; simpl; auto.
  destruct (sdim s =? 0); auto. destruct (verts s); auto.
  destruct (at_ w n); simpl; auto. apply IH; [|simpl in *; auto].
  apply replace_at_kwf; auto. exact (Hl s (or_introl eq_refl)).
Qed.

Lemma recalc_range_kwf lo hi w K : kwf K -> kwf (fst (recalculateWeights_range lo hi w K)).
Proof.
  intro HK. unfold recalculateWeights_range.
  pose proof (reset_kwf hi K HK) as H1.
  pose proof (assign_kwf w (by_dim (reset_weights hi K)) (reset_weights hi K) H1) as H2.
  destruct (assign_vertex_weights w (by_dim (reset_weights hi K)) (reset_weights hi K)) as [K2 r] eqn:E.
  simpl in H2. assert (H3 : kwf K2).
  { apply H2. intros s Hs. apply (kwf_good _ H1). eapply Permutation_in; [symmetry; apply kwf_perm|]; auto. }
  destruct r; simpl; auto. apply recalc_kwf; auto.
Qed.

(** ** queries *)
Lemma drop_until_sorted d l : StronglySorted dim_le l ->
  take_while (fun s => sdim s <=? d) (drop_until (fun s => d <=? sdim s) l) = filter (fun s => sdim s =? d) l.
Proof.
  induction 1 as [|s l Hl IH Hs]; simpl; auto.
  destruct (Nat.leb_spec d (sdim s)) as [H|H].
  - simpl. destruct (Nat.leb_spec (sdim s) d) as [H'|H'].
    + assert (sdim s = d) by lia. rewrite (proj2 (Nat.eqb_eq _ _) H0). f_equal.
      rewrite <- IH. clear IH. destruct l as [|t l]; auto. simpl.
      rewrite Forall_forall in Hs. specialize (Hs t (or_introl eq_refl)). unfold dim_le in Hs.
      destruct (Nat.leb_spec d (sdim t)); [auto|lia].
    + destruct (Nat.eqb_spec (sdim s) d); [lia|]. symmetry.
      clear IH. induction l as [|t l IHl]; auto. simpl.
      inversion Hl; inversion Hs; subst. unfold dim_le in *.
      destruct (Nat.eqb_spec (sdim t) d); [lia|]. auto.
  - rewrite IH. destruct (Nat.eqb_spec (sdim s) d); [lia|auto].
Qed.

Lemma range_filter K d : kwf K -> k_range K d = filter (fun s => sdim s =? d) (by_dim K).
Proof. intro HK. apply drop_until_sorted, kwf_sorted; auto. Qed.

Lemma last_dim_max l s : StronglySorted dim_le l -> last_opt l = Some s ->
  forall t, In t l -> sdim t <= sdim s.
Proof.
  intros Hs Hl t Ht. destruct (last_opt_split _ _ Hl) as (l' & ->).
  apply StronglySorted_app in Hs. destruct Hs as (_ & _ & H).
  apply in_app_or in Ht. destruct Ht as [Ht|[<-|[]]]; auto. apply (H t s); simpl; auto.
Qed.
