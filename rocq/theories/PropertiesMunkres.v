(** * C34: the assignment solver returns an optimal assignment. *)
From Coq Require Import List Arith Bool ZArith Lia Permutation.
From Verif Require Import Base BaseFacts Munkres MunkresFacts.
Import ListNotations.

(** ** specification *)

(** an assignment lists the column of every row; every column occurs once *)
Definition assignment (n : nat) (a : list nat) : Prop := Permutation a (seq 0 n).
Definition assignment_cost (C : nat -> nat -> Z) (a : list nat) : Z :=
  fold_right Z.add 0%Z (map (fun p => C (fst p) (snd p)) (combine (seq 0 (length a)) a)).
Definition optimal (n : nat) (C : nat -> nat -> Z) (a : list nat) : Prop :=
  assignment n a /\ forall b, assignment n b -> (assignment_cost C a <= assignment_cost C b)%Z.

(** ** proofs *)
Lemma assignment_length n a : assignment n a -> length a = n.
Proof. intro H. apply Permutation_length in H. rewrite seq_length in H. exact H. Qed.

Lemma cost_zsum C a : assignment_cost C a = zsum (fun p => C (fst p) (snd p)) (combine (seq 0 (length a)) a).
Proof. unfold assignment_cost. induction (combine _ a) as [|p l IH]; cbn; unfold zsum in *; congruence. Qed.

Lemma combine_fst {A B} (a : list A) (b : list B) : length a = length b -> map fst (combine a b) = a.
Proof. revert b. induction a as [|x a IH]; intros [|y b] H; try easy. cbn. f_equal. apply IH. simpl in H. lia. Qed.
Lemma combine_snd {A B} (a : list A) (b : list B) : length a = length b -> map snd (combine a b) = b.
Proof. revert b. induction a as [|x a IH]; intros [|y b] H; try easy. cbn. f_equal. apply IH. simpl in H. lia. Qed.
Lemma combine_map {A B} (f : A -> B) l : combine l (map f l) = map (fun x => (x, f x)) l.
Proof. induction l; cbn; congruence. Qed.

Lemma dual_cost n C (m : nat -> nat -> Z) u v a : assignment n a -> (forall r c, r < n -> c < n -> m r c = (C r c - u r - v c)%Z) ->
  assignment_cost C a = (zsum (fun p => m (fst p) (snd p)) (combine (seq 0 n) a) + zsum u (seq 0 n) + zsum v (seq 0 n))%Z.
Proof.
  intros Ha Hm. assert (L := assignment_length n a Ha). rewrite cost_zsum, L. set (l := combine (seq 0 n) a).
  assert (E : zsum (fun p => C (fst p) (snd p)) l = zsum (fun p => (m (fst p) (snd p) + (u (fst p) + v (snd p)))%Z) l).
  { apply zsum_ext. intros [r c] Hp. unfold l in Hp. assert (H1 := in_combine_l _ _ _ _ Hp). assert (H2 := in_combine_r _ _ _ _ Hp). apply in_seq in H1.
    apply (Permutation_in _ Ha) in H2. apply in_seq in H2. cbn. rewrite Hm by lia. lia. }
  rewrite E, zsum_plus, zsum_plus. rewrite <- (zsum_map u fst l), <- (zsum_map v snd l). unfold l. rewrite combine_fst, combine_snd by (rewrite seq_length; auto).
  rewrite (zsum_perm v a _ Ha). lia.
Qed.

Lemma flat_single {A} (b : nat -> bool) (h : nat -> A) n c : c < n -> (forall x, x < n -> b x = true <-> x = c) ->
  flat_map (fun x => if b x then [h x] else []) (seq 0 n) = [h c].
Proof.
  intros Hc Hb. assert (G : forall k s, s <= c < s + k -> s + k <= n -> flat_map (fun x => if b x then [h x] else []) (seq s k) = [h c]).
  { assert (N : forall k s, (c < s \/ s + k <= c) -> s + k <= n -> flat_map (fun x => if b x then [h x] else []) (seq s k) = []).
    { induction k as [|k IH]; intros s H1 H2; [reflexivity|]. cbn. rewrite IH by lia. destruct (b s) eqn:E; [apply Hb in E; lia|reflexivity]. }
    induction k as [|k IH]; intros s H1 H2; [lia|]. cbn. destruct (Nat.eq_dec s c) as [->|Hne].
    - rewrite (proj2 (Hb c Hc) eq_refl). rewrite N by lia. reflexivity.
    - destruct (b s) eqn:E; [apply Hb in E; lia|]. apply IH; lia. }
  apply (G n 0); lia.
Qed.

(** For every square matrix (exact arithmetic) the solver terminates; the zeros of
    the matrix it returns are an assignment of minimal cost, reported by [matching]
    and summed up by [cost]. *)
Theorem C34_optimal : forall top n C, (0 < top)%Z -> exists a fuel0, optimal n C a /\
  forall fuel, fuel0 <= fuel -> exists M, munkres top n fuel C = Ok M /\
    matching n M = combine (seq 0 n) a /\ munkres_cost top n M C n = assignment_cost C a.
Proof.
  intros top n C Ht. destruct (loop_total top n Ht C) as (fuel0 & s & Hl & Hi & Hc).
  assert (Hrow : forall r, r < n -> exists c, m_stars s r c = true).
  { intros r Hr. assert (E : filter (fun r => existsb (m_stars s r) (indices n)) (indices n) = indices n).
    { assert (G : forall (f : nat -> bool) l, length l <= length (filter f l) -> filter f l = l).
      { clear. intros f l. assert (L := filter_le f). induction l as [|x l IH]; [reflexivity|]. cbn. specialize (L l). destruct (f x); cbn; intro H; [f_equal; apply IH; lia|lia]. }
      apply G. unfold count in Hc. unfold indices at 1. rewrite seq_length. exact Hc. }
    assert (H : In r (filter (fun r => existsb (m_stars s r) (indices n)) (indices n))) by (rewrite E; apply in_indices; auto).
    apply filter_In in H as [_ H]. apply existsb_exists in H as (c & _ & H). eauto. }
  set (sg := fun r => match find (m_stars s r) (indices n) with Some c => c | None => 0 end).
  assert (Hsg : forall r, r < n -> m_stars s r (sg r) = true /\ sg r < n).
  { intros r Hr. destruct (Hrow r Hr) as (c & H). unfold sg. destruct (find (m_stars s r) (indices n)) as [x|] eqn:F.
    - apply find_some in F as [F1 F2]. split; [exact F2|apply in_indices in F1; exact F1].
    - apply find_none with (x := c) in F; [congruence|]. apply in_indices. apply (i_star n C s Hi r c H). }
  set (a := map sg (seq 0 n)). assert (Ha : assignment n a).
  { apply NoDup_Permutation_bis.
    - apply NoDup_map_inj; [|apply seq_NoDup]. intros x y Hx Hy E. apply in_seq in Hx. apply in_seq in Hy. destruct (Hsg x ltac:(lia)) as [A _]. destruct (Hsg y ltac:(lia)) as [B _]. rewrite E in A. eapply (i_col n C s Hi); eauto.
    - unfold a. rewrite map_length, !seq_length. lia.
    - intros c H. apply in_map_iff in H as (r & <- & H). apply in_seq in H. apply in_seq. destruct (Hsg r ltac:(lia)). lia. }
  exists a, fuel0. destruct (i_dual n C s Hi) as (u & v & D). split; [split; [exact Ha|]|].
  - intros b Hb. rewrite (dual_cost n C _ u v a Ha D), (dual_cost n C _ u v b Hb D).
    assert (Z0 : zsum (fun p => m_mat s (fst p) (snd p)) (combine (seq 0 n) a) = 0%Z).
    { unfold a. rewrite combine_map, zsum_map. cbn. assert (G : forall l, (forall r, In r l -> r < n) -> zsum (fun x => m_mat s x (sg x)) l = 0%Z).
      { induction l as [|r l IH]; intro H; [reflexivity|]. cbn. destruct (Hsg r (H r (or_introl eq_refl))) as [A _]. destruct (i_star n C s Hi r (sg r) A) as (_ & _ & E). rewrite E.
        assert (zsum (fun x => m_mat s x (sg x)) l = 0%Z) by (apply IH; intros; apply H; simpl; auto). unfold zsum in *. lia. }
      apply G. intros r H. apply in_seq in H. lia. }
    assert (Z1 : (0 <= zsum (fun p => m_mat s (fst p) (snd p)) (combine (seq 0 n) b))%Z).
    { apply zsum_nonneg. intros [r c] Hp. assert (H1 := in_combine_l _ _ _ _ Hp). assert (H2 := in_combine_r _ _ _ _ Hp). apply in_seq in H1. apply (Permutation_in _ Hb) in H2. apply in_seq in H2. cbn; apply (i_nonneg n C s Hi); lia. }
    lia.
  - intros fuel Hf. unfold munkres. rewrite (loop_mono top n fuel0 fuel 1 0 0 _ s Hl Hf). cbn [bind]. eexists. split; [reflexivity|].
    assert (Hz : forall r x, r < n -> x < n -> ((if m_stars s r x then 0%Z else top) =? 0)%Z = true <-> x = sg r).
    { intros r x Hr Hx. destruct (Hsg r Hr) as [A _]. destruct (m_stars s r x) eqn:E.
      - split; [intros _; eapply (i_row n C s Hi); eauto|reflexivity].
      - split; [intro H; apply Z.eqb_eq in H; lia|]. intros ->. congruence. }
    split.
    + unfold matching, a. rewrite combine_map. fold (indices n). assert (G : forall l, (forall r, In r l -> r < n) ->
        flat_map (fun row => flat_map (fun col => if ((if m_stars s row col then 0%Z else top) =? 0)%Z then [(row, col)] else []) (indices n)) l = map (fun x => (x, sg x)) l).
      { induction l as [|r l IH]; intro H; [reflexivity|]. cbn [flat_map map]. assert (Hr := H r (or_introl eq_refl)).
        unfold indices at 1. rewrite (flat_single (fun col => ((if m_stars s r col then 0%Z else top) =? 0)%Z) (fun col => (r, col)) n (sg r) (proj2 (Hsg r Hr)) (fun x Hx => Hz r x Hr Hx)). cbn [app]. f_equal. apply IH. intros; apply H; simpl; auto. }
      apply G. intros r Hr. apply in_indices in Hr. exact Hr.
    + unfold munkres_cost. rewrite Nat.eqb_refl. rewrite cost_zsum. unfold a. rewrite map_length, seq_length, combine_map, zsum_map. cbn [fst snd].
      assert (G : forall l, (forall r, In r l -> r < n) ->
        flat_map (fun row => flat_map (fun col => if ((if m_stars s row col then 0%Z else top) =? 0)%Z then [C row col] else []) (indices n)) l = map (fun x => C x (sg x)) l).
      { induction l as [|r l IH]; intro H; [reflexivity|]. cbn [flat_map map]. assert (Hr := H r (or_introl eq_refl)).
        unfold indices at 1. rewrite (flat_single (fun col => ((if m_stars s r col then 0%Z else top) =? 0)%Z) (fun col => C r col) n (sg r) (proj2 (Hsg r Hr)) (fun x Hx => Hz r x Hr Hx)). cbn [app]. f_equal. apply IH. intros; apply H; simpl; auto. }
      rewrite G by (intros r Hr; apply in_indices in Hr; exact Hr). unfold indices. generalize (seq 0 n). clear. intro l.
      assert (F : forall l z, fold_left Z.add (map (fun x => C x (sg x)) l) z = (z + zsum (fun x => C x (sg x)) l)%Z); [|apply F].
      { induction l0 as [|x l0 IH]; intro z; cbn; [lia|]. rewrite IH. unfold zsum. lia. }
Qed.

(** A cost matrix of another size is answered by [max()]. *)
Theorem C34_size : forall top n M C n', n <> n' -> munkres_cost top n M C n' = top.
Proof. intros top n M C n' H. unfold munkres_cost. destruct (Nat.eqb_spec n n'); [easy|reflexivity]. Qed.

Definition rows_matrix (l : list (list Z)) : nat -> nat -> Z := fun r c => nth c (nth r l []) 0%Z.

(** three rows that compete for the first columns: steps 3, 4 and 5 are all used *)
Example C34_example : let C := rows_matrix [[1; 2; 3]; [2; 4; 6]; [3; 6; 9]]%Z in
  match munkres 1000 3 40 C with Ok M => matching 3 M = [(0, 2); (1, 1); (2, 0)] /\ munkres_cost 1000 3 M C 3 = 10%Z | _ => False end.
Proof. vm_compute. split; reflexivity. Qed.

Print Assumptions C34_optimal.
Print Assumptions C34_size.
