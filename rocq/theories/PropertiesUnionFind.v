(** * Property C21: union-find maintains classes. *)
From Coq Require Import List Arith Bool Lia Permutation Relations.
From Verif Require Import Base UnionFind SpecUnionFind UnionFindFacts.
Import ListNotations.

(** all vertices mentioned by an operation are known *)
Definition mentions (o : uf_op) : list nat :=
  match o with UMerge u v => [u; v] | UFind u => [u] | UGet v => [v] | URoots => [] | UContains _ => [] end.

(** the pairs that have been merged *)
Fixpoint merged_pairs (h : list uf_op) : list (nat * nat) :=
  match h with
  | [] => []
  | UMerge u v :: h' => (u, v) :: merged_pairs h'
  | _ :: h' => merged_pairs h'
  end.

Lemma merged_pairs_merges h : merged_pairs h = merges h.
Proof. induction h as [|[] h IH]; simpl; auto. f_equal; auto. Qed.

Lemma known_ops V h : (forall o v, In o h -> In v (mentions o) -> In v V) -> forall o, In o h -> op_known V o.
Proof.
  intros H o Ho. specialize (H o). destruct o; simpl in *; auto; try (apply H; auto).
Qed.

(** Whatever has been done to the structure, it represents the classes of the
    relation generated by the merges, each by one of its members. *)
Theorem C21_classes : forall V h,
  (forall o v, In o h -> In v (mentions o) -> In v V) ->
  exists m rep, uf_run V h = Ok m /\
    (forall u v, In u V -> In v V -> (rep u = rep v <-> connected (merged_pairs h) u v)) /\
    (forall u, In u V -> In (rep u) V /\ rep (rep u) = rep u) /\
    (* find *)
    (forall u, In u V -> exists m', uf_find m u = Ok (m', rep u)) /\
    (forall u, ~ In u V -> uf_find m u = Throw OutOfRange) /\
    (* contains *)
    (forall u, uf_contains m u = true <-> In u V) /\
    (* roots and get, whatever the order of iteration of hash containers *)
    (forall order, (forall l, Permutation (order l) l) ->
       exists m' l, uf_roots order m = Ok (m', l) /\ NoDup l /\
         forall u, In u l <-> In u V /\ rep u = u) /\
    (forall order v, (forall l, Permutation (order l) l) -> In v V ->
       exists m' l, uf_get order m v = Ok (m', l) /\ NoDup l /\
         forall u, In u l <-> In u V /\ connected (merged_pairs h) u v).
Proof.
  intros V h Hh. destruct (run_inv V h (known_ops V h Hh)) as (m & L & E & Hi).
  exists m, (rep_run h). rewrite merged_pairs_merges.
  refine (conj E (conj _ (conj _ (conj _ (conj _ (conj _ (conj _ _))))))).
  - intros u v _ _. apply rep_iff.
  - intros u Hu. destruct (inv_rep _ _ _ _ Hi u Hu) as [A B]. split; auto.
    apply (inv_root _ _ _ _ Hi); auto.
  - intros u Hu. destruct (find_spec V m L _ u Hi Hu) as (m' & E' & _). eauto.
  - intros u Hu. apply (find_unknown V m L (rep_run h)); auto.
  - intro u. unfold uf_contains. destruct (parent_of m u) eqn:P.
    + split; auto. intros _. apply (inv_keys _ _ _ _ Hi).
      destruct (in_dec Nat.eq_dec u (map fst m)) as [H|H]; auto. apply parent_of_none in H. congruence.
    + split; [discriminate|]. intro H. apply parent_of_none in P. elim P. apply (inv_keys _ _ _ _ Hi); auto.
  - intros order Ho. destruct (roots_spec V order m L _ Hi) as (m' & E' & _). eexists _, _. split; [exact E'|].
    split.
    + eapply Permutation_NoDup; [apply Permutation_sym, Ho|]. apply NoDup_filter, (inv_nodup _ _ _ _ Hi).
    + intro u. split.
      * intro H. apply (Permutation_in u (Ho _)), filter_In in H. destruct H as [H1 H2].
        split; [apply (inv_keys _ _ _ _ Hi); auto|]. apply Nat.eqb_eq; auto.
      * intros [H1 H2]. apply (Permutation_in u (Permutation_sym (Ho _))), filter_In.
        split; [apply (inv_keys _ _ _ _ Hi); auto|]. apply Nat.eqb_eq; auto.
  - intros order v Ho Hv. destruct (get_spec V order m L _ v Hi Hv) as (m' & l & E' & Hn & Hl & _).
    eexists _, _. split; [exact E'|]. split.
    + eapply Permutation_NoDup; [apply Permutation_sym, Ho|]. apply NoDup_filter; auto.
    + intro u. rewrite <- rep_iff. split.
      * intro H. apply (Permutation_in u (Ho _)), filter_In in H. destruct H as [H1 H2].
        split; [apply Hl; auto|]. apply Nat.eqb_eq; auto.
      * intros [H1 H2]. apply (Permutation_in u (Permutation_sym (Ho _))), filter_In.
        split; [apply Hl; auto|]. apply Nat.eqb_eq; auto.
Qed.

(** What the operations do to the representatives: only [merge] changes them,
    and only those of the first class, which become the one of the second. *)
Theorem C21_merge_directional : forall V h o m m',
  (forall o' v, In o' (h ++ [o]) -> In v (mentions o') -> In v V) ->
  uf_run V h = Ok m -> uf_run V (h ++ [o]) = Ok m' ->
  forall w n n' r r', In w V -> uf_find m w = Ok (n, r) -> uf_find m' w = Ok (n', r') ->
    match o with
    | UMerge u v => forall nu nv ru rv, uf_find m u = Ok (nu, ru) -> uf_find m v = Ok (nv, rv) ->
                      r' = if r =? ru then rv else r
    | _ => r' = r
    end.
Proof.
  intros V h o m m' Hk E E' w n n' r r' Hw Er Er'.
  destruct (run_inv V h) as (m0 & L & E0 & Hi).
  { apply known_ops. intros o' v Ho. apply Hk. apply in_app_iff; auto. }
  destruct (run_inv V (h ++ [o])) as (m1 & L1 & E1 & Hi1); [apply known_ops; auto|].
  assert (m0 = m) by congruence. assert (m1 = m') by congruence. subst.
  assert (F : forall u n r, In u V -> uf_find m u = Ok (n, r) -> r = rep_run h u).
  { intros u n0 r0 Hu Eu. destruct (find_spec V m L _ u Hi Hu) as (x & Ex & _). congruence. }
  destruct (find_spec V m' L1 _ w Hi1 Hw) as (x & Ex & _).
  assert (Hr' : r' = rep_run (h ++ [o]) w) by congruence.
  unfold rep_run in Hr'. rewrite fold_left_app in Hr'. simpl in Hr'. fold (rep_run h) in Hr'.
  pose proof (F w n r Hw Er) as Hr. subst r.
  destruct o as [u v|u| |v|u]; simpl in Hr'; auto.
  intros nu nv ru rv Hu Hv.
  assert (In u V /\ In v V) as [HuV HvV].
  { split; apply (Hk (UMerge u v)); simpl; auto; apply in_app_iff; simpl; auto. }
  rewrite (F u nu ru HuV Hu), (F v nv rv HvV Hv). exact Hr'.
Qed.

(** Merging an unknown vertex ends the program: [merge] is [noexcept]. *)
Theorem C21_merge_unknown : forall V h m u v,
  (forall o v, In o h -> In v (mentions o) -> In v V) -> uf_run V h = Ok m ->
  u <> v -> ~ (In u V /\ In v V) -> uf_merge m u v = Throw Terminated.
Proof.
  intros V h m u v Hh E Hne H. destruct (run_inv V h (known_ops V h Hh)) as (m0 & L & E0 & Hi).
  assert (m0 = m) by congruence. subst. eapply merge_unknown; eauto.
Qed.

Example C21_example :
  exists m, uf_run [0;1;2;3;4] [UMerge 0 1; UMerge 1 2; UFind 0; UMerge 4 3; URoots; UMerge 3 0] = Ok m /\
    (let* (_, r) := uf_find m 4 in Ok r) = Ok 2 /\ (let* (_, r) := uf_find m 0 in Ok r) = Ok 2 /\
    (let* (_, l) := uf_roots (@rev nat) m in Ok l) = Ok [2] /\
    (let* (_, l) := uf_get (@rev nat) m 1 in Ok l) = Ok [4;3;2;1;0] /\
    uf_find m 9 = Throw OutOfRange /\ uf_merge m 9 1 = Throw Terminated.
Proof. eexists. repeat split. Qed.

Print Assumptions C21_classes.
Print Assumptions C21_merge_directional.
Print Assumptions C21_merge_unknown.
