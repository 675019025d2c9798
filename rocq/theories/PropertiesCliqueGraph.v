(** * C49: clique graphs. *)
From Coq Require Import List Arith Bool ZArith Lia Permutation Sorted.
From Verif Require Import Base BaseFacts Simplex SimplexFacts SpecComplex Complex ComplexFacts ClosureFacts WeightFacts
  PairingFacts DualFacts History Subcomplex SubcomplexFacts PropertiesComplex FloydFacts Quotient PropertiesQuotient CliqueGraph.
Import ListNotations.

(** ** ordered maps *)
Definition key_lt {A} (p q : simplex * A) : Prop := s_ltb (fst p) (fst q) = true.
Definition mlookup {A} (k : simplex) (m : list (simplex * A)) : option A :=
  option_map snd (find (fun p => s_eqb k (fst p)) m).

Lemma ltb_eqb_false s t : s_ltb s t = true -> s_eqb s t = false.
Proof. intro H. apply s_eqb_neq. intro E. unfold s_ltb in H. rewrite E, lex_irrefl in H. discriminate. Qed.
Lemma eqb_of_not_lt s t : s_ltb s t = false -> s_ltb t s = false -> s_eqb s t = true.
Proof. intros H1 H2. apply s_eqb_eq. unfold s_ltb in *. destruct (lex_total (verts s) (verts t)) as [H|[H|H]]; congruence. Qed.
Lemma ltb_trans s t u : s_ltb s t = true -> s_ltb t u = true -> s_ltb s u = true.
Proof. apply lex_trans. Qed.
Lemma ltb_asym s t : s_ltb s t = true -> s_ltb t s = false.
Proof. apply lex_asym. Qed.
Lemma ltb_eqb_l s t u : s_eqb s t = true -> s_ltb s u = s_ltb t u.
Proof. intro E. apply s_eqb_eq in E. unfold s_ltb. rewrite E. auto. Qed.
Lemma ltb_eqb_r s t u : s_eqb s t = true -> s_ltb u s = s_ltb u t.
Proof. intro E. apply s_eqb_eq in E. unfold s_ltb. rewrite E. auto. Qed.
Lemma eqb_eqb_l s t u : s_eqb s t = true -> s_eqb s u = s_eqb t u.
Proof. intro E. apply s_eqb_eq in E. unfold s_eqb. rewrite E. auto. Qed.

Section OrderedMap.
  Context {A : Type} (d : A) (g : A -> A) (key : simplex).

  Lemma map_update_keys m p : In p (map_update d g key m) ->
    s_eqb key (fst p) = true \/ exists a, In (fst p, a) m.
  Proof.
    induction m as [|[k a] r IH]; cbn [map_update].
    - intros [<-|[]]. left. apply s_eqb_refl.
    - destruct (s_ltb key k) eqn:E1; [|destruct (s_ltb k key) eqn:E2].
      + intros [<-|H]; [left; apply s_eqb_refl|]. right. exists (snd p). destruct p; auto.
      + intros [<-|H]; [right; exists a; simpl; auto|]. destruct (IH H) as [H'|(b & Hb)]; auto. right. exists b. simpl; auto.
      + intros [<-|H]; [right; exists a; simpl; auto|]. right. exists (snd p). destruct p; simpl; auto.
  Qed.

  Lemma map_update_sorted (m : list (simplex * A)) : StronglySorted key_lt m -> StronglySorted key_lt (map_update d g key m).
  Proof.
    induction 1 as [|[k a] r H IH F]; cbn [map_update]; [repeat constructor|]. rewrite Forall_forall in F.
    destruct (s_ltb key k) eqn:E1; [|destruct (s_ltb k key) eqn:E2].
    - apply SSorted_cons; [apply SSorted_cons; auto; apply Forall_forall; auto|]. constructor; [exact E1|].
      apply Forall_forall. intros p Hp. eapply ltb_trans; [exact E1|]. apply (F p Hp).
    - apply SSorted_cons; auto. apply Forall_forall. intros p Hp. apply map_update_keys in Hp. unfold key_lt. cbn [fst].
      destruct Hp as [E|(b & Hb)]; [rewrite <- (ltb_eqb_r key (fst p)); auto|apply (F _ Hb)].
    - apply SSorted_cons; auto. apply Forall_forall. exact F.
  Qed.

  Lemma mlookup_later (m : list (simplex * A)) k : (forall p, In p m -> s_ltb k (fst p) = true) -> mlookup k m = None.
  Proof.
    intro H. unfold mlookup. destruct (find _ m) as [p|] eqn:E; auto. apply find_some in E. destruct E as [Hp E].
    rewrite (ltb_eqb_false _ _ (H p Hp)) in E. discriminate.
  Qed.

  Lemma map_update_lookup (m : list (simplex * A)) k : StronglySorted key_lt m -> mlookup k (map_update d g key m) =
    if s_eqb k key then Some (g match mlookup key m with Some a => a | None => d end) else mlookup k m.
  Proof.
    induction 1 as [|[k0 a] r H IH F]; cbn [map_update].
    - unfold mlookup. simpl. destruct (s_eqb k key); auto.
    - rewrite Forall_forall in F. destruct (s_ltb key k0) eqn:E1; [|destruct (s_ltb k0 key) eqn:E2].
      + rewrite (mlookup_later ((k0, a) :: r) key).
        * unfold mlookup at 1. cbn [find fst]. destruct (s_eqb k key); auto.
        * intros p [<-|Hp]; auto. eapply ltb_trans; [exact E1|apply (F p Hp)].
      + assert (En : s_eqb key k0 = false) by (rewrite s_eqb_sym; apply ltb_eqb_false; auto).
        unfold mlookup. cbn [find fst]. rewrite En. destruct (s_eqb k k0) eqn:Ek.
        * destruct (s_eqb k key) eqn:Ek2; auto. rewrite s_eqb_sym in Ek2. rewrite (eqb_eqb_l _ _ k0 Ek2) in En. congruence.
        * apply IH.
      + pose proof (eqb_of_not_lt _ _ E1 E2) as Ekk. unfold mlookup. cbn [find fst]. rewrite Ekk.
        destruct (s_eqb k k0) eqn:Ek, (s_eqb k key) eqn:Ek2; auto; exfalso.
        * rewrite s_eqb_sym in Ek. rewrite (s_eqb_sym k key) in Ek2. rewrite (eqb_eqb_l _ _ k Ekk) in Ek2. congruence.
        * rewrite (eqb_eqb_l _ _ k0 Ek2) in Ek. congruence.
  Qed.

  Lemma map_update_fresh (m : list (simplex * A)) : (forall p, In p m -> s_eqb key (fst p) = false) -> Permutation (map_update d g key m) ((key, g d) :: m).
  Proof.
    induction m as [|[k a] r IH]; intro Hf; cbn [map_update]; auto.
    destruct (s_ltb key k) eqn:E1; auto. destruct (s_ltb k key) eqn:E2.
    - rewrite IH by (intros; apply Hf; simpl; auto). apply perm_swap.
    - exfalso. specialize (Hf (k, a) ltac:(simpl; auto)). simpl in Hf. rewrite (eqb_of_not_lt _ _ E1 E2) in Hf. discriminate.
  Qed.

  Lemma mlookup_In (m : list (simplex * A)) k a : StronglySorted key_lt m -> In (k, a) m -> mlookup k m = Some a.
  Proof.
    induction 1 as [|[k0 b] r H IH F]; [easy|]. rewrite Forall_forall in F. intros [E|Hin].
    - injection E as -> ->. unfold mlookup. cbn [find fst]. rewrite s_eqb_refl. auto.
    - unfold mlookup. cbn [find fst]. specialize (F _ Hin). unfold key_lt in F. cbn [fst] in F.
      rewrite s_eqb_sym, (ltb_eqb_false _ _ F). apply IH; auto.
  Qed.
  Lemma mlookup_some (m : list (simplex * A)) k a : mlookup k m = Some a -> exists k', In (k', a) m /\ verts k' = verts k.
  Proof.
    unfold mlookup. destruct (find _ m) as [[k' b]|] eqn:E; [|discriminate]. intros [= ->]. apply find_some in E. destruct E as [Hi E].
    apply s_eqb_eq in E. exists k'. auto.
  Qed.
End OrderedMap.

(** ** the map of simplices *)
Lemma simplexMap_spec K k : kwf K -> exists m, cg_simplexMap K k = Ok m /\ StronglySorted key_lt m /\
  forall s i, In (s, i) m <-> nth_error (by_index K) i = Some s /\ length (verts s) = S k.
Proof.
  intro HK. unfold cg_simplexMap.
  assert (Hix : forall s, In s (by_index K) -> exists i, k_index K s = Ok i /\ nth_error (by_index K) i = Some s).
  { intros s Hs. unfold k_index, k_find. destruct (position (s_eqb s) (by_index K)) as [i|] eqn:E.
    - exists i. split; auto. apply position_some in E. destruct E as (t & Ht & E & _). apply s_eqb_eq in E. rewrite Ht. f_equal.
      symmetry. apply (nodup_verts_eq K); auto. eapply nth_error_In; eauto.
    - rewrite position_none in E. specialize (E s Hs). rewrite s_eqb_refl in E. discriminate. }
  assert (G : forall l m, (forall s, In s l -> In s (by_index K)) -> NoDup (map verts l) ->
    (forall s p, In s l -> In p m -> verts s <> verts (fst p)) -> StronglySorted key_lt m ->
    exists m', foldM (fun m s => let* i := k_index K s in Ok (map_update 0 (fun _ => i) s m)) l m = Ok m' /\ StronglySorted key_lt m' /\
      forall s i, In (s, i) m' <-> In (s, i) m \/ In s l /\ nth_error (by_index K) i = Some s).
  { induction l as [|s l IH]; intros m Hl Hn Hf HS; cbn [foldM].
    - exists m. refine (conj eq_refl (conj HS _)). intros. simpl. tauto.
    - destruct (Hix s ltac:(apply Hl; simpl; auto)) as (i & Ei & Hi). rewrite Ei. cbn [bind]. simpl in Hn. inversion Hn; subst.
      assert (P : Permutation (map_update 0 (fun _ => i) s m) ((s, i) :: m)).
      { apply (map_update_fresh 0 (fun _ => i)). intros p Hp. apply s_eqb_neq. apply Hf; simpl; auto. }
      destruct (IH (map_update 0 (fun _ => i) s m)) as (m' & E & H1' & H2').
      + intros; apply Hl; simpl; auto.
      + auto.
      + intros t p Ht Hp. apply (Permutation_in _ P) in Hp. destruct Hp as [<-|Hp]; [|apply Hf; simpl; auto].
        cbn [fst]. intro E. apply H1. rewrite <- E. apply in_map; auto.
      + apply map_update_sorted; auto.
      + exists m'. refine (conj E (conj H1' _)). intros t j. rewrite H2'. split.
        * intros [H|H]; [|simpl; tauto]. apply (Permutation_in _ P) in H. destruct H as [[= <- <-]|H]; auto. right. simpl. auto.
        * intros [H|[[<-|H] Hj]]; [|left|auto].
          -- left. apply (Permutation_in _ (Permutation_sym P)). simpl. auto.
          -- apply (Permutation_in _ (Permutation_sym P)). left. f_equal. eapply nth_error_verts_inj; eauto. }
  destruct (G (k_range K k) []) as (m & E & H1 & H2).
  - intros s Hs. apply range_In in Hs; auto. tauto.
  - rewrite range_filter by auto. apply NoDup_map_filter, dim_nodup; auto.
  - intros s p _ [].
  - constructor.
  - exists m. refine (conj E (conj H1 _)). intros s i. rewrite H2, range_In by auto. cbn [In]. split.
    + intros [[]|[[A B] C]]. auto.
    + intros [A B]. right. refine (conj (conj _ B) A). eapply nth_error_In; eauto.
Qed.

(** ** the map of cofaces *)
Definition cof (m : list (simplex * nat)) (f : simplex) : list nat :=
  map snd (filter (fun p => existsb (s_eqb f) (boundary (fst p))) m).

Lemma push_faces (i : nat) bs (c : list (simplex * list nat)) : NoDup (map verts bs) -> StronglySorted key_lt c ->
  let c' := fold_left (fun c face => map_update [] (fun l => l ++ [i]) face c) bs c in
  StronglySorted key_lt c' /\ forall f, mlookup f c' =
    if existsb (s_eqb f) bs then Some (match mlookup f c with Some l => l | None => [] end ++ [i]) else mlookup f c.
Proof.
  revert c. induction bs as [|b bs IH]; intros c Hn Hc; cbn [fold_left]; [auto|].
  simpl in Hn. inversion Hn; subst. destruct (IH (map_update [] (fun l : list nat => l ++ [i]) b c) H2 (map_update_sorted _ _ _ _ Hc)) as [S1 L1].
  split; auto. intro f. rewrite L1. cbn [existsb]. rewrite (map_update_lookup _ _ _ _ _ Hc).
  destruct (s_eqb f b) eqn:E; cbn [orb]; auto.
  assert (Eb : existsb (s_eqb f) bs = false).
  { destruct (existsb (s_eqb f) bs) eqn:E2; auto. apply existsb_seqb in E2. apply s_eqb_eq in E. rewrite E in E2. contradiction. }
  rewrite Eb. do 3 f_equal. unfold mlookup. apply s_eqb_eq in E.
  replace (find (fun p => s_eqb b (fst p)) c) with (find (fun p => s_eqb f (fst p)) c); auto.
  clear - E. induction c as [|p c IH]; simpl; auto. unfold s_eqb at 1 3. rewrite E, IH. reflexivity.
Qed.

Lemma cofaceMap_spec m : (forall p, In p m -> wf (fst p)) ->
  StronglySorted key_lt (cg_cofaceMap m) /\
  forall f, mlookup f (cg_cofaceMap m) = match cof m f with [] => None | l => Some l end.
Proof.
  induction m as [|p m IH] using rev_ind; intro Hw.
  - split; [constructor|]. reflexivity.
  - destruct IH as [S1 L1]; [intros; apply Hw; apply in_or_app; auto|]. unfold cg_cofaceMap. rewrite fold_left_app. cbn [fold_left].
    fold (cg_cofaceMap m). destruct (push_faces (snd p) (boundary (fst p)) (cg_cofaceMap m)) as [S2 L2]; auto.
    { apply boundary_NoDup, Hw, in_or_app. simpl. auto. }
    split; auto. intro f. rewrite L2, L1. unfold cof. rewrite filter_app, map_app. cbn [filter].
    destruct (existsb (s_eqb f) (boundary (fst p))); cbn [map].
    + destruct (map snd (filter _ m)) as [|x l]; reflexivity.
    + rewrite app_nil_r. reflexivity.
Qed.

Lemma cofaceMap_In m f l : (forall p, In p m -> wf (fst p)) -> In (f, l) (cg_cofaceMap m) -> l = cof m f.
Proof.
  intros Hw H. destruct (cofaceMap_spec m Hw) as [S1 L1]. apply (mlookup_In _ _ _ S1) in H. rewrite L1 in H.
  destruct (cof m f); congruence.
Qed.

(** ** pairs *)
Fixpoint pairs {A} (l : list A) : list (A * A) :=
  match l with [] => [] | x :: r => map (pair x) r ++ pairs r end.

Lemma pairs_map {A B} (f : A -> B) l : pairs (map f l) = map (fun p => (f (fst p), f (snd p))) (pairs l).
Proof. induction l as [|x l IH]; simpl; auto. rewrite map_app, IH, !map_map. reflexivity. Qed.

Lemma pairs_In {A} (R : A -> A -> Prop) l x y : (forall a b, R a b -> ~ R b a) -> StronglySorted R l ->
  (In (x, y) (pairs l) <-> In x l /\ In y l /\ R x y).
Proof.
  intros Hr. induction 1 as [|a l H IH F]; simpl; [tauto|]. rewrite in_app_iff, in_map_iff, IH. rewrite Forall_forall in F. split.
  - intros [(z & [= <- <-] & Hz)|(A1 & A2 & A3)]; auto.
  - intros ([<-|Hx] & [<-|Hy] & HR).
    + exfalso. apply (Hr _ _ HR HR).
    + left. eauto.
    + exfalso. apply (Hr _ _ HR). auto.
    + auto.
Qed.

Lemma pairs_NoDup {A} (l : list A) : NoDup l -> NoDup (pairs l).
Proof.
  induction 1 as [|x l Hx Hn IH]; simpl; [constructor|]. apply NoDup_app_intro; auto.
  - apply NoDup_map_inj_in; auto. intros a b _ _ [= ->]. auto.
  - intros [a b] H1 H2. apply in_map_iff in H1. destruct H1 as (z & [= <- <-] & Hz). apply Hx.
    clear - H2. induction l as [|y l IH]; simpl in *; [easy|]. apply in_app_or in H2. destruct H2 as [H2|H2]; auto.
    apply in_map_iff in H2. destruct H2 as (w & [= -> _] & _). auto.
Qed.

(** ** the edges *)
Definition dat (K : complex) (i : nat) : Z := match nth_error (by_index K) i with Some s => data s | None => 0%Z end.
Definition mk_edge (f : Z -> Z -> Z) (K : complex) (p : nat * nat) : simplex :=
  simplex_of [fst p; snd p] (f (dat K (fst p)) (dat K (snd p))).

Lemma cg_edge_ok f K u v es : u < k_size K -> v < k_size K -> cg_edge f K u v es = Ok (es ++ [mk_edge f K (u, v)]).
Proof.
  intros Hu Hv. unfold cg_edge, k_at, at_, mk_edge, dat. cbn [fst snd]. unfold k_size in *. apply nth_error_Some in Hu, Hv.
  destruct (nth_error (by_index K) u); [|easy]. destruct (nth_error (by_index K) v); [|easy]. reflexivity.
Qed.

Lemma edges_inner f K u l k es : u < k_size K -> (forall v, In v l -> v < k_size K) ->
  foldM (fun edges j => let* v := get_ l j in cg_edge f K u v edges) (seq k (length l - k)) es =
  Ok (es ++ map (fun v => mk_edge f K (u, v)) (skipn k l)).
Proof.
  intros Hu Hl. remember (length l - k) as n eqn:En. revert k es En. induction n as [|n IH]; intros k es En.
  - rewrite skipn_all2 by lia. simpl. rewrite app_nil_r. auto.
  - cbn [seq foldM]. assert (Hk : k < length l) by lia. destruct (nth_error l k) as [v|] eqn:Ev; [|apply nth_error_None in Ev; lia].
    unfold get_ at 1. rewrite Ev. cbn [bind]. rewrite cg_edge_ok by (auto; apply Hl; eapply nth_error_In; eauto). cbn [bind].
    rewrite IH by lia. assert (Es : skipn k l = v :: skipn (S k) l).
    { clear - Ev. revert k Ev. induction l as [|a l IH]; intros [|k] E; simpl in *; try discriminate; [congruence|]. rewrite IH by auto. auto. }
    rewrite Es. simpl. rewrite <- app_assoc. reflexivity.
Qed.

Lemma edges_outer f K l es : (forall v, In v l -> v < k_size K) ->
  foldM (fun edges i => let* u := get_ l i in
    foldM (fun edges j => let* v := get_ l j in cg_edge f K u v edges) (seq (i + 1) (length l - (i + 1))) edges) (seq 0 (length l)) es =
  Ok (es ++ map (mk_edge f K) (pairs l)).
Proof.
  intro Hl. assert (G : forall n k es, n = length l - k ->
    foldM (fun edges i => let* u := get_ l i in
      foldM (fun edges j => let* v := get_ l j in cg_edge f K u v edges) (seq (i + 1) (length l - (i + 1))) edges) (seq k n) es =
    Ok (es ++ map (mk_edge f K) (pairs (skipn k l)))).
  { induction n as [|n IH]; intros k es' En.
    - rewrite skipn_all2 by lia. simpl. rewrite app_nil_r. auto.
    - cbn [seq foldM]. assert (Hk : k < length l) by lia. destruct (nth_error l k) as [v|] eqn:Ev; [|apply nth_error_None in Ev; lia].
      unfold get_ at 1. rewrite Ev. cbn [bind]. rewrite edges_inner by (auto; apply Hl; eapply nth_error_In; eauto). cbn [bind].
      rewrite IH by lia. assert (Es : skipn k l = v :: skipn (S k) l).
      { clear - Ev. revert k Ev. induction l as [|a l IH]; intros [|k] E; simpl in *; try discriminate; [congruence|]. rewrite IH by auto. auto. }
      rewrite Es. cbn [pairs]. rewrite map_app, map_map. rewrite Nat.add_1_r. rewrite app_assoc. reflexivity. }
  rewrite (G (length l) 0); [reflexivity|lia].
Qed.

Lemma cg_edges_ok f K c : (forall p v, In p c -> In v (snd p) -> v < k_size K) ->
  cg_edges f K c = Ok (map (mk_edge f K) (flat_map (fun p => pairs (snd p)) c)).
Proof.
  unfold cg_edges. intro H.
  assert (G : forall c es, (forall p v, In p c -> In v (snd p) -> v < k_size K) ->
    foldM (fun edges pair => let indices := snd pair in let n := length indices in
      if 2 <=? n then
        foldM (fun edges i => let* u := get_ indices i in
          foldM (fun edges j => let* v := get_ indices j in cg_edge f K u v edges) (seq (i + 1) (n - (i + 1))) edges) (seq 0 n) edges
      else Ok edges) c es = Ok (es ++ map (mk_edge f K) (flat_map (fun p : simplex * list nat => pairs (snd p)) c))).
  { clear. induction c as [|p c IH]; intros es H; cbn [foldM flat_map]; [rewrite app_nil_r; auto|]. cbv zeta.
    destruct (Nat.leb_spec 2 (length (snd p))).
    - rewrite edges_outer by (intros; apply (H p); simpl; auto). cbn [bind]. cbv zeta in IH. rewrite IH by (intros q v Hq; apply H; simpl; auto).
      rewrite map_app, app_assoc. reflexivity.
    - cbn [bind]. cbv zeta in IH. rewrite IH by (intros q v Hq; apply H; simpl; auto).
      destruct (snd p) as [|a [|b l]]; simpl in *; [reflexivity|reflexivity|lia]. }
  apply (G c []). auto.
Qed.

Lemma NoDup_flat_map_in {A B} (f : A -> list B) l : NoDup l -> (forall x, In x l -> NoDup (f x)) ->
  (forall x y z, In x l -> In y l -> In z (f x) -> In z (f y) -> x = y) -> NoDup (flat_map f l).
Proof.
  induction 1 as [|x l Hx Hn IH]; intros H1 H2; simpl; [constructor|]. apply NoDup_app_intro.
  - apply H1; simpl; auto.
  - apply IH; [intros; apply H1; simpl; auto|]. intros a b z Ha Hb. apply H2; simpl; auto.
  - intros z Hz Hz'. apply in_flat_map in Hz'. destruct Hz' as (y & Hy & Hz'). apply Hx.
    rewrite (H2 x y z); simpl; auto.
Qed.

(** ** shared faces *)
Definition precedes (a b : list nat) : Prop :=
  exists p x y a' b', a = p ++ x :: a' /\ b = p ++ y :: b' /\ x < y.

Lemma lex_precedes a b : length a = length b -> (lex_ltb a b = true <-> precedes a b).
Proof.
  split.
  - revert b H. induction a as [|x a IH]; intros [|y b] H E; simpl in *; try discriminate.
    destruct (Nat.ltb_spec x y); [exists [], x, y, a, b; auto|]. destruct (Nat.ltb_spec y x); [discriminate|].
    replace y with x by lia. destruct (IH b) as (p & u & v & a' & b' & -> & -> & Huv); auto; try lia. exists (x :: p), u, v, a', b'. auto.
  - intros (p & x & y & a' & b' & -> & -> & Hxy). clear H. induction p as [|z p IH]; simpl.
    + destruct (Nat.ltb_spec x y); auto. lia.
    + rewrite Nat.ltb_irrefl. auto.
Qed.

Lemma facet_in_boundary s r k : wf s -> length (verts s) = S k -> 1 <= k -> NoDup r -> length r = k -> subset r (verts s) ->
  existsb (s_eqb (simplex_of r 0)) (boundary s) = true.
Proof.
  intros Hw Hl Hk Hn Hr Hsub. apply existsb_seqb. apply in_boundary_iff_set; auto; [apply simplex_of_wf|unfold s_size; lia|].
  assert (Hv : exists v, In v (verts s) /\ ~ In v r).
  { destruct (existsb (fun v => negb (mem v r)) (verts s)) eqn:E.
    - apply existsb_exists in E. destruct E as (v & Hv & E). exists v. split; auto. apply negb_true_iff, mem_false in E. auto.
    - exfalso. assert (Hi : incl (verts s) r).
      { intros v Hv. destruct (mem v r) eqn:Em; [apply mem_In; auto|]. exfalso. rewrite <- not_true_iff_false in E. apply E.
        apply existsb_exists. exists v. rewrite Em. auto. }
      apply NoDup_incl_length in Hi; [lia|]. apply SSgt_NoDup. exact Hw. }
  destruct Hv as (v & Hv & Hnv). exists v. split; auto. intro u. rewrite simplex_of_In. split.
  - intro Hu. split; auto. intros ->. auto.
  - intros [Hu Hne]. destruct (in_dec Nat.eq_dec u r) as [|Hur]; auto. exfalso.
    assert (Hi : incl (u :: v :: r) (verts s)) by (intros x [<-|[<-|Hx]]; auto).
    apply NoDup_incl_length in Hi; [simpl in Hi; lia|]. constructor; [intros [->|]; auto|]. constructor; auto.
Qed.

Lemma boundary_facet s f : wf s -> existsb (s_eqb f) (boundary s) = true ->
  NoDup (verts f) /\ S (length (verts f)) = length (verts s) /\ subset (verts f) (verts s) /\ 2 <= length (verts s) /\ wf (Simplex (verts f) 0).
Proof.
  intros Hw E. apply existsb_exists in E. destruct E as (b & Hb & E). apply s_eqb_eq in E. rewrite E.
  pose proof (boundary_wf _ _ Hb) as Hwb.
  refine (conj (SSgt_NoDup _ Hwb) (conj (boundary_size s b Hw Hb) (conj (fun v => boundary_incl s b v Hb) (conj _ Hwb)))).
  apply in_boundary in Hb. apply Hb.
Qed.

Lemma facet_unique s t r r' k : wf s -> wf t -> verts s <> verts t -> length (verts s) = S k -> length (verts t) = S k ->
  NoDup r -> NoDup r' -> length r = k -> length r' = k -> subset r (verts s) -> subset r (verts t) -> subset r' (verts s) -> subset r' (verts t) ->
  set_eq r r'.
Proof.
  intros Hs Ht Hne Ls Lt Nr Nr' Lr Lr' A1 A2 B1 B2.
  assert (G : forall r r', NoDup r -> NoDup r' -> length r = k -> length r' = k -> subset r (verts s) -> subset r (verts t) -> subset r' (verts s) -> subset r' (verts t) -> subset r r').
  { clear - Hs Ht Hne Ls Lt. intros r r' Nr Nr' Lr Lr' A1 A2 B1 B2 v Hv. destruct (in_dec Nat.eq_dec v r') as [|Hnv]; auto. exfalso. apply Hne.
    assert (Nv : NoDup (v :: r')) by (constructor; auto).
    assert (I1 : incl (v :: r') (verts s)) by (intros x [<-|]; auto).
    assert (I2 : incl (v :: r') (verts t)) by (intros x [<-|]; auto).
    apply wf_ext; auto. intro u. split; intro Hu.
    - apply I2. apply (NoDup_length_incl Nv) in I1; [auto|simpl; lia].
    - apply I1. apply (NoDup_length_incl Nv) in I2; [auto|simpl; lia]. }
  intro v. split; apply G; auto.
Qed.

Theorem C49_clique_graph : forall f K k, reachable K ->
  exists L, cliqueGraph f K k = Ok L /\ reachable L /\
  forall t, In t (by_index L) <->
    (exists i s, nth_error (by_index K) i = Some s /\ length (verts s) = S k /\ t = Simplex [i] (data s)) \/
    (exists i j s s' r, nth_error (by_index K) i = Some s /\ nth_error (by_index K) j = Some s' /\
       length (verts s) = S k /\ length (verts s') = S k /\ precedes (verts s) (verts s') /\
       r <> [] /\ NoDup r /\ length r = k /\ subset r (verts s) /\ subset r (verts s') /\
       t = simplex_of [i; j] (f (data s) (data s'))).
Proof.
  intros f K k HR. pose proof (reachable_kwf K HR) as HK. destruct (simplexMap_spec K k HK) as (m & Em & Sm & Im).
  unfold cliqueGraph. rewrite Em. cbn [bind].
  assert (Hwm : forall p, In p m -> wf (fst p)).
  { intros [s i] Hp. apply Im in Hp. destruct Hp as [Hp _]. apply nth_error_In in Hp. apply (kwf_good K HK s Hp). }
  destruct (cofaceMap_spec m Hwm) as [Sc Lc].
  assert (Hcof : forall p v, In p (cg_cofaceMap m) -> In v (snd p) -> exists s, In (s, v) m /\ existsb (s_eqb (fst p)) (boundary s) = true).
  { intros [g l] v Hp Hv. apply cofaceMap_In in Hp; auto. cbn [fst snd] in *. subst l. unfold cof in Hv. apply in_map_iff in Hv.
    destruct Hv as ([s i] & <- & Hs). apply filter_In in Hs. exists s. auto. }
  rewrite cg_edges_ok.
  2:{ intros p v Hp Hv. destruct (Hcof p v Hp Hv) as (s & Hs & _). apply Im in Hs. destruct Hs as [Hs _]. eapply nth_error_lt; eauto. }
  cbn [bind]. set (PP := flat_map (fun p => pairs (snd p)) (cg_cofaceMap m)).
  (* the pairs *)
  assert (HPP : forall i j, In (i, j) PP <-> exists s s' r, In (s, i) m /\ In (s', j) m /\ precedes (verts s) (verts s') /\
       r <> [] /\ NoDup r /\ length r = k /\ subset r (verts s) /\ subset r (verts s')).
  { intros i j. unfold PP. rewrite in_flat_map.
    assert (Hin : forall g, In (i, j) (pairs (cof m g)) <-> exists s s', In (s, i) m /\ In (s', j) m /\ s_ltb s s' = true /\
              existsb (s_eqb g) (boundary s) = true /\ existsb (s_eqb g) (boundary s') = true).
    { intro g. unfold cof. rewrite pairs_map, in_map_iff. split.
      - intros ([[s a] [s' b]] & [= <- <-] & H). apply (pairs_In key_lt) in H.
        + destruct H as (H1 & H2 & H3). apply filter_In in H1, H2. cbn [fst] in *. exists s, s'.
          refine (conj (proj1 H1) (conj (proj1 H2) (conj H3 (conj (proj2 H1) (proj2 H2))))).
        + intros p q H1 H2. unfold key_lt in *. apply ltb_asym in H1. congruence.
        + apply StronglySorted_filter; auto.
      - intros (s & s' & H1 & H2 & H3 & H4 & H5). exists ((s, i), (s', j)). split; auto. apply (pairs_In key_lt).
        + intros p q G1 G2. unfold key_lt in *. apply ltb_asym in G1. congruence.
        + apply StronglySorted_filter; auto.
        + rewrite !filter_In. auto. }
    split.
    - intros ([g l] & Hg & Hij). pose proof (cofaceMap_In m g l Hwm Hg) as ->. cbn [snd] in Hij. apply Hin in Hij.
      destruct Hij as (s & s' & H1 & H2 & H3 & H4 & H5). pose proof (Im s i) as I1. pose proof (Im s' j) as I2.
      destruct (proj1 I1 H1) as [_ L1]. destruct (proj1 I2 H2) as [_ L2].
      destruct (boundary_facet s g (Hwm _ H1) H4) as (F1 & F2 & F3 & F4 & _). destruct (boundary_facet s' g (Hwm _ H2) H5) as (_ & _ & F3' & _).
      exists s, s', (verts g). refine (conj H1 (conj H2 (conj _ (conj _ (conj F1 (conj _ (conj F3 F3'))))))); [|destruct (verts g); [simpl in F2; lia|discriminate]|lia].
      apply lex_precedes; [lia|exact H3].
    - intros (s & s' & r & H1 & H2 & H3 & Hr0 & Hr1 & Hr2 & Hr3 & Hr4).
      destruct (proj1 (Im s i) H1) as [_ L1]. destruct (proj1 (Im s' j) H2) as [_ L2].
      assert (Hk : 1 <= k) by (destruct r; [easy|simpl in Hr2; lia]).
      assert (Hij : In (i, j) (pairs (cof m (simplex_of r 0)))).
      { apply Hin. exists s, s'. refine (conj H1 (conj H2 (conj _ (conj _ _)))).
        - apply lex_precedes in H3; [exact H3|lia].
        - eapply facet_in_boundary; eauto. apply (Hwm _ H1).
        - eapply facet_in_boundary; eauto. apply (Hwm _ H2). }
      pose proof (Lc (simplex_of r 0)) as E. destruct (cof m (simplex_of r 0)) as [|x l] eqn:Ec; [contradiction|].
      apply mlookup_some in E. destruct E as (g & Hg & _). exists (g, x :: l). split; auto. }
  assert (Hdet : forall i s s', In (s, i) m -> In (s', i) m -> s = s').
  { intros i s s' H1 H2. apply Im in H1, H2. destruct H1 as [H1 _], H2 as [H2 _]. congruence. }
  assert (Hlt : forall i j, In (i, j) PP -> exists s s', nth_error (by_index K) i = Some s /\ nth_error (by_index K) j = Some s' /\
     length (verts s) = S k /\ length (verts s') = S k /\ s_ltb s s' = true).
  { intros i j H. apply HPP in H. destruct H as (s & s' & r & H1 & H2 & H3 & _). apply Im in H1, H2. exists s, s'.
    refine (conj (proj1 H1) (conj (proj1 H2) (conj (proj2 H1) (conj (proj2 H2) _)))). apply lex_precedes in H3; [exact H3|]. destruct H1, H2; lia. }
  assert (Hirr : forall i j, In (i, j) PP -> i <> j).
  { intros i j H ->. destruct (Hlt j j H) as (s & s' & H1 & H2 & _ & _ & H3). rewrite H1 in H2. injection H2 as ->. unfold s_ltb in H3. rewrite lex_irrefl in H3. discriminate. }
  assert (Hasym : forall i j, In (i, j) PP -> ~ In (j, i) PP).
  { intros i j H H'. destruct (Hlt i j H) as (s & s' & H1 & H2 & _ & _ & H3). destruct (Hlt j i H') as (t & t' & H1' & H2' & _ & _ & H3').
    assert (t = s') by congruence. assert (t' = s) by congruence. subst. apply ltb_asym in H3. congruence. }
  (* no pair twice *)
  assert (NPP : NoDup PP).
  { unfold PP. apply NoDup_flat_map_in.
    - clear - Sc. induction Sc as [|p c H IH F]; constructor; auto. intro Hp. rewrite Forall_forall in F. specialize (F p Hp). unfold key_lt, s_ltb in F. rewrite lex_irrefl in F. discriminate.
    - intros [g l] Hg. pose proof (cofaceMap_In m g l Hwm Hg) as ->. cbn [snd]. apply pairs_NoDup. unfold cof. apply NoDup_map_inj_in.
      + intros [s a] [s' b] H1 H2 E. cbn [snd] in E. subst b. apply filter_In in H1, H2. f_equal. eapply Hdet; [apply H1|apply H2].
      + apply NoDup_filter. clear - Sm. induction Sm as [|p c H IH F]; constructor; auto. intro Hp. rewrite Forall_forall in F. specialize (F p Hp). unfold key_lt, s_ltb in F. rewrite lex_irrefl in F. discriminate.
    - intros [g l] [g' l'] [i j] Hg Hg' Hij Hij'. cbn [snd] in *.
      assert (Hm : forall q, In q (pairs l) -> In (fst q) l /\ In (snd q) l).
      { clear. induction l as [|a l IH]; simpl; [easy|]. intros q H. apply in_app_or in H. destruct H as [H|H]; [|destruct (IH q H); auto].
        apply in_map_iff in H. destruct H as (b & <- & Hb). auto. }
      assert (Hm' : forall q, In q (pairs l') -> In (fst q) l' /\ In (snd q) l').
      { clear. induction l' as [|a l IH]; simpl; [easy|]. intros q H. apply in_app_or in H. destruct H as [H|H]; [|destruct (IH q H); auto].
        apply in_map_iff in H. destruct H as (b & <- & Hb). auto. }
      destruct (Hm _ Hij) as [M1 M2]. destruct (Hm' _ Hij') as [M3 M4]. cbn [fst snd] in *.
      destruct (Hcof _ _ Hg M1) as (s & Hs & Bs). destruct (Hcof _ _ Hg M2) as (t & Ht & Bt).
      destruct (Hcof _ _ Hg' M3) as (s1 & Hs1 & Bs1). destruct (Hcof _ _ Hg' M4) as (t1 & Ht1 & Bt1). cbn [fst] in *.
      rewrite (Hdet _ _ _ Hs1 Hs) in *. rewrite (Hdet _ _ _ Ht1 Ht) in *. clear s1 t1 Hs1 Ht1.
      assert (Hij2 : i <> j) by (apply Hirr; unfold PP; apply in_flat_map; exists (g, l); auto).
      destruct (proj1 (Im _ _) Hs) as [Ns Ls]. destruct (proj1 (Im _ _) Ht) as [Nt Lt].
      destruct (boundary_facet s g (Hwm _ Hs) Bs) as (A1 & A2 & A3 & _ & A4). destruct (boundary_facet t g (Hwm _ Ht) Bt) as (_ & _ & A5 & _ & _).
      destruct (boundary_facet s g' (Hwm _ Hs) Bs1) as (B1 & B2 & B3 & _ & B4). destruct (boundary_facet t g' (Hwm _ Ht) Bt1) as (_ & _ & B5 & _ & _).
      assert (Eg : verts g = verts g').
      { change (verts (Simplex (verts g) 0) = verts (Simplex (verts g') 0)). apply wf_ext; auto. cbn [verts].
        apply (facet_unique s t (verts g) (verts g') k); auto; try lia; [apply (Hwm _ Hs)|apply (Hwm _ Ht)|]. intro E. apply Hij2. eapply nth_error_verts_inj; eauto. }
      clear - Sc Hg Hg' Eg. induction Sc as [|p c H IH F]; [easy|]. rewrite Forall_forall in F.
      destruct Hg as [->|Hg], Hg' as [E|Hg']; auto; exfalso.
      + specialize (F _ Hg'). unfold key_lt, s_ltb in F. cbn [fst] in F. rewrite Eg, lex_irrefl in F. discriminate.
      + subst p. specialize (F _ Hg). unfold key_lt, s_ltb in F. cbn [fst] in F. rewrite Eg, lex_irrefl in F. discriminate. }
  assert (Hev : forall p, In p PP -> forall v, In v (verts (mk_edge f K p)) <-> v = fst p \/ v = snd p).
  { intros [i j] _ v. unfold mk_edge. rewrite simplex_of_In. cbn [fst snd In]. intuition. }
  assert (Nedges : NoDup (map verts (map (mk_edge f K) PP))).
  { rewrite map_map. apply NoDup_map_inj_in; auto. intros [i j] [i' j'] H H' E.
    pose proof (Hev _ H) as V. pose proof (Hev _ H') as V'. rewrite E in V. cbn [fst snd] in *.
    pose proof (Hirr _ _ H) as N1. pose proof (Hirr _ _ H') as N2.
    assert (D1 : i = i' \/ i = j') by (apply V', V; auto). assert (D2 : j = i' \/ j = j') by (apply V', V; auto).
    destruct D1 as [->|D1], D2 as [D2|D2]; subst; auto; try congruence. exfalso. apply (Hasym _ _ H); auto. }
  assert (Nverts : NoDup (map verts (cg_vertices m))).
  { unfold cg_vertices. rewrite map_map. cbn [simplex_vertex verts]. apply NoDup_map_inj_in.
    - intros [s a] [s' b] H1 H2 [= E]. cbn [snd] in E. subst b. f_equal. eapply Hdet; eauto.
    - clear - Sm. induction Sm as [|p c H IH F]; constructor; auto. intro Hp. rewrite Forall_forall in F. specialize (F p Hp). unfold key_lt, s_ltb in F. rewrite lex_irrefl in F. discriminate. }
  assert (Gv : forall s, In s (cg_vertices m) -> good s).
  { intros s Hs. apply in_map_iff in Hs. destruct Hs as (p & <- & _). split; [unfold wf; repeat constructor|discriminate]. }
  assert (Ge : forall s, In s (map (mk_edge f K) PP) -> good s).
  { intros s Hs. apply in_map_iff in Hs. destruct Hs as (p & <- & Hp). split; [apply simplex_of_wf|]. intro E. pose proof (Hev p Hp (fst p)) as V. rewrite E in V. apply V. auto. }
  destruct (insert_new (cg_vertices m) k_empty empty_kwf Gv) as (L1 & E1 & W1 & B1); [exact Nverts|].
  unfold insert_into at 1. rewrite E1. cbn [bind].
  destruct (insert_new (map (mk_edge f K) PP) L1 W1 Ge) as (L & E2 & W2 & B2).
  { rewrite B1. cbn [by_index k_empty app]. rewrite map_app. apply NoDup_app_intro; auto. intros vs H1 H2.
    apply in_map_iff in H1, H2. destruct H1 as (a & <- & Ha), H2 as (b & E & Hb). apply in_map_iff in Ha, Hb.
    destruct Ha as (p & <- & _), Hb as ([i j] & <- & Hb). pose proof (Hev _ Hb) as V. rewrite E in V. cbn [simplex_vertex verts fst snd In] in V.
    apply (Hirr _ _ Hb). assert (snd p = i \/ False) as [|[]] by (apply V; auto). assert (snd p = j \/ False) as [|[]] by (apply V; auto). congruence. }
  exists L. unfold insert_into. rewrite E2. split; [reflexivity|]. split.
  { replace L with (fst (k_insert L1 (map (mk_edge f K) PP))) by (rewrite E2; auto). apply insert_reachable; [|intros s Hs; apply Ge; auto].
    replace L1 with (fst (k_insert k_empty (cg_vertices m))) by (rewrite E1; auto). apply insert_reachable; [|intros s Hs; apply Gv; auto].
    exists 0%Z, 0%Z, []. reflexivity. }
  intro t. rewrite B2, B1. cbn [by_index k_empty app]. rewrite in_app_iff. unfold cg_vertices. rewrite !in_map_iff. split.
  - intros [([s i] & <- & Hs)|([i j] & <- & Hp)].
    + left. exists i, s. apply Im in Hs. destruct Hs. auto.
    + right. apply HPP in Hp. destruct Hp as (s & s' & r & H1 & H2 & H3 & R0 & R1 & R2 & R3 & R4).
      apply Im in H1, H2. destruct H1 as [N1 L1'], H2 as [N2 L2']. exists i, j, s, s', r.
      refine (conj N1 (conj N2 (conj L1' (conj L2' (conj H3 (conj R0 (conj R1 (conj R2 (conj R3 (conj R4 _)))))))))).
      unfold mk_edge, dat. cbn [fst snd]. rewrite N1, N2. reflexivity.
  - intros [(i & s & N1 & L1' & ->)|(i & j & s & s' & r & N1 & N2 & L1' & L2' & H3 & R0 & R1 & R2 & R3 & R4 & ->)].
    + left. exists (s, i). split; auto. apply Im. auto.
    + right. exists (i, j). split; [unfold mk_edge, dat; cbn [fst snd]; rewrite N1, N2; reflexivity|]. apply HPP.
      exists s, s', r. refine (conj _ (conj _ (conj H3 (conj R0 (conj R1 (conj R2 (conj R3 R4))))))); apply Im; auto.
Qed.

(** the graph with the maximum as weight *)
Theorem C49_maximum : forall K k, reachable K ->
  exists L, cliqueGraph_max K k = Ok L /\ reachable L /\
  (forall i, has (by_index L) [i] <-> exists s, nth_error (by_index K) i = Some s /\ length (verts s) = S k) /\
  forall i j w, i <> j -> ((exists t, In t (by_index L) /\ set_eq (verts t) [i; j] /\ data t = w) <->
    exists s s' r, nth_error (by_index K) i = Some s /\ nth_error (by_index K) j = Some s' /\
      length (verts s) = S k /\ length (verts s') = S k /\ r <> [] /\ NoDup r /\ length r = k /\
      subset r (verts s) /\ subset r (verts s') /\ w = Z.max (data s) (data s')).
Proof.
  intros K k HR. pose proof (reachable_kwf K HR) as HK. destruct (C49_clique_graph Z.max K k HR) as (L & E & RL & IL). exists L.
  refine (conj E (conj RL (conj _ _))).
  - intro i. split.
    + intros (t & Ht & Et). apply IL in Ht. destruct Ht as [(a & s & N & Ls & ->)|(a & b & s & s' & r & N1 & N2 & L1 & L2 & H3 & _ & _ & _ & _ & _ & ->)].
      * assert (a = i) as -> by (destruct (proj1 (Et a) ltac:(simpl; auto)) as [|[]]; auto). eauto.
      * exfalso. assert (a = i) by (destruct (proj1 (Et a) ltac:(apply simplex_of_In; simpl; auto)) as [|[]]; auto).
        assert (b = i) by (destruct (proj1 (Et b) ltac:(apply simplex_of_In; simpl; auto)) as [|[]]; auto).
        subst a b. rewrite N1 in N2. injection N2 as <-. apply lex_precedes in H3; auto. rewrite lex_irrefl in H3. discriminate.
    + intros (s & N & Ls). exists (Simplex [i] (data s)). split; [apply IL; left; exists i, s; auto|]. intro; simpl; tauto.
  - intros i j w Hij. split.
    + intros (t & Ht & Et & Ew). apply IL in Ht. destruct Ht as [(a & s & N & Ls & ->)|(a & b & s & s' & r & N1 & N2 & L1 & L2 & H3 & R0 & R1 & R2 & R3 & R4 & ->)].
      * exfalso. apply Hij. cbn [verts] in Et. destruct (proj2 (Et i) ltac:(simpl; auto)) as [|[]]. destruct (proj2 (Et j) ltac:(simpl; auto)) as [|[]]. congruence.
      * assert (Hi : a = i \/ b = i) by (pose proof (proj2 (Et i) ltac:(simpl; auto)) as H; apply simplex_of_In in H; simpl in H; tauto).
        assert (Hj : a = j \/ b = j) by (pose proof (proj2 (Et j) ltac:(simpl; auto)) as H; apply simplex_of_In in H; simpl in H; tauto).
        cbn [simplex_of data] in Ew. destruct Hi as [->|Hi], Hj as [Hj|Hj]; subst; try (exfalso; apply Hij; congruence).
        -- exists s, s', r. auto 12.
        -- exists s', s, r. rewrite Z.max_comm. auto 12.
    + intros (s & s' & r & N1 & N2 & L1 & L2 & R0 & R1 & R2 & R3 & R4 & ->).
      destruct (lex_total (verts s) (verts s')) as [H|[H|H]].
      * exists (simplex_of [i; j] (Z.max (data s) (data s'))). split; [|split; auto; intro; apply simplex_of_In].
        apply IL. right. exists i, j, s, s', r. apply lex_precedes in H; [auto 15|lia].
      * exfalso. apply Hij. eapply nth_error_verts_inj; eauto.
      * exists (simplex_of [j; i] (Z.max (data s') (data s))). split; [|split; [intro; rewrite simplex_of_In; simpl; tauto|cbn; lia]].
        apply IL. right. exists j, i, s', s, r. apply lex_precedes in H; [auto 15|lia].
Qed.

Example C49_example : exists L, cliqueGraph_max (mk [InsertRange [([0], 0%Z); ([1], 0%Z); ([2], 0%Z); ([3], 0%Z);
    ([0; 1], 1%Z); ([0; 2], 2%Z); ([1; 2], 3%Z); ([1; 3], 7%Z); ([2; 3], 5%Z)]]) 1 = Ok L /\
  by_index L = [Simplex [4] 1; Simplex [5] 2; Simplex [6] 3; Simplex [7] 7; Simplex [8] 5;
                Simplex [5; 4] 2; Simplex [6; 4] 3; Simplex [7; 4] 7; Simplex [7; 6] 7; Simplex [6; 5] 3; Simplex [8; 5] 5; Simplex [8; 6] 5; Simplex [8; 7] 7].
Proof. eexists. split; vm_compute; reflexivity. Qed.

Print Assumptions C49_clique_graph.
Print Assumptions C49_maximum.
