(** * Facts about the assignment solver. *)
From Coq Require Import List Arith Bool ZArith Lia Permutation FinFun.
From Verif Require Import Base BaseFacts Munkres.
Import ListNotations.

(** ** sums *)
Definition zsum {A} (f : A -> Z) (l : list A) : Z := fold_right (fun x a => (f x + a)%Z) 0%Z l.
Lemma zsum_le {A} (f g : A -> Z) l : (forall x, In x l -> (f x <= g x)%Z) -> (zsum f l <= zsum g l)%Z.
Proof. induction l as [|x l IH]; intro H; cbn; [lia|]. assert (H1 := H x (or_introl eq_refl)). assert (zsum f l <= zsum g l)%Z by (apply IH; intros; apply H; simpl; auto). unfold zsum in *. lia. Qed.
Lemma zsum_lt {A} (f g : A -> Z) l y : (forall x, In x l -> (f x <= g x)%Z) -> In y l -> (f y < g y)%Z -> (zsum f l < zsum g l)%Z.
Proof.
  induction l as [|x l IH]; intros H Hy Hlt; [easy|]. cbn. assert (H1 := H x (or_introl eq_refl)).
  assert (H2 : (zsum f l <= zsum g l)%Z) by (apply zsum_le; intros; apply H; simpl; auto). destruct Hy as [->|Hy].
  - unfold zsum in *. lia.
  - assert (zsum f l < zsum g l)%Z by (apply IH; auto; intros; apply H; simpl; auto). unfold zsum in *. lia.
Qed.
Lemma zsum_ext {A} (f g : A -> Z) l : (forall x, In x l -> f x = g x) -> zsum f l = zsum g l.
Proof. induction l as [|x l IH]; intro H; cbn; [auto|]. rewrite (H x) by (simpl; auto). f_equal. apply IH. intros; apply H; simpl; auto. Qed.
Lemma zsum_plus {A} (f g : A -> Z) l : zsum (fun x => (f x + g x)%Z) l = (zsum f l + zsum g l)%Z.
Proof. induction l; cbn; unfold zsum in *; lia. Qed.
Lemma zsum_nonneg {A} (f : A -> Z) l : (forall x, In x l -> (0 <= f x)%Z) -> (0 <= zsum f l)%Z.
Proof. induction l as [|x l IH]; intro H; cbn; [lia|]. assert (H1 := H x (or_introl eq_refl)). assert (0 <= zsum f l)%Z by (apply IH; intros; apply H; simpl; auto). unfold zsum in *. lia. Qed.
Lemma zsum_perm {A} (f : A -> Z) l l' : Permutation l l' -> zsum f l = zsum f l'.
Proof. induction 1; cbn; unfold zsum in *; lia. Qed.
Lemma zsum_app {A} (f : A -> Z) l l' : zsum f (l ++ l') = (zsum f l + zsum f l')%Z.
Proof. induction l; cbn; unfold zsum in *; lia. Qed.
Lemma zsum_map {A B} (f : B -> Z) (h : A -> B) l : zsum f (map h l) = zsum (fun x => f (h x)) l.
Proof. induction l; cbn; unfold zsum in *; congruence. Qed.

(** ** searching *)
Lemma first_some_Some {A B} (f : A -> option B) l b : first_some f l = Some b -> exists a, In a l /\ f a = Some b.
Proof. induction l as [|a l IH]; [easy|]. cbn. destruct (f a) eqn:E; [intros [= ->]; exists a; auto|]. intro H. destruct (IH H) as (x & Hx & Ex). exists x. auto. Qed.
Lemma first_some_None {A B} (f : A -> option B) l : first_some f l = None -> forall a, In a l -> f a = None.
Proof. induction l as [|x l IH]; [easy|]. cbn. destruct (f x) eqn:E; [easy|]. intros H a [<-|Ha]; auto. Qed.

Section Facts.
  Variables (top : Z) (n : nat).
  Hypothesis top_pos : (0 < top)%Z.
  Notation indices := (indices n).

  Lemma in_indices i : In i indices <-> i < n.
  Proof. unfold Munkres.indices. rewrite in_seq. lia. Qed.

  Lemma find_uncovered_some s r c : findUncoveredZeroInMatrix n s = Some (r, c) -> r < n /\ c < n /\ m_rows s r = false /\ m_cols s c = false /\ m_mat s r c = 0%Z.
  Proof.
    intro H. apply first_some_Some in H as (r' & Hr & H). destruct (m_rows s r') eqn:Er; [easy|]. apply first_some_Some in H as (c' & Hc & H).
    destruct (m_cols s c') eqn:Ec; [easy|]. destruct (Z.eqb_spec (m_mat s r' c') 0); [|easy]. injection H as -> ->. rewrite in_indices in *. auto.
  Qed.
  Lemma find_uncovered_none s : findUncoveredZeroInMatrix n s = None -> forall r c, r < n -> c < n -> m_rows s r = false -> m_cols s c = false -> m_mat s r c <> 0%Z.
  Proof.
    intros H r c Hr Hc Er Ec E. apply (first_some_None _ _) with (a := r) in H; [|apply in_indices; auto]. rewrite Er in H.
    apply (first_some_None _ _) with (a := c) in H; [|apply in_indices; auto]. rewrite Ec, E in H. easy.
  Qed.

  (** ** invariants *)
  Record inv (C : matrix Z) (s : munkres_state) : Prop := {
    i_dual : exists u v : nat -> Z, forall r c, r < n -> c < n -> m_mat s r c = (C r c - u r - v c)%Z;
    i_nonneg : forall r c, r < n -> c < n -> (0 <= m_mat s r c)%Z;
    i_star : forall r c, m_stars s r c = true -> r < n /\ c < n /\ m_mat s r c = 0%Z;
    i_row : forall r c c', m_stars s r c = true -> m_stars s r c' = true -> c = c';
    i_col : forall r r' c, m_stars s r c = true -> m_stars s r' c = true -> r = r' }.

  Record cover (s : munkres_state) : Prop := {
    c_prime : forall r c, m_primes s r c = true -> r < n /\ c < n /\ m_mat s r c = 0%Z /\ m_stars s r c = false /\ m_rows s r = true /\ m_cols s c = false;
    c_star : forall r c, m_stars s r c = true -> m_cols s c = negb (m_rows s r);
    c_rows : forall r, m_rows s r = true -> (exists c, m_stars s r c = true) /\ exists c, m_primes s r c = true;
    c_cols : forall c, m_cols s c = true -> exists r, m_stars s r c = true;
    c_rank : exists (rank : nat -> nat) M, (forall r, m_rows s r = true -> rank r < M) /\ forall r c r', m_primes s r c = true -> m_stars s r' c = true -> rank r' < rank r }.

  Definition clean (s : munkres_state) : Prop :=
    (forall r c, m_primes s r c = false) /\ (forall r, m_rows s r = false) /\ (forall c, m_cols s c = false).

  Definition count (st : matrix bool) : nat := length (filter (fun r => existsb (st r) indices) indices).

  Lemma count_ext st st' : (forall r c, st r c = st' r c) -> count st = count st'.
  Proof.
    intro H. unfold count. f_equal. apply filter_ext. intro r. induction indices as [|c l IH]; [reflexivity|]. cbn. rewrite H, IH. reflexivity.
  Qed.
  Lemma filter_le {A} (f : A -> bool) l : length (filter f l) <= length l.
  Proof. induction l as [|x l IH]; cbn; [lia|]. destruct (f x); cbn; lia. Qed.
  Lemma count_le st : count st <= n.
  Proof. unfold count. assert (H := filter_le (fun r => existsb (st r) indices) indices). unfold Munkres.indices in *. rewrite seq_length in H. exact H. Qed.

  (** ** the first steps *)
  Lemma fold_min_le (g : nat -> Z) l : forall a, (fold_left (fun v c => Z.min v (g c)) l a <= a)%Z /\ forall c, In c l -> (fold_left (fun v c => Z.min v (g c)) l a <= g c)%Z.
  Proof.
    induction l as [|x l IH]; intro a; cbn; [split; [lia|easy]|]. destruct (IH (Z.min a (g x))) as [H1 H2]. split; [lia|]. intros c [<-|Hc]; [lia|auto].
  Qed.

  Lemma init_inv C : inv C (munkres_init (subtractRowMinimum n C)) /\ clean (munkres_init (subtractRowMinimum n C)).
  Proof.
    split; [|split; [|split]; reflexivity]. constructor; cbn; try discriminate.
    - exists (row_minimum n C), (fun _ => 0%Z). intros. unfold subtractRowMinimum. lia.
    - intros r c Hr Hc. unfold subtractRowMinimum. assert (H := proj2 (fold_min_le (C r) indices (C r 0)) c (proj2 (in_indices c) Hc)). unfold row_minimum. lia.
  Qed.

  Lemma mset_spec {A} (m : matrix A) r c v i j : mset m r c v i j = if (i =? r) && (j =? c) then v else m i j.
  Proof. reflexivity. Qed.
  Ltac cell i j r c := destruct (Nat.eqb_spec i r), (Nat.eqb_spec j c); cbn [andb] in *.

  Lemma step1_row_inv C row l : row < n -> (forall c, In c l -> c < n) -> forall s, inv C s -> clean s -> inv C (step1_row n row l s) /\ clean (step1_row n row l s).
  Proof.
    intros Hrow. induction l as [|col l IH]; intros Hl s Hi Hc; [auto|]. cbn [step1_row]. assert (Hl' : forall c, In c l -> c < n) by (intros; apply Hl; simpl; auto).
    assert (Hcol := Hl col (or_introl eq_refl)).
    destruct (Z.eqb_spec (m_mat s row col) 0) as [E|_]; [|apply IH; auto]. destruct (existsb _ indices) eqn:E1; [apply IH; auto|]. destruct (existsb (fun c => m_stars s row c) indices) eqn:E2; [auto|].
    destruct Hi as [D N S R K]. destruct Hc as (P1 & P2 & P3).
    assert (E1' : forall r, m_stars s r col = false).
    { intro r. destruct (m_stars s r col) eqn:Er; [|auto]. assert (existsb (fun r => m_stars s r col) indices = true); [|congruence]. apply existsb_exists. exists r. split; [apply in_indices, (S r col Er)|auto]. }
    assert (E2' : forall c, m_stars s row c = false).
    { intro c. destruct (m_stars s row c) eqn:Er; [|auto]. assert (existsb (fun c => m_stars s row c) indices = true); [|congruence]. apply existsb_exists. exists c. split; [apply in_indices, (S row c Er)|auto]. }
    apply IH; auto.
    - constructor; cbn; auto.
      + intros r c H. unfold mset in H. cell r c row col; subst; auto.
      + intros r c c'. unfold mset. cell r c row col; cell r c' row col; subst; intros A B; try congruence; try (rewrite E2' in A; discriminate); try (rewrite E2' in B; discriminate); eauto.
      + intros r r' c. unfold mset. cell r c row col; cell r' c row col; subst; intros A B; try congruence; try (rewrite E1' in A; discriminate); try (rewrite E1' in B; discriminate); eauto.
    - split; [|split]; cbn; auto. intros r c. unfold mset. rewrite P1. destruct (_ && _); reflexivity.
  Qed.

  Lemma step1_inv C s : inv C s -> clean s -> inv C (step1 n s) /\ clean (step1 n s).
  Proof.
    unfold step1. assert (G : forall l, (forall r, In r l -> r < n) -> forall s, inv C s -> clean s ->
      inv C (fold_left (fun s row => step1_row n row indices s) l s) /\ clean (fold_left (fun s row => step1_row n row indices s) l s)).
    { induction l as [|r l IH]; intros H s' Hi Hc; [auto|]. cbn [fold_left].
      destruct (step1_row_inv C r indices (H r (or_introl eq_refl)) (fun c => proj1 (in_indices c)) s' Hi Hc) as [A B]. apply IH; auto. intros; apply H; simpl; auto. }
    apply G. intro r. apply in_indices.
  Qed.

  (** ** step 2 *)
  Lemma step2_row s row l : forall acc, let r := fold_left (step2_cell s row) l acc in
    (forall c, fst r c = fst acc c || (existsb (Nat.eqb c) l && m_stars s row c)) /\ snd r = snd acc + length (filter (m_stars s row) l).
  Proof.
    induction l as [|x l IH]; intro acc; cbn [fold_left]; [cbn; split; [intro; rewrite orb_false_r; auto|lia]|]. destruct (IH (step2_cell s row acc x)) as [A B].
    cbv zeta. set (r := fold_left _ l _) in *. clearbody r. cbn [filter existsb]. unfold step2_cell in A, B. destruct (m_stars s row x) eqn:E; cbn [fst snd length] in *.
    - split; [|lia]. intro c. rewrite A. unfold vset. destruct (Nat.eqb_spec c x) as [->|]; [|reflexivity]. rewrite E. cbn. rewrite orb_true_r. reflexivity.
    - split; [|lia]. intro c. rewrite A. destruct (Nat.eqb_spec c x) as [->|]; [|reflexivity]. rewrite E, !andb_false_r. reflexivity.
  Qed.

  Lemma row_stars C s row : inv C s -> length (filter (m_stars s row) indices) = if existsb (m_stars s row) indices then 1 else 0.
  Proof.
    intro Hi. assert (N : NoDup (filter (m_stars s row) indices)) by (apply NoDup_filter, seq_NoDup). destruct (existsb (m_stars s row) indices) eqn:E.
    - apply existsb_exists in E as (c & Hc & E). assert (Hin : In c (filter (m_stars s row) indices)) by (apply filter_In; auto).
      destruct (filter (m_stars s row) indices) as [|a [|b l]] eqn:F; [easy|reflexivity|]. exfalso.
      assert (Ha : In a (filter (m_stars s row) indices)) by (rewrite F; simpl; auto). assert (Hb : In b (filter (m_stars s row) indices)) by (rewrite F; simpl; auto).
      apply filter_In in Ha as [_ Ha]. apply filter_In in Hb as [_ Hb]. assert (a = b) by (eapply (i_row C s Hi); eauto). subst. inversion N; subst. simpl in *. tauto.
    - destruct (filter (m_stars s row) indices) as [|a l] eqn:F; [reflexivity|]. exfalso. assert (Ha : In a (filter (m_stars s row) indices)) by (rewrite F; simpl; auto).
      apply filter_In in Ha as [Ha1 Ha2]. assert (existsb (m_stars s row) indices = true) by (apply existsb_exists; eauto). congruence.
  Qed.

  Lemma step2_rows C s l : inv C s -> forall acc, let r := fold_left (fun acc row => fold_left (step2_cell s row) indices acc) l acc in
    (forall c, fst r c = fst acc c || existsb (fun row => m_stars s row c) l) /\ snd r = snd acc + length (filter (fun row => existsb (m_stars s row) indices) l).
  Proof.
    intro Hi. induction l as [|x l IH]; intro acc; cbn [fold_left]; [cbn; split; [intro; rewrite orb_false_r; auto|lia]|].
    destruct (IH (fold_left (step2_cell s x) indices acc)) as [A B]. destruct (step2_row s x indices acc) as [A' B'].
    cbv zeta. set (r := fold_left _ l _) in *. clearbody r. set (r' := fold_left _ indices acc) in *. clearbody r'. rewrite (row_stars C s x Hi) in B'. cbn [filter existsb]. split.
    - intro c. rewrite A, A', <- orb_assoc. f_equal. f_equal. destruct (m_stars s x c) eqn:E; [|apply andb_false_r]. rewrite andb_true_r. apply existsb_exists. exists c. split; [apply in_indices, (i_star C s Hi x c E)|apply Nat.eqb_refl].
    - destruct (existsb (m_stars s x) indices); cbn [length]; lia.
  Qed.

  Lemma step2_spec C s : inv C s -> clean s -> let r := step2 n s in
    fst r = (n <=? count (m_stars s)) /\ m_stars (snd r) = m_stars s /\ inv C (snd r) /\ cover (snd r).
  Proof.
    intros Hi (P1 & P2 & P3). unfold step2. destruct (step2_rows C s indices Hi (m_cols s, 0)) as [A B]. cbv zeta. set (r := fold_left _ indices _) in *. clearbody r. cbn [fst snd] in *.
    rewrite B. split; [reflexivity|]. split; [reflexivity|]. destruct Hi as [D N S R K]. split; [constructor; cbn; auto|].
    assert (Hc : forall c, fst r c = true <-> exists x, m_stars s x c = true).
    { intro c. rewrite A, P3. cbn [orb]. rewrite existsb_exists. split; [intros (x & _ & Hx); eauto|]. intros (x & Hx). exists x. split; [apply in_indices, (S x c Hx)|exact Hx]. }
    constructor; cbn; auto.
    - intros x c H. rewrite P1 in H. discriminate.
    - intros x c H. rewrite P2. apply Hc. eauto.
    - intros x H. rewrite P2 in H. discriminate.
    - intros c H. apply Hc, H.
    - exists (fun _ => 0), 1. split; [lia|]. intros x c x' H. rewrite P1 in H. discriminate.
  Qed.

  (** ** unmatched rows and columns *)
  Lemma NoDup_map_inj {A B} (f : A -> B) l : (forall a b, In a l -> In b l -> f a = f b -> a = b) -> NoDup l -> NoDup (map f l).
  Proof.
    intros Hf N. induction N as [|x l Hx N IH]; cbn; constructor.
    - intro H. apply in_map_iff in H as (y & E & Hy). apply Hx. rewrite <- (Hf y x); simpl; auto.
    - apply IH. intros; apply Hf; simpl; auto.
  Qed.
  Lemma filter_all {A} (f : A -> bool) l : (forall x, In x l -> f x = true) -> filter f l = l.
  Proof. induction l as [|x l IH]; intro E; [reflexivity|]. cbn. rewrite (E x) by (simpl; auto). f_equal. apply IH. intros; apply E; simpl; auto. Qed.
  Lemma forallb_false {A} (f : A -> bool) l : forallb f l = false -> exists x, In x l /\ f x = false.
  Proof. induction l as [|x l IH]; [easy|]. cbn. destruct (f x) eqn:Ex; [|intros _; exists x; auto]. intro E. destruct (IH E) as (r & Hr & Er). exists r. auto. Qed.
  Lemma unmatched_row st : count st < n -> exists r, r < n /\ forall c, c < n -> st r c = false.
  Proof.
    intro H. destruct (forallb (fun r => existsb (st r) indices) indices) eqn:E.
    - exfalso. rewrite forallb_forall in E. unfold count in H. assert (F : filter (fun r => existsb (st r) indices) indices = indices).
      { apply filter_all, E. }
      rewrite F in H. unfold Munkres.indices in H. rewrite seq_length in H. lia.
    - assert (G : exists r, In r indices /\ existsb (st r) indices = false).
      { exact (forallb_false _ _ E). }
      destruct G as (r & Hr & Er). exists r. split; [apply in_indices; auto|]. intros c Hc. destruct (st r c) eqn:Es; [|auto]. assert (existsb (st r) indices = true); [|congruence]. apply existsb_exists. exists c. split; [apply in_indices; auto|auto].
  Qed.

  Lemma count_full st : (forall r c, st r c = true -> c < n) -> (forall r, r < n -> exists c, st r c = true) -> count st = n.
  Proof.
    intros Hb H. destruct (Nat.lt_ge_cases (count st) n) as [L|L]; [|assert (G := count_le st); lia]. destruct (unmatched_row st L) as (r & Hr & Er). destruct (H r Hr) as (c & Hc). rewrite Er in Hc; [discriminate|]. eapply Hb; eauto.
  Qed.

  Lemma unmatched_column C s : inv C s -> count (m_stars s) < n -> exists c, c < n /\ forall r, m_stars s r c = false.
  Proof.
    intros Hi Hlt. destruct (unmatched_row _ Hlt) as (r0 & Hr0 & E0).
    destruct (forallb (fun c => existsb (fun r => m_stars s r c) indices) indices) eqn:E.
    - exfalso. rewrite forallb_forall in E. set (g := fun c => match find (fun r => m_stars s r c) indices with Some r => r | None => 0 end).
      assert (G : forall c, c < n -> m_stars s (g c) c = true /\ g c < n).
      { intros c Hc. assert (H := E c (proj2 (in_indices c) Hc)). apply existsb_exists in H as (r & Hr & H). unfold g. destruct (find (fun r => m_stars s r c) indices) as [x|] eqn:F.
        - apply find_some in F as [F1 F2]. split; [exact F2|apply in_indices, F1].
        - apply find_none with (x := r) in F; auto. congruence. }
      assert (N : NoDup (r0 :: map g indices)).
      { constructor.
        - intro H. apply in_map_iff in H as (c & Ec & Hc). apply in_indices in Hc. destruct (G c Hc) as [G1 _]. rewrite Ec, E0 in G1 by auto. discriminate.
        - apply NoDup_map_inj; [|apply seq_NoDup]. intros a b Ha Hb Eg. apply in_indices in Ha. apply in_indices in Hb.
          destruct (G a Ha) as [Ga _]. destruct (G b Hb) as [Gb _]. rewrite Eg in Ga. eapply (i_row C s Hi); eauto. }
      assert (I : incl (r0 :: map g indices) indices).
      { intros x [<-|Hx]; [apply in_indices; auto|]. apply in_map_iff in Hx as (c & <- & Hc). apply in_indices. apply G. apply in_indices. exact Hc. }
      assert (L := NoDup_incl_length N I). cbn in L. rewrite map_length in L. lia.
    - assert (G : exists c, In c indices /\ existsb (fun r => m_stars s r c) indices = false).
      { exact (forallb_false _ _ E). }
      destruct G as (c & Hc & Ec). exists c. split; [apply in_indices; auto|]. intro r. destruct (m_stars s r c) eqn:Es; [|auto]. assert (existsb (fun r => m_stars s r c) indices = true); [|congruence]. apply existsb_exists. exists r. split; [apply in_indices, (i_star C s Hi r c Es)|auto].
  Qed.

  (** ** step 3 *)
  Definition no_uncovered_zero (s : munkres_state) : Prop := forall r c, r < n -> c < n -> m_rows s r = false -> m_cols s c = false -> m_mat s r c <> 0%Z.
  Definition covered (s : munkres_state) : nat := length (filter (m_rows s) indices).

  Lemma covered_le s : covered s <= n.
  Proof. unfold covered. assert (H := filter_le (m_rows s) indices). unfold Munkres.indices in *. rewrite seq_length in H. exact H. Qed.

  (** the state in front of step 4 *)
  Definition augmentable (C : matrix Z) (s0 s : munkres_state) (r c : nat) : Prop :=
    inv C s0 /\ cover s0 /\ r < n /\ c < n /\ m_rows s0 r = false /\ m_cols s0 c = false /\ m_mat s0 r c = 0%Z /\ (forall c', m_stars s0 r c' = false) /\
    m_mat s = m_mat s0 /\ (forall i j, m_stars s i j = m_stars s0 i j) /\ (forall i j, m_primes s i j = m_primes s0 i j || ((i =? r) && (j =? c))) /\
    m_rows s = m_rows s0 /\ m_cols s = m_cols s0.

  Lemma covered_more s r : r < n -> m_rows s r = false -> forall s', m_rows s' = vset (m_rows s) r true -> covered s' = S (covered s).
  Proof.
    intros Hr Er s' E'. unfold covered. rewrite E'. clear E'. apply in_indices in Hr. assert (N := seq_NoDup n 0). fold indices in N. revert Hr N. generalize indices. induction l as [|x l IH]; [easy|].
    intros Hin N. inversion N as [|? ? Nx N']; subst. cbn [filter]. unfold vset at 1. destruct (Nat.eqb_spec x r) as [->|Hne].
    - rewrite Er. cbn [length]. f_equal. f_equal. apply filter_ext_in. intros a Ha. unfold vset. destruct (Nat.eqb_spec a r) as [->|]; [easy|reflexivity].
    - destruct Hin as [->|Hin]; [easy|]. destruct (m_rows s x); cbn [length]; rewrite IH; auto.
  Qed.

  Lemma step3_spec C s : inv C s -> cover s ->
    match step3 n s with
    | (3, s', _) => inv C s' /\ cover s' /\ count (m_stars s') = count (m_stars s) /\ covered s' = S (covered s)
    | (4, s', (r, c)) => augmentable C s s' r c
    | (5, s', _) => s' = s /\ no_uncovered_zero s
    | _ => False
    end.
  Proof.
    intros Hi Hc. unfold step3. destruct (findUncoveredZeroInMatrix n s) as [[r c]|] eqn:F; [|split; [reflexivity|exact (find_uncovered_none s F)]].
    apply find_uncovered_some in F as (Hr & Hcn & Er & Ec & Em). assert (Es : m_stars s r c = false).
    { destruct (m_stars s r c) eqn:E; [|auto]. apply (c_star s Hc) in E. rewrite Er, Ec in E. discriminate. }
    assert (Hst : forall i j, mset (m_stars s) r c false i j = m_stars s i j) by (intros i j; unfold mset; cell i j r c; subst; auto).
    assert (Hpr : forall i j, mset (m_primes s) r c true i j = m_primes s i j || ((i =? r) && (j =? c))) by (intros i j; unfold mset; cell i j r c; rewrite ?orb_false_r, ?orb_true_r; auto).
    cbn [m_stars m_primes m_mat m_rows m_cols set_stars]. destruct (find _ indices) as [c1|] eqn:F1.
    - apply find_some in F1 as [F1 F2]. rewrite Hst in F2. apply in_indices in F1.
      assert (Ec1 : m_cols s c1 = true) by (rewrite (c_star s Hc r c1 F2), Er; reflexivity). assert (Hcc : c <> c1) by congruence.
      destruct Hi as [D N S R K]. split; [|split; [|split]].
      + constructor; cbn; auto; intros *; rewrite ?Hst; eauto.
      + destruct Hc as [P1 P2 P3 P4 (rank & M & P5 & P6)]. constructor; cbn.
        * intros i j H. rewrite Hst. rewrite Hpr in H. apply orb_true_iff in H as [H|H].
          -- destruct (P1 i j H) as (Q1 & Q2 & Q3 & Q4 & Q5 & Q6). refine (conj Q1 (conj Q2 (conj Q3 (conj Q4 (conj _ _))))).
             ++ unfold vset. destruct (i =? r); auto.
             ++ unfold vset. destruct (j =? c1); auto.
          -- apply andb_true_iff in H as [H1 H2]. apply Nat.eqb_eq in H1, H2. subst i j. refine (conj Hr (conj Hcn (conj Em (conj Es (conj _ _))))).
             ++ unfold vset. rewrite Nat.eqb_refl. reflexivity.
             ++ unfold vset. destruct (Nat.eqb_spec c c1); [easy|exact Ec].
        * intros i j H. rewrite Hst in H. unfold vset. destruct (Nat.eqb_spec j c1) as [->|Hj].
          -- assert (i = r) by (eapply K; eauto). subst i. rewrite Nat.eqb_refl. reflexivity.
          -- destruct (Nat.eqb_spec i r) as [->|Hir]; [exfalso; apply Hj; eapply R; eauto|]. apply P2, H.
        * intros i H. unfold vset in H. destruct (Nat.eqb_spec i r) as [Eir|Hir]; [subst i|].
          -- split; [exists c1; rewrite Hst; exact F2|]. exists c. rewrite Hpr, !Nat.eqb_refl. apply orb_true_r.
          -- destruct (P3 i H) as [(a & Ha) (b & Hb)]. split; [exists a; rewrite Hst; auto|exists b; rewrite Hpr, Hb; reflexivity].
        * intros j H. unfold vset in H. destruct (Nat.eqb_spec j c1); [discriminate|]. destruct (P4 j H) as (i & Hi). exists i. rewrite Hst. exact Hi.
        * exists (fun x => if x =? r then M else rank x), (Datatypes.S M). split.
          -- intros i H. unfold vset in H. destruct (Nat.eqb_spec i r); [lia|]. assert (Q := P5 i H). lia.
          -- intros i j i' H H'. rewrite Hst in H'. rewrite Hpr in H. apply orb_true_iff in H as [H|H].
             ++ destruct (P1 i j H) as (_ & _ & _ & _ & Q5 & Q6). destruct (Nat.eqb_spec i r) as [->|]; [congruence|]. destruct (Nat.eqb_spec i' r) as [->|].
                ** exfalso. assert (j = c1) by (eapply R; eauto). congruence.
                ** eapply P6; eauto.
             ++ apply andb_true_iff in H as [H1 H2]. apply Nat.eqb_eq in H1, H2. subst i j. rewrite Nat.eqb_refl. destruct (Nat.eqb_spec i' r) as [->|]; [congruence|].
                apply P5. assert (Q := P2 i' c H'). rewrite Ec in Q. destruct (m_rows s i'); [reflexivity|discriminate].
      + apply count_ext, Hst.
      + apply (covered_more s r Hr Er). reflexivity.
    - unfold augmentable. cbn. refine (conj Hi (conj Hc (conj Hr (conj Hcn (conj Er (conj Ec (conj Em (conj _ (conj eq_refl (conj Hst (conj Hpr (conj eq_refl eq_refl)))))))))))).
      intro c'. destruct (m_stars s r c') eqn:E; [|auto]. apply find_none with (x := c') in F1; [|apply in_indices, (i_star C s Hi r c' E)]. rewrite Hst in F1. congruence.
  Qed.

  (** ** step 5 *)
  Definition uncovered_sum (s : munkres_state) : Z :=
    zsum (fun r => if m_rows s r then 0%Z else zsum (fun c => if m_cols s c then 0%Z else m_mat s r c) indices) indices.

  Lemma minimum_row s row l : (forall c, In c l -> m_cols s c = false -> (0 < m_mat s row c)%Z) -> forall v, (0 < v)%Z ->
    let r := fold_left (fun v col => if m_cols s col then v else if negb (m_mat s row col =? 0)%Z && (m_mat s row col <? v)%Z then m_mat s row col else v) l v in
    (0 < r <= v)%Z /\ forall c, In c l -> m_cols s c = false -> (r <= m_mat s row c)%Z.
  Proof.
    induction l as [|x l IH]; intros H v Hv; cbn [fold_left]; [cbn; split; [lia|easy]|].
    assert (Hx := H x (or_introl eq_refl)). assert (H' : forall c, In c l -> m_cols s c = false -> (0 < m_mat s row c)%Z) by (intros; apply H; simpl; auto).
    destruct (m_cols s x) eqn:E.
    - destruct (IH H' v Hv) as [A B]. split; [exact A|]. intros c [<-|Hc] Ec; [congruence|auto].
    - specialize (Hx eq_refl). destruct (Z.eqb_spec (m_mat s row x) 0); [lia|]. cbn [negb andb]. destruct (Z.ltb_spec (m_mat s row x) v).
      + destruct (IH H' (m_mat s row x) Hx) as [A B]. split; [lia|]. intros c [<-|Hc] Ec; [lia|auto].
      + destruct (IH H' v Hv) as [A B]. split; [lia|]. intros c [<-|Hc] Ec; [lia|auto].
  Qed.

  Lemma minimum_rows s l : (forall r c, In r l -> c < n -> m_rows s r = false -> m_cols s c = false -> (0 < m_mat s r c)%Z) -> forall v, (0 < v)%Z ->
    let w := fold_left (fun v row => if m_rows s row then v
      else fold_left (fun v col => if m_cols s col then v else if negb (m_mat s row col =? 0)%Z && (m_mat s row col <? v)%Z then m_mat s row col else v) indices v) l v in
    (0 < w <= v)%Z /\ forall r c, In r l -> c < n -> m_rows s r = false -> m_cols s c = false -> (w <= m_mat s r c)%Z.
  Proof.
    induction l as [|x l IH]; intros H v Hv; cbn [fold_left]; [cbn; split; [lia|easy]|].
    assert (Hx := fun c => H x c (or_introl eq_refl)). assert (H' : forall r c, In r l -> c < n -> m_rows s r = false -> m_cols s c = false -> (0 < m_mat s r c)%Z) by (intros; apply H; simpl; auto).
    destruct (m_rows s x) eqn:E.
    - destruct (IH H' v Hv) as [A B]. split; [exact A|]. intros r c [<-|Hr] Hc Er Ec; [congruence|auto].
    - destruct (minimum_row s x indices) with (v := v) as [A B]; [intros c Hc; apply Hx; [apply in_indices; auto|auto]|auto|].
      destruct (IH H' _ (proj1 A)) as [A' B']. split; [cbv zeta; lia|]. intros r c [<-|Hr] Hc Er Ec; [|auto].
      assert (Q := B c (proj2 (in_indices c) Hc) Ec). lia.
  Qed.

  Lemma step5_spec C s : inv C s -> cover s -> no_uncovered_zero s -> count (m_stars s) < n ->
    let s' := step5 top n s in
    inv C s' /\ cover s' /\ m_stars s' = m_stars s /\ m_rows s' = m_rows s /\ (0 <= uncovered_sum s' < uncovered_sum s)%Z.
  Proof.
    intros Hi Hc Hz Hlt s'. assert (Hpos : forall r c, r < n -> c < n -> m_rows s r = false -> m_cols s c = false -> (0 < m_mat s r c)%Z).
    { intros r c Hr Hcn Er Ec. assert (A := i_nonneg C s Hi r c Hr Hcn). assert (B := Hz r c Hr Hcn Er Ec). lia. }
    destruct (minimum_rows s indices) with (v := top) as [V1 V2]; [intros r c Hr; apply in_indices in Hr; apply Hpos; auto|exact top_pos|]. fold (step5_minimum top n s) in V1, V2.
    cbv zeta in V1, V2. change (fold_left _ indices top) with (step5_minimum top n s) in V1, V2. set (v := step5_minimum top n s) in *.
    assert (Em : forall r c, m_mat s' r c = (m_mat s r c + (if m_rows s r then v else 0) - (if m_cols s c then 0 else v))%Z) by reflexivity.
    assert (Hnn : forall r c, r < n -> c < n -> (0 <= m_mat s' r c)%Z).
    { intros r c Hr Hcn. rewrite Em. assert (A := i_nonneg C s Hi r c Hr Hcn). destruct (m_rows s r) eqn:Er, (m_cols s c) eqn:Ec; try lia. assert (B := V2 r c (proj2 (in_indices r) Hr) Hcn Er Ec). lia. }
    destruct Hi as [(u & w & D) N S R K] eqn:EHi. clear EHi. split; [|split; [|split; [reflexivity|split; [reflexivity|]]]].
    - constructor; auto.
      + exists (fun r => (u r - (if m_rows s r then v else 0))%Z), (fun c => (w c + (if m_cols s c then 0 else v))%Z). intros r c Hr Hcn. rewrite Em, D by auto. lia.
      + intros r c H. destruct (S r c H) as (A1 & A2 & A3). refine (conj A1 (conj A2 _)). rewrite Em, A3. rewrite (c_star s Hc r c H). destruct (m_rows s r); cbn; lia.
    - destruct Hc as [P1 P2 P3 P4 P5]. constructor; auto. intros r c H. destruct (P1 r c H) as (Q1 & Q2 & Q3 & Q4 & Q5 & Q6). refine (conj Q1 (conj Q2 (conj _ (conj Q4 (conj Q5 Q6))))).
      rewrite Em, Q3, Q5, Q6. lia.
    - split.
      + apply zsum_nonneg. intros r Hr. destruct (m_rows s' r); [lia|]. apply zsum_nonneg. intros c Hcn. destruct (m_cols s' c); [lia|]. apply Hnn; apply in_indices; auto.
      + destruct (unmatched_row _ Hlt) as (r0 & Hr0 & E0). destruct (unmatched_column C s) as (c0 & Hc0 & F0); [constructor; eauto|exact Hlt|].
        assert (Er0 : m_rows s r0 = false).
        { destruct (m_rows s r0) eqn:E; [|auto]. destruct (c_rows s Hc r0 E) as [(c & H) _]. rewrite E0 in H; [discriminate|apply (S r0 c H)]. }
        assert (Ec0 : m_cols s c0 = false).
        { destruct (m_cols s c0) eqn:E; [|auto]. destruct (c_cols s Hc c0 E) as (r & H). rewrite F0 in H. discriminate. }
        assert (Hle : forall r c, (m_rows s r = false -> m_cols s c = false -> m_mat s' r c < m_mat s r c)%Z) by (intros r c Er Ec; rewrite Em, Er, Ec; lia).
        apply (zsum_lt _ _ _ r0); [|apply in_indices; auto|].
        * intros r Hr. change (m_rows s' r) with (m_rows s r). destruct (m_rows s r) eqn:Er; [lia|]. apply zsum_le. intros c Hcn. change (m_cols s' c) with (m_cols s c). destruct (m_cols s c) eqn:Ec; [lia|]. assert (Q := Hle r c Er Ec). lia.
        * change (m_rows s' r0) with (m_rows s r0). rewrite Er0. apply (zsum_lt _ _ _ c0); [|apply in_indices; auto|].
          -- intros c Hcn. change (m_cols s' c) with (m_cols s c). destruct (m_cols s c) eqn:Ec; [lia|]. assert (Q := Hle r0 c Er0 Ec). lia.
          -- change (m_cols s' c0) with (m_cols s c0). rewrite Ec0. apply Hle; auto.
  Qed.

  (** ** step 4: alternating paths *)
  Inductive altpath (st pr : matrix bool) : nat -> list nat -> list (nat * nat) -> Prop :=
  | alt_nil c : (forall r, st r c = false) -> altpath st pr c [] []
  | alt_cons r c c' rs l : st r c = true -> pr r c' = true -> altpath st pr c' rs l -> altpath st pr c (r :: rs) ((r, c) :: (r, c') :: l).

  Definition matched (st : matrix bool) : Prop :=
    (forall r c c', st r c = true -> st r c' = true -> c = c') /\ (forall r r' c, st r c = true -> st r' c = true -> r = r').

  Lemma altpath_change st pr st' pr' c0 r0 : (exists r, st r c0 = true) -> (forall i j, j <> c0 -> st' i j = true -> st i j = true) ->
    forall rs c l, altpath st pr c rs l -> (forall i j, In i rs -> i <> r0 -> st' i j = st i j /\ pr' i j = pr i j) -> ~ In r0 rs -> altpath st' pr' c rs l.
  Proof.
    intros (r1 & H1) H2 rs c l Hp. induction Hp as [c Hn|r c c' rs l A B Hp IH]; intros Hs Hr.
    - constructor. intro r. destruct (st' r c) eqn:E; [|auto]. destruct (Nat.eq_dec c c0) as [->|Hne]; [rewrite Hn in H1; discriminate|]. specialize (Hn r). rewrite (H2 r c Hne E) in Hn. discriminate.
    - assert (Hne : r <> r0) by (intro; subst; apply Hr; simpl; auto). constructor.
      + rewrite (proj1 (Hs r c (or_introl eq_refl) Hne)). exact A.
      + rewrite (proj2 (Hs r c' (or_introl eq_refl) Hne)). exact B.
      + apply IH; [intros; apply Hs; simpl; auto|]. intro; apply Hr; simpl; auto.
  Qed.

  Lemma flip_path rs : forall c l st pr r, altpath st pr c rs l -> NoDup (r :: rs) -> matched st -> (forall c', st r c' = false) -> pr r c = true ->
    (forall i j, pr i j = true -> st i j = false) ->
    let sp := fold_left flip ((r, c) :: l) (st, pr) in
    matched (fst sp) /\ (forall i j, fst sp i j = true -> st i j = true \/ pr i j = true) /\
    (forall i j, snd sp i j = true -> pr i j = true /\ fst sp i j = false) /\ (forall i, (exists j, fst sp i j = true) <-> (exists j, st i j = true) \/ i = r).
  Proof.
    induction rs as [|r' rs IH]; intros c l st pr r Hp Nd [M1 M2] Hr Hpr Hd.
    - inversion Hp as [? Hn|]; subst. cbn [fold_left]. unfold flip. cbn [fst snd]. rewrite Hr. cbn [fst snd]. rewrite Hpr. cbn [fst snd].
      split; [split|split; [|split]].
      + intros i j j'. unfold mset. cell i j r c; cell i j' r c; subst; intros A B; try congruence; try (rewrite Hr in *; discriminate); eauto.
      + intros i i' j. unfold mset. cell i j r c; cell i' j r c; subst; intros A B; try congruence; try (rewrite Hn in *; discriminate); eauto.
      + intros i j. unfold mset. cell i j r c; subst; auto.
      + intros i j. unfold mset. cell i j r c; subst; intro A; try discriminate; auto.
      + intro i. split.
        * intros (j & A). unfold mset in A. cell i j r c; subst; auto; left; eauto.
        * intros [(j & A)| ->].
          -- exists j. unfold mset. cell i j r c; auto.
          -- exists c. unfold mset. rewrite !Nat.eqb_refl. reflexivity.
    - inversion Hp as [|? ? c' ? l' A B Hp']; subst. inversion Nd as [|? ? Nr Nd']; subst. assert (Hrr : r <> r') by (intro; subst; apply Nr; simpl; auto).
      assert (Hcc : c' <> c) by (intro; subst; rewrite (Hd r' c B) in A; discriminate).
      set (st2 := mset (mset st r c true) r' c false). set (pr2 := mset (mset pr r c false) r' c false).
      assert (E : fold_left flip ((r, c) :: (r', c) :: (r', c') :: l') (st, pr) = fold_left flip ((r', c') :: l') (st2, pr2)).
      { change (fold_left flip ((r', c') :: l') (flip (flip (st, pr) (r, c)) (r', c)) = fold_left flip ((r', c') :: l') (st2, pr2)). f_equal.
        unfold flip at 2. cbn [fst snd]. rewrite Hr. cbn [fst snd]. rewrite Hpr. unfold flip. cbn [fst snd].
        replace (mset st r c true r' c) with true by (unfold mset; destruct (Nat.eqb_spec r' r); [congruence|]; cbn; auto). cbn [fst snd]. fold st2 pr2.
        replace (pr2 r' c) with false by (unfold pr2, mset; rewrite !Nat.eqb_refl; reflexivity). reflexivity. }
      rewrite E. destruct (IH c' l' st2 pr2 r') as (Q1 & Q2 & Q3 & Q4).
      + apply (altpath_change st pr st2 pr2 c r').
        * eauto.
        * intros i j Hj. unfold st2, mset. cell i j r' c; try congruence; cell i j r c; try congruence; auto.
        * exact Hp'.
        * intros i j Hi Hne. assert (i <> r) by (intro; subst; apply Nr; simpl; auto). unfold st2, pr2, mset. destruct (Nat.eqb_spec i r'), (Nat.eqb_spec i r); try congruence. cbn. auto.
        * inversion Nd'; auto.
      + exact Nd'.
      + split.
        * intros i j j'. unfold st2, mset. cell i j r' c; cell i j' r' c; cell i j r c; cell i j' r c; subst; intros X Y; try congruence; try (rewrite Hr in *; discriminate); eauto.
        * intros i i' j. unfold st2, mset. cell i j r' c; cell i' j r' c; cell i j r c; cell i' j r c; subst; intros X Y; try congruence; eauto.
      + intro j. unfold st2, mset. cell r' j r' c; try congruence. destruct (Nat.eqb_spec r' r); [congruence|]. cbn. destruct (st r' j) eqn:Ej; [|auto]. exfalso. assert (j = c) by eauto. congruence.
      + unfold pr2, mset. destruct (Nat.eqb_spec c' c); [congruence|]. rewrite !andb_false_r. exact B.
      + intros i j. unfold st2, pr2, mset. cell i j r' c; try discriminate; cell i j r c; try discriminate; auto.
      + split; [exact Q1|]. split; [|split].
        * intros i j H. destruct (Q2 i j H) as [H'|H']; unfold st2, pr2, mset in H'; cell i j r' c; try discriminate; cell i j r c; try discriminate; subst; auto.
        * intros i j H. destruct (Q3 i j H) as [H' H'']. split; [|exact H'']. unfold pr2, mset in H'; cell i j r' c; try discriminate; cell i j r c; try discriminate; auto.
        * intro i. rewrite Q4. split.
          -- intros [(j & H)| ->]; [|left; eauto]. unfold st2, mset in H. cell i j r' c; try discriminate; cell i j r c; subst; auto; left; eauto.
          -- intros [(j & H)| ->].
             ++ destruct (Nat.eq_dec i r') as [->|Hne]; [auto|]. left. exists j. unfold st2, mset. cell i j r' c; try congruence; cell i j r c; auto.
             ++ left. exists c. unfold st2, mset. destruct (Nat.eqb_spec r r'); [congruence|]. rewrite !Nat.eqb_refl. reflexivity.
  Qed.

  Lemma in_sequence_In p l : in_sequence p l = true -> In p l.
  Proof.
    unfold in_sequence. rewrite existsb_exists. intros (q & Hq & E). unfold pair_eqb in E. apply andb_true_iff in E as [E1 E2]. apply Nat.eqb_eq in E1, E2. destruct p, q. cbn in *. subst. exact Hq.
  Qed.

  Lemma alternate_spec C s0 s r0 c0 rank : augmentable C s0 s r0 c0 ->
    (forall r c r', m_primes s0 r c = true -> m_stars s0 r' c = true -> rank r' < rank r) ->
    forall fuel c sequence used, NoDup used -> incl used indices -> In r0 used -> n < length used + fuel -> (forall p, In p sequence -> In (fst p) used) -> m_cols s0 c = false ->
    (forall r', m_stars s0 r' c = true -> forall x, In x used -> x = r0 \/ rank r' < rank x) ->
    exists l rs, alternate n fuel s c sequence = Ok (sequence ++ l) /\ altpath (m_stars s) (m_primes s) c rs l /\ NoDup rs /\ forall x, In x rs -> ~ In x used.
  Proof.
    intros (Hi & Hc & Hr & Hcn & Er & Ec & Em & Hrow & E1 & E2 & E3 & E4 & E5) Hrank. induction fuel as [|fuel IH]; intros c sequence used Nu Iu I0 Hf Hseq Hcol Hst.
    - exfalso. assert (L := NoDup_incl_length Nu Iu). unfold Munkres.indices in L. rewrite seq_length in L. lia.
    - cbn [alternate]. destruct (find _ indices) as [r|] eqn:F.
      + apply find_some in F as [F1 F2]. apply andb_true_iff in F2 as [F2 F3]. rewrite E2 in F2.
        assert (Hrc : m_rows s0 r = true) by (assert (Q := c_star s0 Hc r c F2); rewrite Hcol in Q; destruct (m_rows s0 r); auto).
        assert (Hru : ~ In r used). { intro H. destruct (Hst r F2 r H) as [->|H']; [congruence|lia]. }
        destruct (c_rows s0 Hc r Hrc) as [_ (c1 & Hc1)].
        destruct (find (fun c' => m_primes s r c' && negb (in_sequence (r, c') (sequence ++ [(r, c)]))) indices) as [c'|] eqn:G.
        * apply find_some in G as [G1 G2]. apply andb_true_iff in G2 as [G2 G3]. rewrite E3 in G2.
          assert (Hp : m_primes s0 r c' = true). { apply orb_true_iff in G2 as [G2|G2]; [exact G2|]. apply andb_true_iff in G2 as [G2 _]. apply Nat.eqb_eq in G2. congruence. }
          destruct (IH c' ((sequence ++ [(r, c)]) ++ [(r, c')]) (r :: used)) as (l & rs & L1 & L2 & L3 & L4).
          -- constructor; auto.
          -- intros x [<-|Hx]; auto.
          -- simpl. auto.
          -- cbn. lia.
          -- intros p Hp'. rewrite !in_app_iff in Hp'. simpl in Hp'. destruct Hp' as [[Hp'|[<-|[]]]|[<-|[]]]; simpl; auto.
          -- apply (c_prime s0 Hc r c' Hp).
          -- intros r' Hr' x [<-|Hx].
             ++ right. eapply Hrank; eauto.
             ++ destruct (Hst r F2 x Hx) as [->|Hx']; [auto|]. right. assert (Q := Hrank r c' r' Hp Hr'). lia.
          -- exists ((r, c) :: (r, c') :: l), (r :: rs). rewrite L1, <- !app_assoc. split; [reflexivity|]. split; [|split].
             ++ constructor; [rewrite E2; exact F2|rewrite E3, Hp; reflexivity|exact L2].
             ++ constructor; [|exact L3]. intro H. apply (L4 r H). simpl. auto.
             ++ intros x [<-|Hx]; [exact Hru|]. intro H. apply (L4 x Hx). simpl. auto.
        * exfalso. apply find_none with (x := c1) in G; [|apply in_indices, (c_prime s0 Hc r c1 Hc1)]. rewrite E3, Hc1 in G. cbn in G. apply negb_false_iff in G. apply in_sequence_In in G.
          apply in_app_iff in G as [G|[G|[]]]; [exact (Hru (Hseq _ G))|]. injection G as ->. destruct (c_prime s0 Hc r c1 Hc1) as (_ & _ & _ & Q & _). congruence.
      + exists [], []. rewrite app_nil_r. split; [reflexivity|]. split; [|split; [constructor|easy]]. constructor. intro r. rewrite E2. destruct (m_stars s0 r c) eqn:Es; [|auto]. exfalso.
        apply find_none with (x := r) in F; [|apply in_indices, (i_star C s0 Hi r c Es)]. rewrite E2, Es in F. cbn in F. apply negb_false_iff in F. apply in_sequence_In in F.
        assert (Hu := Hseq _ F). cbn in Hu. destruct (Hst r Es r Hu) as [->|H]; [rewrite Hrow in Es; discriminate|lia].
  Qed.

  Lemma count_more st st' r : r < n -> (forall i j, st i j = true -> j < n) -> (forall i j, st' i j = true -> j < n) -> (forall c, st r c = false) ->
    (forall i, (exists j, st' i j = true) <-> (exists j, st i j = true) \/ i = r) -> count st' = S (count st).
  Proof.
    intros Hr B B' Hn Hm. unfold count.
    assert (E : forall i, existsb (st' i) indices = existsb (st i) indices || (i =? r)).
    { intro i. apply eq_true_iff_eq. rewrite orb_true_iff, !existsb_exists, Nat.eqb_eq. split.
      - intros (j & _ & H). destruct (proj1 (Hm i) (ex_intro _ j H)) as [(j' & H')|H']; [|auto]. left. exists j'. split; [apply in_indices; eauto|auto].
      - intro H. assert (G : exists j, st' i j = true) by (apply Hm; destruct H as [(j & _ & H)|H]; eauto). destruct G as (j & G). exists j. split; [apply in_indices; eauto|auto]. }
    assert (E0 : existsb (st r) indices = false).
    { destruct (existsb (st r) indices) eqn:X; [|auto]. apply existsb_exists in X as (j & _ & X). rewrite Hn in X. discriminate. }
    apply in_indices in Hr. assert (N := seq_NoDup n 0). fold indices in N. revert Hr N. generalize indices at 1 2 4 6. induction l as [|x l IH]; [easy|].
    intros Hin N. inversion N as [|? ? Nx N']; subst. cbn [filter]. rewrite E. destruct (Nat.eqb_spec x r) as [->|Hne].
    - rewrite E0. cbn [orb length]. f_equal. f_equal. apply filter_ext_in. intros a Ha. rewrite E. destruct (Nat.eqb_spec a r) as [->|]; [easy|apply orb_false_r].
    - rewrite orb_false_r. destruct Hin as [->|Hin]; [easy|]. destruct (existsb (st x) indices); cbn [length]; rewrite IH; auto.
  Qed.

  Lemma step4_spec C s0 s r c : augmentable C s0 s r c ->
    exists s', step4 n s r c = Ok s' /\ inv C s' /\ clean s' /\ count (m_stars s') = S (count (m_stars s0)).
  Proof.
    intro Ha. destruct Ha as (Hi & Hc & Hr & Hcn & Er & Ec & Em & Hrow & E1 & E2 & E3 & E4 & E5) eqn:EHa. clear EHa. destruct (c_rank s0 Hc) as (rank & M & R1 & R2).
    destruct (alternate_spec C s0 s r c rank Ha R2 (S n) c [(r, c)] [r]) as (l & rs & L1 & L2 & L3 & L4).
    - repeat constructor. easy.
    - intros x [<-|[]]. apply in_indices; auto.
    - simpl. auto.
    - cbn. lia.
    - intros p [<-|[]]. simpl. auto.
    - exact Ec.
    - intros r' _ x [<-|[]]. auto.
    - unfold step4. rewrite L1. cbn [bind].
      destruct (flip_path rs c l (m_stars s) (m_primes s) r L2) as (Q1 & Q2 & Q3 & Q4).
      + constructor; [|exact L3]. intro H. apply (L4 r H). simpl. auto.
      + split; intros *; rewrite !E2; [apply (i_row C s0 Hi)|apply (i_col C s0 Hi)].
      + intro j. rewrite E2. apply Hrow.
      + rewrite E3, !Nat.eqb_refl. apply orb_true_r.
      + intros i j H. rewrite E2. rewrite E3 in H. apply orb_true_iff in H as [H|H]; [apply (c_prime s0 Hc i j H)|]. apply andb_true_iff in H as [H _]. apply Nat.eqb_eq in H. subst i. apply Hrow.
      + change ([(r, c)] ++ l) with ((r, c) :: l). destruct (fold_left flip ((r, c) :: l) (m_stars s, m_primes s)) as [st pr] eqn:F. cbn [fst snd] in *.
        assert (Hpr : forall i j, m_primes s i j = true -> i < n /\ j < n /\ m_mat s0 i j = 0%Z).
        { intros i j H. rewrite E3 in H. apply orb_true_iff in H as [H|H]; [destruct (c_prime s0 Hc i j H) as (A1 & A2 & A3 & _); auto|]. apply andb_true_iff in H as [H H']. apply Nat.eqb_eq in H, H'. subst. auto. }
        assert (Hst : forall i j, st i j = true -> i < n /\ j < n /\ m_mat s0 i j = 0%Z).
        { intros i j H. destruct (Q2 i j H) as [H'|H']; [rewrite E2 in H'; apply (i_star C s0 Hi i j H')|auto]. }
        assert (Hfin : forall i j, (if in_range n i j && pr i j then false else st i j) = st i j).
        { intros i j. destruct (in_range n i j && pr i j) eqn:X; [|auto]. apply andb_true_iff in X as [_ X]. symmetry. apply (Q3 i j X). }
        eexists. split; [reflexivity|]. split; [|split].
        * constructor; cbn; rewrite ?E1; try (apply Hi).
          -- intros i j. rewrite Hfin. apply Hst.
          -- intros i j j'. rewrite !Hfin. apply Q1.
          -- intros i i' j. rewrite !Hfin. apply Q1.
        * split; [|split]; cbn [m_primes m_rows m_cols].
          -- intros i j. destruct (in_range n i j) eqn:X; [auto|]. destruct (pr i j) eqn:Y; [|auto]. destruct (Q3 i j Y) as [Z _]. destruct (Hpr i j Z) as (A1 & A2 & _). unfold in_range in X. apply andb_false_iff in X as [X|X]; apply Nat.ltb_ge in X; lia.
          -- intro i. destruct (Nat.ltb_spec i n); [auto|]. rewrite E4. destruct (m_rows s0 i) eqn:X; [|auto]. destruct (c_rows s0 Hc i X) as [(j & Y) _]. assert (Q := proj1 (i_star C s0 Hi i j Y)). lia.
          -- intro j. destruct (Nat.ltb_spec j n); [auto|]. rewrite E5. destruct (m_cols s0 j) eqn:X; [|auto]. destruct (c_cols s0 Hc j X) as (i & Y). destruct (i_star C s0 Hi i j Y) as (_ & ? & _). lia.
        * cbn. rewrite (count_ext _ st) by (intros; apply Hfin). apply (count_more _ _ r); auto.
          -- intros i j H. apply (i_star C s0 Hi i j H).
          -- intros i j H. apply (Hst i j H).
          -- intro i. rewrite Q4. split; (intros [(j & H)|H]; [left; exists j; rewrite E2 in *; auto|auto]).
  Qed.

  (** ** the state machine *)
  Lemma loop_mono f : forall f' step row col s s', munkres_loop top n f step row col s = Ok s' -> f <= f' -> munkres_loop top n f' step row col s = Ok s'.
  Proof.
    induction f as [|f IH]; intros f' step row col s s' H Hle; [discriminate|]. destruct f' as [|f']; [lia|]. cbn [munkres_loop] in *. assert (Hle' : f <= f') by lia.
    destruct step as [|[|[|[|[|step]]]]]; auto.
    - destruct (step2 n s) as [d s2]. auto.
    - destruct (step3 n s) as [[nx s2] [r c]]. auto.
    - destruct (step4 n s row col) as [s2| | |]; cbn [bind] in *; try discriminate. auto.
  Qed.

  Lemma loop_from_3 C : forall k1 k2 k3 s, n - count (m_stars s) = k1 -> n - covered s = k2 -> Z.to_nat (uncovered_sum s) = k3 ->
    inv C s -> cover s -> count (m_stars s) < n ->
    exists fuel s', (forall row col, munkres_loop top n fuel 3 row col s = Ok s') /\ inv C s' /\ n <= count (m_stars s').
  Proof.
    induction k1 as [k1 IH1] using lt_wf_ind. induction k2 as [k2 IH2] using lt_wf_ind. induction k3 as [k3 IH3] using lt_wf_ind. intros s E1 E2 E3 Hi Hc Hlt.
    assert (H3 := step3_spec C s Hi Hc). destruct (step3 n s) as [[nx s1] [r c]] eqn:E. destruct nx as [|[|[|[|[|[|nx]]]]]]; try easy.
    - destruct H3 as (Hi' & Hc' & Ecount & Ecov). assert (L := covered_le s1).
      destruct (IH2 (n - covered s1) ltac:(lia) (Z.to_nat (uncovered_sum s1)) s1) as (fuel & s' & F1 & F2 & F3); [lia|reflexivity|reflexivity|exact Hi'|exact Hc'|lia|].
      exists (S fuel), s'. split; [|auto]. intros row col. cbn [munkres_loop]. rewrite E. apply F1.
    - destruct (step4_spec C s s1 r c H3) as (s2 & S1 & S2 & S3 & S4). destruct (step2_spec C s2 S2 S3) as (T1 & T2 & T3 & T4).
      destruct (step2 n s2) as [d s3] eqn:D. cbn [fst snd] in *. destruct (Nat.leb_spec n (count (m_stars s2))) as [L|L].
      + exists 4, s3. split; [|split; [exact T3|rewrite T2; exact L]]. intros row col. cbn [munkres_loop]. rewrite E. rewrite S1. cbn [bind]. rewrite D, T1. reflexivity.
      + destruct (IH1 (n - count (m_stars s3)) ltac:(rewrite T2; lia) (n - covered s3) (Z.to_nat (uncovered_sum s3)) s3) as (fuel & s' & F1 & F2 & F3); [reflexivity|reflexivity|reflexivity|exact T3|exact T4|rewrite T2; exact L|].
        exists (S (S (S fuel))), s'. split; [|auto]. intros row col. cbn [munkres_loop]. rewrite E. rewrite S1. cbn [bind]. rewrite D, T1. apply F1.
    - destruct H3 as [-> Hz]. destruct (step5_spec C s Hi Hc Hz Hlt) as (S1 & S2 & S3 & S4 & S5).
      destruct (IH3 (Z.to_nat (uncovered_sum (step5 top n s))) ltac:(lia) (step5 top n s)) as (fuel & s' & F1 & F2 & F3); [rewrite S3; auto|unfold covered in *; rewrite S4; auto|reflexivity|exact S1|exact S2|rewrite S3; exact Hlt|].
      exists (S (S fuel)), s'. split; [|auto]. intros row col. cbn [munkres_loop]. rewrite E. apply F1.
  Qed.

  Lemma loop_total C : exists fuel s', munkres_loop top n fuel 1 0 0 (munkres_init (subtractRowMinimum n C)) = Ok s' /\ inv C s' /\ n <= count (m_stars s').
  Proof.
    destruct (init_inv C) as [I1 I2]. destruct (step1_inv C _ I1 I2) as [J1 J2]. set (s := munkres_init _) in *. set (s1 := step1 n s) in *.
    destruct (step2_spec C s1 J1 J2) as (T1 & T2 & T3 & T4). destruct (step2 n s1) as [d s3] eqn:D. cbn [fst snd] in *. destruct (Nat.leb_spec n (count (m_stars s1))) as [L|L].
    - exists 3, s3. split; [|split; [exact T3|rewrite T2; exact L]]. cbn [munkres_loop]. fold s1. rewrite D, T1. reflexivity.
    - destruct (loop_from_3 C _ _ _ s3 eq_refl eq_refl eq_refl T3 T4) as (fuel & s' & F1 & F2 & F3); [rewrite T2; exact L|].
      exists (S (S fuel)), s'. split; [|auto]. cbn [munkres_loop]. fold s1. rewrite D, T1. apply F1.
  Qed.
End Facts.
