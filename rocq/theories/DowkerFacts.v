(** * Facts about the construction of Dowker complexes. *)

From Coq Require Import List Arith Bool ZArith Lia Permutation Sorted.
From Verif Require Import Base BaseFacts Simplex SimplexFacts SpecComplex Complex ComplexFacts FiltrationFacts History Subcomplex SubcomplexFacts
  Quotient PropertiesComplex PropertiesQuotient TopDown PairingFacts CombinationFacts PropertiesTopDown SpecCombine Combine CombineFacts PropertiesCombine SpecDowker Dowker.
Import ListNotations.

(** ** combinations as subsequences *)
Inductive subseq {A} : list A -> list A -> Prop :=
| sub_nil l : subseq [] l
| sub_take x c l : subseq c l -> subseq (x :: c) (x :: l)
| sub_skip x c l : subseq c l -> subseq c (x :: l).

Lemma combs_subseq {A} (l : list A) : forall k c, In c (combs k l) <-> length c = k /\ subseq c l.
Proof.
  induction l as [|x l IH]; intros k c.
  - destruct k; cbn [combs].
    + split; [intros [<-|[]]; split; [reflexivity|constructor]|]. intros [L _]. destruct c; [left; reflexivity|discriminate L].
    + split; [easy|]. intros [L S]. inversion S; subst. discriminate L.
  - destruct k as [|k]; cbn [combs].
    + split; [intros [<-|[]]; split; [reflexivity|constructor]|]. intros [L _]. destruct c; [left; reflexivity|discriminate L].
    + rewrite in_app_iff, in_map_iff. split.
      * intros [(c' & <- & Hc)|Hc]; apply IH in Hc; destruct Hc as [L S].
        -- split; [simpl; lia|]. constructor. exact S.
        -- split; [exact L|]. constructor. exact S.
      * intros [L S]. inversion S; subst; [discriminate L| |].
        -- left. exists c0. split; [reflexivity|]. apply IH. split; [simpl in L; lia|auto].
        -- right. apply IH. auto.
Qed.

Lemma subseq_In {A} (c l : list A) x : subseq c l -> In x c -> In x l.
Proof. induction 1; simpl; intros; [easy| |]; intuition. Qed.
Lemma subseq_length {A} (c l : list A) : subseq c l -> length c <= length l.
Proof. induction 1; simpl; lia. Qed.

(** one element for each first component *)
Fixpoint pick (seen : list nat) (P : dvertex -> bool) (l : list dvertex) : list dvertex :=
  match l with
  | [] => []
  | x :: r => if P x && negb (mem (fst x) seen) then x :: pick (fst x :: seen) P r else pick seen P r
  end.
Lemma pick_subseq P l : forall seen, subseq (pick seen P l) l.
Proof. induction l as [|x l IH]; intro seen; cbn [pick]; [constructor|]. destruct (P x && negb (mem (fst x) seen)); constructor; auto. Qed.
Lemma pick_P P l : forall seen x, In x (pick seen P l) -> P x = true /\ ~ In (fst x) seen.
Proof.
  induction l as [|y l IH]; intros seen x; cbn [pick]; [easy|]. destruct (P y) eqn:E; cbn [andb]; [|apply IH].
  destruct (mem (fst y) seen) eqn:M; cbn [negb]; [apply IH|]. intros [<-|H].
  - split; [exact E|]. intro F. apply mem_In in F. congruence.
  - destruct (IH _ _ H) as [A B]. split; [exact A|]. intro F. apply B. simpl. auto.
Qed.
Lemma pick_NoDup P l : forall seen, NoDup (map fst (pick seen P l)).
Proof.
  induction l as [|y l IH]; intros seen; cbn [pick]; [constructor|]. destruct (P y && negb (mem (fst y) seen)); [|apply IH].
  cbn [map]. constructor; [|apply IH]. intro F. apply in_map_iff in F. destruct F as (x & E & Hx). apply pick_P in Hx. destruct Hx as [_ N]. apply N. left. auto.
Qed.
Lemma pick_complete P l : forall seen x, In x l -> P x = true -> ~ In (fst x) seen -> In (fst x) (map fst (pick seen P l)).
Proof.
  induction l as [|y l IH]; intros seen x Hx HP Hs; [destruct Hx|]. destruct Hx as [<-|Hx]; cbn [pick].
  - rewrite HP. destruct (mem (fst y) seen) eqn:M; [apply mem_In in M; easy|]. cbn [negb andb map]. left. reflexivity.
  - destruct (P y && negb (mem (fst y) seen)); [|apply IH; auto]. cbn [map]. destruct (Nat.eq_dec (fst y) (fst x)) as [->|Hne]; [left; reflexivity|].
    right. apply IH; auto. intros [F|F]; auto.
Qed.

(** ** the map of base points *)
Definition base_map (kx : list (nat * dvertex)) := fold_left (fun m y => bpm_push m (fst y) (snd y)) kx [].

Lemma bpm_push_spec m k x : NoDup (map fst m) ->
  NoDup (map fst (bpm_push m k x)) /\
  (forall k', In k' (map fst (bpm_push m k x)) <-> k' = k \/ In k' (map fst m)) /\
  forall k' l', In (k', l') (bpm_push m k x) <->
    (k' <> k /\ In (k', l') m) \/ (k' = k /\ exists l, l' = l ++ [x] /\ (In (k, l) m \/ (l = [] /\ ~ In k (map fst m)))).
Proof.
  induction m as [|[k0 l0] m IH]; intro N; cbn [bpm_push].
  - refine (conj _ (conj _ _)); [repeat constructor; easy|simpl; intuition|]. intros k' l'. split.
    + intros [E|[]]. injection E as <- <-. right. split; [reflexivity|]. exists []. auto.
    + intros [[_ []]|(-> & l & -> & [[]|[-> _]])]. left. reflexivity.
  - inversion N as [|? ? N1 N2]; subst. destruct (IH N2) as (I1 & I2 & I3). destruct (Nat.eqb_spec k k0) as [<-|Hk]; cbn [map fst].
    + refine (conj N (conj _ _)); [simpl; intuition|]. intros k' l'. split.
      * intros [E|H].
        -- injection E as <- <-. right. split; [reflexivity|]. exists l0. split; [reflexivity|]. left. left. reflexivity.
        -- left. split; [|right; exact H]. intros ->. apply N1. apply (in_map fst) in H. exact H.
      * intros [[H1 [E|H]]|(-> & l & -> & [[E|H]|[-> H]])].
        -- injection E as -> ->. easy.
        -- right. exact H.
        -- injection E as ->. left. reflexivity.
        -- exfalso. apply N1. apply (in_map fst) in H. exact H.
        -- exfalso. apply H. simpl. auto.
    + refine (conj _ (conj _ _)).
      * constructor; auto. intro F. apply I2 in F. destruct F as [F|F]; congruence.
      * intro k'. simpl. rewrite I2. intuition.
      * intros k' l'. cbn [In]. rewrite I3. simpl. split.
        -- intros [E|[[H1 H2]|(-> & l & -> & H)]].
           ++ injection E as <- <-. left. auto.
           ++ left. auto.
           ++ right. split; [reflexivity|]. exists l. split; [reflexivity|]. destruct H as [H|[H1 H2]]; [auto|]. right. split; [exact H1|]. intros [F|F]; auto.
        -- intros [[H1 [E|H]]|(-> & l & -> & H)]; [auto|right; left; auto|]. right. right. split; [reflexivity|]. exists l. split; [reflexivity|].
           destruct H as [[E|H]|[H1 H2]]; [injection E as E _; congruence|auto|]. right. split; [exact H1|]. intro F. apply H2. auto.
Qed.

Lemma base_map_spec kx :
  forall p l, In (p, l) (base_map kx) <-> l = map snd (filter (fun y => fst y =? p) kx) /\ In p (map fst kx).
Proof.
  assert (G : NoDup (map fst (base_map kx)) /\ (forall p, In p (map fst (base_map kx)) <-> In p (map fst kx)) /\
    forall p l, In (p, l) (base_map kx) <-> l = map snd (filter (fun y => fst y =? p) kx) /\ In p (map fst kx)).
  { induction kx as [|[k x] kx IH] using rev_ind; [refine (conj _ (conj _ _)); simpl; [constructor|tauto|intuition]|].
    unfold base_map in *. rewrite fold_left_app. cbn [fold_left fst snd]. destruct IH as (I1 & I2 & I3).
    destruct (bpm_push_spec _ k x I1) as (J1 & J2 & J3). refine (conj J1 (conj _ _)).
    - intro p. rewrite J2, I2, map_app, in_app_iff. simpl. intuition.
    - intros p l. rewrite J3, filter_app, map_app, map_app, in_app_iff. cbn [filter map In fst]. destruct (Nat.eqb_spec k p) as [<-|Hk].
      + cbn [map snd]. split.
        * intros [[H _]|(_ & l0 & -> & H)]; [easy|]. split; [|auto]. f_equal. destruct H as [H|[-> H]]; [apply I3 in H; tauto|].
          rewrite I2 in H. symmetry. clear -H. induction kx as [|[k' x'] kx IH]; [reflexivity|]. cbn [filter fst]. destruct (Nat.eqb_spec k' k) as [->|]; [exfalso; apply H; simpl; auto|].
          apply IH. intro F. apply H. simpl. auto.
        * intros [-> _]. right. split; [reflexivity|]. eexists. split; [reflexivity|].
          destruct (in_dec Nat.eq_dec k (map fst kx)) as [H|H].
          -- left. apply I3. auto.
          -- right. split; [|rewrite I2; exact H]. clear -H. induction kx as [|[k' x'] kx IH]; [reflexivity|]. cbn [filter fst]. destruct (Nat.eqb_spec k' k) as [->|]; [exfalso; apply H; simpl; auto|].
             apply IH. intro F. apply H. simpl. auto.
      + cbn [map]. rewrite app_nil_r, I3. split; [intros [[_ H]|(-> & _)]; [tauto|easy]|]. intros [-> [H|[H|[]]]]; [left; auto|easy]. }
  apply G.
Qed.

Lemma base_map_In kx p l : In (p, l) (base_map kx) -> l <> [] /\ forall x, In x l <-> In (p, x) kx.
Proof.
  intro H. apply base_map_spec in H. destruct H as [-> H]. assert (G : forall x, In x (map snd (filter (fun y => fst y =? p) kx)) <-> In (p, x) kx).
  { intro x. rewrite in_map_iff. split.
    - intros ([p' x'] & <- & Hy). apply filter_In in Hy. destruct Hy as [Hy E]. apply Nat.eqb_eq in E. simpl in E. subst. exact Hy.
    - intro Hx. exists (p, x). split; [reflexivity|]. apply filter_In. split; [exact Hx|]. apply Nat.eqb_refl. }
  split; [|exact G]. apply in_map_iff in H. destruct H as ([p' x] & <- & Hx). intro F. apply G in Hx. simpl in *. rewrite F in Hx. destruct Hx.
Qed.
Lemma base_map_key kx p x : In (p, x) kx -> exists l, In (p, l) (base_map kx).
Proof. intro H. eexists. apply base_map_spec. split; [reflexivity|]. apply (in_map fst) in H. exact H. Qed.

(** ** the table of weights *)
Section Table.
Variable lowest : Z.

Definition key (c : list dvertex) : simplex := simplex_of (map fst c) 0.

Record table (m : list (simplex * Z)) (C : list dvertex -> Prop) : Prop := {
  tb_nodup : NoDup (map (fun p => verts (fst p)) m);
  tb_in : forall s w, In (s, w) m -> (exists c, C c /\ s = key c /\ getWeight lowest c = w) /\
    forall c, C c -> verts (key c) = verts s -> (w <= getWeight lowest c)%Z;
  tb_all : forall c, C c -> exists w, In (key c, w) m
}.

Lemma table_ext m (C C' : list dvertex -> Prop) : (forall c, C c <-> C' c) -> table m C -> table m C'.
Proof.
  intros E [T1 T2 T3]. constructor; auto.
  - intros s w H. destruct (T2 s w H) as [(c & Hc & X) Y]. split; [exists c; split; [apply E; auto|auto]|]. intros c' Hc'. apply Y, E; auto.
  - intros c Hc. apply T3, E; auto.
Qed.

Lemma key_eq c s : data s = 0%Z -> verts (key c) = verts s -> s = key c.
Proof. intros H E. destruct s as [v d]. simpl in *. subst. unfold key, simplex_of in *. simpl. congruence. Qed.

Lemma visit_table m C c : table m C ->
  exists m', dowker_visit lowest m c = Ok (false, m') /\ table m' (fun x => C x \/ x = c).
Proof.
  intros [T1 T2 T3]. unfold dowker_visit. fold (key c).
  assert (Dk : forall s w, In (s, w) m -> verts (key c) = verts s -> s = key c).
  { intros s w H E. destruct (T2 s w H) as [(c' & _ & -> & _) _]. apply key_eq; auto. }
  unfold weight_find, weight_set. destruct (find (fun p => s_eqb (fst p) (key c)) m) as [[s w]|] eqn:F; cbn [option_map snd].
  - apply find_some in F. destruct F as [Hin E]. cbn [fst] in E. apply s_eqb_eq in E. assert (s = key c) by (apply (Dk s w); auto). subst s.
    assert (Ex : existsb (fun p : simplex * Z => s_eqb (fst p) (key c)) m = true) by (apply existsb_exists; exists (key c, w); split; [exact Hin|apply s_eqb_refl]).
    rewrite Ex. eexists. split; [reflexivity|].
    set (m' := map (fun p : simplex * Z => if s_eqb (fst p) (key c) then (fst p, Z.min w (getWeight lowest c)) else p) m).
    assert (Ev : map (fun p : simplex * Z => verts (fst p)) m' = map (fun p : simplex * Z => verts (fst p)) m).
    { unfold m'. rewrite map_map. apply map_ext. intros [s' w']. cbn [fst]. destruct (s_eqb s' (key c)); reflexivity. }
    assert (Hm' : forall s' w', In (s', w') m' <-> (verts s' <> verts (key c) /\ In (s', w') m) \/ (s' = key c /\ w' = Z.min w (getWeight lowest c))).
    { intros s' w'. unfold m'. rewrite in_map_iff. split.
      - intros ([s0 w0] & E0 & H0). cbn [fst] in E0. destruct (s_eqb s0 (key c)) eqn:E1.
        + injection E0 as <- <-. apply s_eqb_eq in E1. right. split; [|reflexivity]. apply (Dk s0 w0); auto.
        + injection E0 as <- <-. apply s_eqb_neq in E1. left. auto.
      - intros [[H1 H2]|[-> ->]].
        + exists (s', w'). cbn [fst]. apply s_eqb_neq in H1. rewrite H1. auto.
        + exists (key c, w). cbn [fst]. rewrite s_eqb_refl. auto. }
    constructor.
    + rewrite Ev. exact T1.
    + intros s' w' H. apply Hm' in H. destruct H as [[H1 H2]|[-> ->]].
      * destruct (T2 s' w' H2) as [(c' & Hc' & X) Y]. split; [exists c'; auto|]. intros c'' [Hc''| ->] E''; [apply Y; auto|congruence].
      * destruct (T2 _ _ Hin) as [(c' & Hc' & X1 & X2) Y]. split.
        -- destruct (Z.min_spec w (getWeight lowest c)) as [[_ ->]|[_ ->]]; [exists c'; auto|exists c; auto].
        -- intros c'' [Hc''| ->] E''; [specialize (Y c'' Hc'' E''); lia|lia].
    + intros c' [Hc'| ->].
      * destruct (T3 c' Hc') as (w' & Hw'). destruct (list_eq_dec Nat.eq_dec (verts (key c')) (verts (key c))) as [E'|E'].
        -- exists (Z.min w (getWeight lowest c)). apply Hm'. right. split; [|reflexivity]. symmetry. apply key_eq; auto.
        -- exists w'. apply Hm'. left. auto.
      * eexists. apply Hm'. right. split; reflexivity.
  - assert (Ne : forall s w, In (s, w) m -> verts s <> verts (key c)).
    { intros s w H E. apply (find_none _ _ F) in H. cbn [fst] in H. apply s_eqb_neq in H. contradiction. }
    assert (Ex : existsb (fun p : simplex * Z => s_eqb (fst p) (key c)) m = false).
    { destruct (existsb _ m) eqn:X; [|reflexivity]. apply existsb_exists in X. destruct X as ([s w] & Hs & E). apply s_eqb_eq in E. exfalso. apply (Ne s w); auto. }
    rewrite Ex. eexists. split; [reflexivity|].
    assert (Nc : forall c', C c' -> verts (key c') <> verts (key c)) by (intros c' Hc'; destruct (T3 c' Hc') as (w' & Hw'); apply (Ne _ w'); exact Hw').
    constructor.
    + rewrite map_app. cbn [map fst]. apply NoDup_app_intro; [exact T1|repeat constructor; easy|]. intros vs H1 [<-|[]]. apply in_map_iff in H1. destruct H1 as ([s w] & E & Hs). apply (Ne s w); auto.
    + intros s w H. apply in_app_or in H. destruct H as [H|[E|[]]].
      * destruct (T2 s w H) as [(c' & Hc' & X) Y]. split; [exists c'; auto|]. intros c'' [Hc''| ->] E''; [apply Y; auto|]. exfalso. apply (Ne s w H). auto.
      * injection E as <- <-. split; [exists c; auto|]. intros c'' [Hc''| ->] E''; [exfalso; apply (Nc c'' Hc''); auto|lia].
    + intros c' [Hc'| ->]; [destruct (T3 c' Hc') as (w' & Hw'); exists w'; apply in_or_app; auto|]. eexists. apply in_or_app. right. left. reflexivity.
Qed.

Lemma visit_all_table L : forall m C, table m C ->
  exists m', visit (dowker_visit lowest) L m = Ok (false, m') /\ table m' (fun x => C x \/ In x L).
Proof.
  induction L as [|c L IH]; intros m C T.
  - exists m. split; [reflexivity|]. eapply table_ext; [|exact T]. simpl. intuition.
  - destruct (visit_table m C c T) as (m1 & E1 & T1). destruct (IH m1 _ T1) as (m2 & E2 & T2). exists m2. cbn [visit]. rewrite E1. cbn [bind fst snd].
    split; [exact E2|]. eapply table_ext; [|exact T2]. intro x. simpl. intuition.
Qed.

Lemma dowker_loop_table l : forall d m C, d <= length l -> table m C ->
  exists m', dowker_loop lowest d l m = Ok m' /\ table m' (fun c => C c \/ (1 <= length c <= d /\ subseq c l)).
Proof.
  induction d as [|d IH]; intros m C Hd T.
  - exists m. split; [reflexivity|]. eapply table_ext; [|exact T]. intro c. split; [auto|]. intros [H|[H _]]; [auto|lia].
  - cbn [dowker_loop]. pose proof (for_each_ok (dowker_visit lowest) (S d) l m Hd) as M.
    destruct (visit_all_table (combs (S d) l) m C T) as (m1 & E1 & T1). rewrite E1 in M. cbn [matches] in M. rewrite M. cbn [bind fst snd].
    destruct (IH m1 _ ltac:(lia) T1) as (m2 & E2 & T2). exists m2. split; [exact E2|]. eapply table_ext; [|exact T2].
    intro c. cbv beta. rewrite combs_subseq. split.
    + intros [[H|[H1 H2]]|[H1 H2]]; [auto|right; split; [lia|auto]|right; split; [lia|auto]].
    + intros [H|[H1 H2]]; [auto|]. destruct (Nat.eq_dec (length c) (S d)); [left; right; auto|right; split; [lia|auto]].
Qed.

(** bound for the number of vertices *)
Definition max_size (dimension : nat) (l : list dvertex) : nat :=
  Nat.min (length l) (if dimension =? 0 then length l else dimension + 1).

Lemma make_table dimension L : forall m C, table m C ->
  exists m', foldM (fun ws (p : nat * list dvertex) =>
      let vertices := snd p in
      let maxDimension := if dimension =? 0 then length vertices else dimension + 1 in
      dowker_loop lowest (Nat.min (length vertices) maxDimension) vertices ws) L m = Ok m' /\
    table m' (fun c => C c \/ exists p l, In (p, l) L /\ 1 <= length c <= max_size dimension l /\ subseq c l).
Proof.
  induction L as [|[p l] L IH]; intros m C T.
  - exists m. split; [reflexivity|]. eapply table_ext; [|exact T]. intro c. split; [auto|]. intros [H|(p & l & [] & _)]; auto.
  - cbn [foldM snd]. destruct (dowker_loop_table l (max_size dimension l) m C ltac:(unfold max_size; lia) T) as (m1 & E1 & T1).
    unfold max_size in E1. rewrite E1. cbn [bind]. destruct (IH m1 _ T1) as (m2 & E2 & T2). exists m2. split; [exact E2|]. eapply table_ext; [|exact T2].
    intro c. cbv beta. split.
    + intros [[H|H]|(p' & l' & H)]; [auto|right; exists p, l; simpl; intuition|right; exists p', l'; simpl; intuition].
    + intros [H|(p' & l' & [E|H] & H')]; [auto|injection E as -> ->; left; right; exact H'|right; exists p', l'; auto].
Qed.
End Table.

Lemma weight_ge lowest c (x : dvertex) : In x c -> (snd x <= getWeight lowest c)%Z.
Proof.
  unfold getWeight. revert lowest. assert (G : forall l w, (w <= fold_left (fun w (x : dvertex) => Z.max w (snd x)) l w)%Z).
  { induction l as [|y l IH]; intro w; cbn [fold_left]; [lia|]. specialize (IH (Z.max w (snd y))). lia. }
  induction c as [|y c IH]; intros lo []; cbn [fold_left]; [|apply IH; auto]. subst. eapply Z.le_trans; [|apply G]. lia.
Qed.
Lemma weight_le lowest c m : (lowest <= m)%Z -> (forall x, In x c -> (snd x <= m)%Z) -> (getWeight lowest c <= m)%Z.
Proof.
  unfold getWeight. revert lowest. induction c as [|y c IH]; intros lo H1 H2; cbn [fold_left]; [auto|]. apply IH; [|intros; apply H2; simpl; auto].
  specialize (H2 y (or_introl eq_refl)). lia.
Qed.

(** ** the complex of a table *)
Section Dowker.
Variable E : nat -> nat -> Z -> Prop.
Variable kx : list (nat * dvertex).
Variable lowest : Z.
Variable dimension : nat.
Hypothesis HE : forall p v w, E p v w <-> In (p, (v, w)) kx.
Hypothesis Hlow : forall p v w, E p v w -> (lowest <= w)%Z.

Definition made (c : list dvertex) : Prop :=
  exists p l, In (p, l) (base_map kx) /\ 1 <= length c <= max_size dimension l /\ subseq c l.

Lemma made_seen c : made c -> seen_up_to E (map fst c) (getWeight lowest c).
Proof.
  intros (p & l & Hp & Hl & Hs). exists p. intros v Hv. apply in_map_iff in Hv. destruct Hv as ([v' w] & <- & Hx). exists w. split; [|exact (weight_ge lowest c (v', w) Hx)].
  apply HE. apply (proj2 (base_map_In _ _ _ Hp)). apply (subseq_In c); auto.
Qed.

Lemma made_length c : made c -> c <> [] /\ (dimension = 0 \/ length c <= dimension + 1).
Proof.
  intros (p & l & _ & Hl & _). split; [intros ->; simpl in Hl; lia|]. unfold max_size in Hl. destruct (Nat.eqb_spec dimension 0); [auto|lia].
Qed.

Lemma made_from (vs : list nat) (P : Z -> bool) p : NoDup vs -> vs <> [] -> (dimension = 0 \/ length vs <= dimension + 1) ->
  (forall v, In v vs -> exists w, E p v w /\ P w = true) ->
  exists c, made c /\ set_eq (map fst c) vs /\ forall x, In x c -> P (snd x) = true /\ E p (fst x) (snd x).
Proof.
  intros Hn Hne Hd H.
  assert (Hl : exists l, In (p, l) (base_map kx)).
  { destruct vs as [|v vs]; [easy|]. destruct (H v (or_introl eq_refl)) as (w & Hw & _). apply HE in Hw. apply (base_map_key _ _ _ Hw). }
  destruct Hl as (l & Hl). destruct (base_map_In _ _ _ Hl) as [_ Hin].
  set (c := pick [] (fun x => mem (fst x) vs && P (snd x)) l). exists c.
  assert (Hc : forall x, In x c -> (In (fst x) vs /\ P (snd x) = true) /\ In x l).
  { intros x Hx. split; [|apply (subseq_In c); [apply pick_subseq|exact Hx]]. apply pick_P in Hx. destruct Hx as [Hx _]. apply andb_true_iff in Hx. rewrite mem_In in Hx. exact Hx. }
  assert (Hs : set_eq (map fst c) vs).
  { intro v. split.
    - intro Hv. apply in_map_iff in Hv. destruct Hv as (x & <- & Hx). apply Hc; auto.
    - intro Hv. destruct (H v Hv) as (w & Hw & HP). apply (pick_complete _ l [] (v, w)).
      + apply Hin. apply HE. exact Hw.
      + cbn [fst snd]. rewrite HP. apply andb_true_iff. split; [apply mem_In; exact Hv|reflexivity].
      + easy. }
  refine (conj _ (conj Hs _)).
  - exists p, l. refine (conj Hl (conj _ (pick_subseq _ _ _))).
    assert (L : length c = length vs).
    { transitivity (length (map fst c)); [symmetry; apply map_length|]. apply NoDup_same_length; [apply pick_NoDup|exact Hn|exact Hs]. }
    pose proof (subseq_length c l (pick_subseq _ _ _)) as L2. unfold max_size. destruct vs as [|v vs]; [easy|]. cbn [length] in *. destruct (Nat.eqb_spec dimension 0); lia.
  - intros x Hx. destruct (Hc x Hx) as [[_ HP] Hx']. split; [exact HP|]. apply HE. rewrite <- surjective_pairing. apply Hin. exact Hx'.
Qed.

Variable order1 : list (nat * list dvertex) -> list (nat * list dvertex).
Variable order2 : list (simplex * Z) -> list (simplex * Z).
Hypothesis O1 : forall l, Permutation (order1 l) l.
Hypothesis O2 : forall l, Permutation (order2 l) l.

Lemma make_ok : exists L, makeSimplices order1 order2 lowest dimension (base_map kx) = Ok L /\
  NoDup (map verts L) /\ (forall s, In s L -> good s) /\
  (forall vs, NoDup vs -> vs <> [] -> (has L vs <-> (dimension = 0 \/ length vs <= dimension + 1) /\ seen E vs)) /\
  forall s, In s L -> appears_at E (verts s) (data s).
Proof.
  unfold makeSimplices. destruct (make_table lowest dimension (order1 (base_map kx)) [] (fun _ => False)) as (ws & E1 & T).
  { constructor; simpl; [constructor|easy|easy]. }
  match goal with |- context[bind ?m _] => replace m with (@Ok (list (simplex * Z)) ws) by (symmetry; exact E1) end.
  cbn [bind]. eexists. split; [reflexivity|].
  apply (table_ext lowest ws _ made) in T.
  2: { intro c. split.
    - intros [[]|(p & l & H & H')]. exists p, l. split; [|exact H']. apply (Permutation_in _ (O1 _)). exact H.
    - intros (p & l & H & H'). right. exists p, l. split; [|exact H']. apply (Permutation_in _ (Permutation_sym (O1 _))). exact H. }
  destruct T as [T1 T2 T3]. set (L := map (fun p : simplex * Z => set_data (fst p) (snd p)) (order2 ws)).
  assert (HL : forall s, In s L <-> exists u w, In (u, w) ws /\ s = set_data u w).
  { intro s. unfold L. rewrite in_map_iff. split.
    - intros ([u w] & <- & H). exists u, w. split; [|reflexivity]. apply (Permutation_in _ (O2 _)). exact H.
    - intros (u & w & H & ->). exists (u, w). split; [reflexivity|]. apply (Permutation_in _ (Permutation_sym (O2 _))). exact H. }
  assert (Hkey : forall c v, In v (verts (key c)) <-> In v (map fst c)) by (intros; apply simplex_of_In).
  assert (HsL : forall s, In s L -> exists c, made c /\ verts s = verts (key c) /\ data s = getWeight lowest c /\
    forall c', made c' -> verts (key c') = verts s -> (data s <= getWeight lowest c')%Z).
  { intros s Hs. apply HL in Hs. destruct Hs as (u & w & H & ->). destruct (T2 u w H) as [(c & Hc & -> & <-) Y]. exists c. auto. }
  assert (Hg : forall s, In s L -> good s).
  { intros s Hs. destruct (HsL s Hs) as (c & Hc & Ev & _). split.
    - unfold wf. rewrite Ev. apply simplex_of_wf.
    - rewrite Ev. intro F. destruct (made_length c Hc) as [N _]. destruct c as [|x c]; [easy|]. assert (Hx : In (fst x) (verts (key (x :: c)))) by (apply Hkey; left; reflexivity).
      rewrite F in Hx. destruct Hx. }
  refine (conj _ (conj Hg (conj _ _))).
  - unfold L. rewrite map_map. cbn [set_data verts]. apply (Permutation_NoDup (l := map (fun p : simplex * Z => verts (fst p)) ws)); [|exact T1].
    apply Permutation_map, Permutation_sym, O2.
  - intros vs Hn Hne. split.
    + intros (s & Hs & Es). destruct (HsL s Hs) as (c & Hc & Ev & _). destruct (made_length c Hc) as [_ Hd]. split.
      * destruct Hd as [Hd|Hd]; [auto|]. right. eapply Nat.le_trans; [|exact Hd]. replace (length c) with (length (map fst c)) by apply map_length. apply NoDup_incl_length; [exact Hn|].
        intros v Hv. apply Hkey. rewrite <- Ev. apply Es. exact Hv.
      * destruct (made_seen c Hc) as (p & Hp). exists p. intros v Hv. apply Es in Hv. rewrite Ev in Hv. apply Hkey in Hv. destruct (Hp v Hv) as (w & Hw & _). eauto.
    + intros [Hd (p & Hp)]. destruct (made_from vs (fun _ => true) p Hn Hne Hd) as (c & Hc & Es & _).
      { intros v Hv. destruct (Hp v Hv) as (w & Hw). eauto. }
      destruct (T3 c Hc) as (w & Hw). exists (set_data (key c) w). split; [apply HL; eauto|]. intro v. cbn [set_data verts]. rewrite Hkey. apply Es.
  - intros s Hs. destruct (HsL s Hs) as (c & Hc & Ev & Ed & Hmin). split.
    + destruct (made_seen c Hc) as (p & Hp). exists p. intros v Hv. rewrite Ed. apply Hp. apply Hkey. rewrite <- Ev. exact Hv.
    + intros m (p & Hp). destruct (Hg s Hs) as [Hwf Hne]. destruct (made_from (verts s) (fun w => (w <=? m)%Z) p) as (c' & Hc' & Es & Hw').
      * apply SSgt_NoDup. exact Hwf.
      * exact Hne.
      * destruct (made_length c Hc) as [_ [Hd|Hd]]; [auto|]. right. eapply Nat.le_trans; [|exact Hd]. replace (length c) with (length (map fst c)) by apply map_length. apply NoDup_incl_length; [apply SSgt_NoDup; exact Hwf|].
        intros v Hv. apply Hkey. rewrite <- Ev. exact Hv.
      * intros v Hv. destruct (Hp v Hv) as (w & Hw & Hle). exists w. split; [exact Hw|]. apply Z.leb_le. exact Hle.
      * eapply Z.le_trans; [apply (Hmin c' Hc')|].
        -- apply wf_ext; [apply simplex_of_wf|exact Hwf|]. intro v. rewrite Hkey. apply Es.
        -- assert (Hx : forall x, In x c' -> (snd x <= m)%Z) by (intros x Hx; apply Z.leb_le; apply Hw'; exact Hx).
           apply weight_le; [|exact Hx]. destruct (made_length c' Hc') as [N _]. destruct c' as [|x c']; [easy|]. specialize (Hx x (or_introl eq_refl)).
           destruct (Hw' x (or_introl eq_refl)) as [_ He]. apply Hlow in He. lia.
Qed.
End Dowker.

(** ** putting the simplices into a complex *)
Lemma insert_into_new L : (forall s, In s L -> good s) -> NoDup (map verts L) ->
  exists K, insert_into k_empty L = Ok K /\ reachable K /\ by_index K = L.
Proof.
  intros Hg Hn. destruct (insert_new L k_empty empty_kwf Hg) as (K & EK & HK & HI); [exact Hn|].
  exists K. unfold insert_into. rewrite EK. refine (conj eq_refl (conj _ HI)).
  replace K with (fst (k_insert k_empty L)) by (rewrite EK; reflexivity). apply insert_reachable; [|intros s Hs; apply Hg; auto].
  exists 0%Z, 0%Z, []. reflexivity.
Qed.
