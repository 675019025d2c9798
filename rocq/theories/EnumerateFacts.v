(** * Facts about nested enumerations. *)

From Coq Require Import List Arith Bool Lia Permutation.
From Verif Require Import Base BaseFacts TopDown CombinationFacts SpecCombine Combine CombineFacts Permute PermuteFacts.
Import ListNotations.

Section Enumerate.
Context {Elt : Type}.

(** the calls recorded by a function object *)
Definition trace (proc : forall T : Type, (T -> list Elt -> outcome (bool * T * list Elt)) -> T -> list Elt -> outcome (bool * T * list Elt)) (v : list Elt) : list (list Elt) :=
  match proc (list (list Elt)) (fun st w => Ok (false, st ++ [w], w)) [] v with Ok (_, L, _) => L | _ => [] end.

Lemma enumerates_trace proc (v : list Elt) L fin : enumerates proc v L fin -> trace proc v = L.
Proof.
  intro H. specialize (H (list (list Elt)) (fun st w => Ok (false, st ++ [w], w)) (fun st w => Ok (false, st ++ [w])) ltac:(intros; reflexivity) []).
  assert (E : forall l st, visit (fun (st : list (list Elt)) (w : list Elt) => Ok (false, st ++ [w])) l st = Ok (false, st ++ l)).
  { induction l as [|x l IH]; intro st; cbn [visit bind fst snd]; [rewrite app_nil_r; reflexivity|]. rewrite IH, <- app_assoc. reflexivity. }
  rewrite E in H. cbn [matches app] in H. unfold trace. rewrite H. reflexivity.
Qed.

Lemma enumerates_nil (v : list Elt) : enumerates (fun T f st v => Ok (false, st, v)) v [] v.
Proof. intros T f g H st. reflexivity. Qed.

Lemma enumerates_one (v : list Elt) : enumerates (fun T f => f) v [v] v.
Proof. intros T f g H st. rewrite visit_one. apply H. reflexivity. Qed.

Lemma enumerates_seq p1 p2 (v : list Elt) L1 v1 L2 v2 : enumerates p1 v L1 v1 -> length v1 = length v -> enumerates p2 v1 L2 v2 ->
  enumerates (fun T f st v => until (p1 T f st v) (fun st v => p2 T f st v)) v (L1 ++ L2) v2.
Proof.
  intros H1 EL H2 T f g H st. rewrite visit_app. eapply until_matches; [apply H1, H|]. intro s. apply H2. rewrite EL. exact H.
Qed.

(** a function object that is itself an enumeration *)
Lemma enumerates_nest outer inner L2 (v : list Elt) L fin : enumerates outer v L fin ->
  (forall w, length w = length v -> enumerates inner w (L2 w) w) ->
  enumerates (fun T f => outer T (inner T f)) v (flat_map L2 L) fin.
Proof.
  intros Ho Hi T f g H st. rewrite <- visit_nested. apply Ho. intros s w Lw. apply Hi; [exact Lw|]. rewrite Lw. exact H.
Qed.

Lemma enumerates_swapped p (P : list Elt) x Q y R i j L fin : i = length P -> j = length P + 1 + length Q ->
  enumerates p (P ++ y :: Q ++ x :: R) L fin ->
  enumerates (fun T f st v => swapped i j v (fun v => p T f st v)) (P ++ x :: Q ++ y :: R) L fin.
Proof.
  intros Hi Hj H T f g Hf st. rewrite swapped_mid by assumption. apply H. intros s w Lw. apply Hf. rewrite Lw. rewrite !app_length; simpl; rewrite !app_length. reflexivity.
Qed.

Lemma NoDup_app_disjoint {X} (a : list X) : forall b, NoDup a -> NoDup b -> (forall x, In x a -> ~ In x b) -> NoDup (a ++ b).
Proof.
  induction a as [|u a IHa]; intros b Na Nb D; [exact Nb|]. inversion Na; subst. cbn [app]. constructor.
  - intro F. apply in_app_or in F. destruct F as [F|F]; [tauto|]. exact (D u (or_introl eq_refl) F).
  - apply IHa; auto. intros x Hx. apply D. right. exact Hx.
Qed.

Lemma NoDup_flat_map {X Y} (h : X -> list Y) l : NoDup l -> (forall x, In x l -> NoDup (h x)) ->
  (forall x y z, In x l -> In y l -> In z (h x) -> In z (h y) -> x = y) -> NoDup (flat_map h l).
Proof.
  induction l as [|x l IH]; intros N1 N2 N3; cbn [flat_map]; [constructor|]. inversion N1; subst. apply NoDup_app_disjoint.
  - apply N2. left. reflexivity.
  - apply IH; auto; [intros; apply N2; right; assumption|]. intros u w z Hu Hw. apply N3; right; assumption.
  - intros z Hz F. apply in_flat_map in F. destruct F as (y & Hy & Fz). assert (x = y) by (eapply N3; [left; reflexivity|right; exact Hy|exact Hz|exact Fz]). subst y. contradiction.
Qed.

Lemma NoDup_map_inj {X Y} (h : X -> Y) l : NoDup l -> (forall x y, In x l -> In y l -> h x = h y -> x = y) -> NoDup (map h l).
Proof.
  induction 1 as [|x l Hx ND IH]; intro Hi; cbn [map]; constructor.
  - intro F. apply in_map_iff in F. destruct F as (y & E & Hy). apply Hx. rewrite (Hi x y (or_introl eq_refl) (or_intror Hy) (eq_sym E)). exact Hy.
  - apply IH. intros u w Hu Hw. apply Hi; right; assumption.
Qed.

Lemma app_inj_len {X} (a b c d : list X) : length a = length c -> a ++ b = c ++ d -> a = c /\ b = d.
Proof.
  revert c. induction a as [|x a IH]; intros [|y c] L E; try discriminate L; [auto|]. simpl in L. injection L as L. injection E as -> E. destruct (IH c L E) as [-> ->]. auto.
Qed.

(** ** splits *)
Lemma splits_complete l : NoDup l -> forall A B : list Elt, Permutation (A ++ B) l ->
  exists p, In p (splits (length A) l) /\ Permutation (fst p) A /\ Permutation (snd p) B.
Proof.
  induction l as [|x l IH]; intros ND A B P.
  - apply Permutation_sym, Permutation_nil in P. apply app_eq_nil in P. destruct P as [-> ->]. exists ([], []). cbn. auto.
  - inversion ND; subst. assert (Hx : In x (A ++ B)) by (eapply Permutation_in; [apply Permutation_sym; exact P|left; reflexivity]).
    apply in_app_or in Hx. destruct Hx as [Hx|Hx]; apply in_split in Hx.
    + destruct Hx as (U & V & ->). rewrite <- app_assoc in P. cbn [app] in P. apply Permutation_sym, Permutation_cons_app_inv, Permutation_sym in P.
      rewrite app_assoc in P. destruct (IH H2 (U ++ V) B P) as (p & Hp & P1 & P2). exists (x :: fst p, snd p). cbn [fst snd]. refine (conj _ (conj _ P2)).
      * replace (length (U ++ x :: V)) with (S (length (U ++ V))) by (rewrite !app_length; simpl; lia). cbn [splits]. apply in_or_app. left.
        apply in_map_iff. exists p. auto.
      * apply Permutation_cons_app. exact P1.
    + destruct Hx as (U & V & ->). rewrite app_assoc in P. apply Permutation_sym, Permutation_cons_app_inv, Permutation_sym in P.
      rewrite <- app_assoc in P. destruct (IH H2 A (U ++ V) P) as (p & Hp & P1 & P2). exists (fst p, x :: snd p). cbn [fst snd]. refine (conj _ (conj P1 _)).
      * destruct A as [|a A].
        { cbn [length] in *. destruct l; destruct Hp as [<-|[]]; left; reflexivity. }
        cbn [length splits]. apply in_or_app. right. apply in_map_iff. exists p. auto.
      * apply Permutation_cons_app. exact P2.
Qed.

Lemma splits_incl k l p (z : Elt) : In p (splits k l) -> In z (fst p) \/ In z (snd p) -> In z l.
Proof. intros Hp Hz. destruct (splits_perm k l p Hp) as [P _]. eapply Permutation_in; [exact P|]. apply in_or_app. exact Hz. Qed.

Lemma splits_inj l : NoDup l -> forall k (p q : list Elt * list Elt), In p (splits k l) -> In q (splits k l) -> (forall z, In z (fst p) -> In z (fst q)) -> p = q.
Proof.
  induction l as [|x l IH]; intros ND k p q Hp Hq Hz.
  - destruct k; [|destruct Hp]. destruct Hp as [<-|[]]. destruct Hq as [<-|[]]. reflexivity.
  - inversion ND; subst. destruct k as [|k]; [destruct Hp as [<-|[]]; destruct Hq as [<-|[]]; reflexivity|]. cbn [splits] in Hp, Hq. apply in_app_or in Hp, Hq.
    destruct Hp as [Hp|Hp]; apply in_map_iff in Hp; destruct Hp as (p' & <- & Hp); destruct Hq as [Hq|Hq]; apply in_map_iff in Hq; destruct Hq as (q' & <- & Hq); cbn [fst snd] in *.
    + assert (E : p' = q'). { apply (IH H2 k); auto. intros z Iz. destruct (Hz z (or_intror Iz)) as [<-|]; auto. exfalso. apply H1. eapply splits_incl; [exact Hp|left; exact Iz]. }
      rewrite E. reflexivity.
    + exfalso. apply H1. eapply splits_incl; [exact Hq|]. left. apply Hz. left. reflexivity.
    + assert (Ip : incl (fst p') (fst q')). { intros z Iz. destruct (Hz z Iz) as [<-|]; auto. exfalso. apply H1. eapply splits_incl; [exact Hp|left; exact Iz]. }
      destruct (splits_perm _ _ _ Hp) as [P Lp], (splits_perm _ _ _ Hq) as [_ Lq].
      assert (N : NoDup (fst p')). { apply Permutation_sym, Permutation_NoDup in P; auto. revert P. clear. generalize (fst p'). induction l as [|u m IHm]; [constructor|]. cbn [app]. inversion 1; subst. constructor; [|auto]. intro F. apply H1. apply in_or_app. auto. }
      pose proof (NoDup_incl_length N Ip). lia.
    + assert (E : p' = q') by (apply (IH H2 (S k)); auto). rewrite E. reflexivity.
Qed.

Lemma splits_NoDup l : NoDup l -> forall k, NoDup (@splits Elt k l).
Proof.
  intro ND. induction ND as [|x l Hx ND IH]; intros [|k]; cbn [splits]; try (constructor; [intros []|constructor]); [constructor|].
  apply NoDup_app_disjoint.
  - apply NoDup_map_inj; [apply IH|]. intros [a b] [c d] _ _ E. cbn [fst snd] in E. injection E as -> ->. reflexivity.
  - apply NoDup_map_inj; [apply IH|]. intros [a b] [c d] _ _ E. cbn [fst snd] in E. injection E as -> ->. reflexivity.
  - intros z Hz F. apply in_map_iff in Hz, F. destruct Hz as (p & <- & Hp). destruct F as (q & E & Hq). injection E as E _. apply Hx.
    eapply splits_incl; [exact Hq|]. left. rewrite E. left. reflexivity.
Qed.

(** ** permutations of ranges *)
Definition perm_at (i n : nat) (w : list Elt) : list (list Elt) := map (fun x => firstn i w ++ x ++ skipn (i + n) w) (perms n (firstn n (skipn i w))).

Lemma perm_at_mid (P X R : list Elt) i n : i = length P -> n = length X -> perm_at i n (P ++ X ++ R) = map (fun x => P ++ x ++ R) (perms n X).
Proof.
  intros -> ->. unfold perm_at. rewrite (firstn_len (length P) P), (skipn_len (length P) P), (firstn_len (length X) X) by reflexivity. apply map_ext. intro x.
  replace (skipn (length P + length X) (P ++ X ++ R)) with R; [reflexivity|]. symmetry. rewrite app_assoc. apply skipn_len. rewrite app_length. reflexivity.
Qed.

Lemma range_split (w : list Elt) i n : i + n <= length w -> exists P X R, w = P ++ X ++ R /\ i = length P /\ n = length X.
Proof.
  intro H. exists (firstn i w), (firstn n (skipn i w)), (skipn n (skipn i w)). rewrite firstn_skipn, firstn_skipn. refine (conj eq_refl (conj _ _)).
  - rewrite firstn_length. lia.
  - rewrite firstn_length, skipn_length. lia.
Qed.

Lemma permute_at (w : list Elt) i n : i + n <= length w -> enumerates (fun T f => permute f n i) w (perm_at i n w) w.
Proof. intro H. destruct (range_split w i n H) as (P & X & R & -> & Hi & Hn). rewrite perm_at_mid by assumption. apply permute_ok; assumption. Qed.

Lemma rev2_at (w : list Elt) i n j m : i + n <= length w -> j + m <= length w ->
  enumerates (fun T f => rev2 f i n j m) w (flat_map (perm_at j m) (perm_at i n w)) w.
Proof. intros H1 H2. unfold rev2. apply (enumerates_nest (fun T f => permute f n i) (fun T f => permute f m j)); [apply permute_at, H1|]. intros w' L. apply permute_at. lia. Qed.

Lemma rev3_at (w : list Elt) i n j m l o : i + n <= length w -> j + m <= length w -> l + o <= length w ->
  enumerates (fun T f => rev3 f i n j m l o) w (flat_map (fun w => flat_map (perm_at l o) (perm_at j m w)) (perm_at i n w)) w.
Proof.
  intros H1 H2 H3. unfold rev3. apply (enumerates_nest (fun T f => permute f n i) (fun T f => rev2 f j m l o)); [apply permute_at, H1|]. intros w' L. apply rev2_at; lia.
Qed.

Lemma combine_enumerates (pre A M B R : list Elt) first1 first2 d1 d2 :
  first1 = length pre -> d1 = length A -> first2 = length pre + length A + length M -> d2 = length B ->
  enumerates (fun T f => combine_discontinuous f d1 first1 first2 d2 0) (pre ++ A ++ M ++ B ++ R) (map (layout pre M R) (splits (length A) (A ++ B))) (pre ++ A ++ M ++ B ++ R).
Proof. intros H1 H2 H3 H4 T f g H st. apply (combine_ok f g (length (pre ++ A ++ M ++ B ++ R)) H); auto. Qed.

(** all arrangements of two ranges *)
Lemma perm2_In (P A M B R : list Elt) i n j m w : i = length P -> n = length A -> j = length P + length A + length M -> m = length B ->
  In w (flat_map (perm_at j m) (perm_at i n (P ++ A ++ M ++ B ++ R))) <-> exists A' B', w = P ++ A' ++ M ++ B' ++ R /\ Permutation A' A /\ Permutation B' B.
Proof.
  intros Hi Hn Hj Hm. rewrite perm_at_mid by assumption. rewrite in_flat_map.
  assert (E : forall x, length x = length A -> perm_at j m (P ++ x ++ M ++ B ++ R) = map (fun y => P ++ x ++ M ++ y ++ R) (perms m B)).
  { intros x Lx. pose proof (perm_at_mid (P ++ x ++ M) B R j m) as E. rewrite <- !app_assoc in E. rewrite E by (rewrite ?app_length; lia). apply map_ext. intro y. rewrite <- !app_assoc. reflexivity. }
  split.
  - intros (u & Hu & Hw). apply in_map_iff in Hu. destruct Hu as (x & <- & Hx). apply perms_In in Hx; [|auto]. rewrite E in Hw by (apply Permutation_length; exact Hx).
    apply in_map_iff in Hw. destruct Hw as (y & <- & Hy). apply perms_In in Hy; [|auto]. exists x, y. auto.
  - intros (A' & B' & -> & PA & PB). exists (P ++ A' ++ M ++ B ++ R). split.
    + apply in_map_iff. exists A'. split; [reflexivity|]. apply perms_In; auto.
    + rewrite E by (apply Permutation_length; exact PA). apply in_map_iff. exists B'. split; [reflexivity|]. apply perms_In; auto.
Qed.

Lemma perm2_NoDup (P A M B R : list Elt) i n j m : i = length P -> n = length A -> j = length P + length A + length M -> m = length B -> NoDup A -> NoDup B ->
  NoDup (flat_map (perm_at j m) (perm_at i n (P ++ A ++ M ++ B ++ R))).
Proof.
  intros Hi Hn Hj Hm NA NB. rewrite perm_at_mid by assumption.
  assert (E : forall x, length x = length A -> perm_at j m (P ++ x ++ M ++ B ++ R) = map (fun y => P ++ x ++ M ++ y ++ R) (perms m B)).
  { intros x Lx. pose proof (perm_at_mid (P ++ x ++ M) B R j m) as E. rewrite <- !app_assoc in E. rewrite E by (rewrite ?app_length; lia). apply map_ext. intro y. rewrite <- !app_assoc. reflexivity. }
  apply NoDup_flat_map.
  - apply NoDup_map_inj; [apply perms_NoDup; auto|]. intros x y Hx Hy Ex. apply app_inv_head in Ex. apply app_inv_tail in Ex. exact Ex.
  - intros u Hu. apply in_map_iff in Hu. destruct Hu as (x & <- & Hx). apply perms_In in Hx; [|auto]. rewrite E by (apply Permutation_length; exact Hx).
    apply NoDup_map_inj; [apply perms_NoDup; auto|]. intros y z _ _ Ey. apply app_inv_head in Ey. apply app_inv_head in Ey. apply app_inv_head in Ey. apply app_inv_tail in Ey. exact Ey.
  - intros u w z Hu Hw Hz Fz. apply in_map_iff in Hu, Hw. destruct Hu as (x & <- & Hx). destruct Hw as (y & <- & Hy). apply perms_In in Hx, Hy; [|auto..].
    rewrite E in Hz, Fz by (apply Permutation_length; assumption). apply in_map_iff in Hz, Fz. destruct Hz as (b & <- & Hb). destruct Fz as (c & Ec & Hc).
    apply app_inv_head in Ec. apply app_inj_len in Ec; [|apply Permutation_length in Hx, Hy; lia]. destruct Ec as [-> _]. reflexivity.
Qed.

Lemma NoDup_app_l {X} (a b : list X) : NoDup (a ++ b) -> NoDup a.
Proof. induction a as [|x a IH]; [constructor|]. cbn [app]. inversion 1; subst. constructor; [|auto]. intro F. apply H2. apply in_or_app. auto. Qed.

Lemma NoDup_app_r {X} (a b : list X) : NoDup (a ++ b) -> NoDup b.
Proof. induction a as [|x a IH]; [auto|]. cbn [app]. inversion 1; auto. Qed.

(** all arrangements of a discontinuous range *)
Lemma arrange2 (P A M B R : list Elt) first1 d1 first2 d2 : NoDup (A ++ B) ->
  first1 = length P -> d1 = length A -> first2 = length P + length A + length M -> d2 = length B ->
  exists L, enumerates (fun T f => combine_discontinuous (rev2 f first1 d1 first2 d2) d1 first1 first2 d2 0) (P ++ A ++ M ++ B ++ R) L (P ++ A ++ M ++ B ++ R) /\
    NoDup L /\ forall w, In w L <-> exists A' B', w = P ++ A' ++ M ++ B' ++ R /\ length A' = length A /\ Permutation (A' ++ B') (A ++ B).
Proof.
  intros ND H1 H2 H3 H4.
  exists (flat_map (fun w => flat_map (perm_at first2 d2) (perm_at first1 d1 w)) (map (layout P M R) (splits (length A) (A ++ B)))).
  assert (HS : forall p, In p (splits (length A) (A ++ B)) -> length (fst p) = length A /\ length (snd p) = length B /\ Permutation (fst p ++ snd p) (A ++ B)).
  { intros p Hp. destruct (splits_perm _ _ _ Hp) as [Pp Lp]. refine (conj Lp (conj _ Pp)). apply Permutation_length in Pp. rewrite !app_length in Pp. lia. }
  assert (HI : forall p w, In p (splits (length A) (A ++ B)) -> In w (flat_map (perm_at first2 d2) (perm_at first1 d1 (layout P M R p))) <->
     exists A' B', w = P ++ A' ++ M ++ B' ++ R /\ Permutation A' (fst p) /\ Permutation B' (snd p)).
  { intros p w Hp. destruct (HS p Hp) as (L1 & L2 & _). unfold layout. apply perm2_In; lia. }
  refine (conj _ (conj _ _)).
  - apply (enumerates_nest (fun T f => combine_discontinuous f d1 first1 first2 d2 0) (fun T f => rev2 f first1 d1 first2 d2)); [apply combine_enumerates; assumption|].
    intros w Lw. rewrite !app_length in Lw. apply rev2_at; lia.
  - apply NoDup_flat_map.
    + apply NoDup_map_inj; [apply splits_NoDup; exact ND|]. intros p q Hp Hq E. unfold layout in E. apply app_inv_head in E.
      apply app_inj_len in E; [|rewrite (proj1 (HS p Hp)), (proj1 (HS q Hq)); reflexivity]. destruct E as [E1 E2]. apply app_inv_head in E2. apply app_inv_tail in E2.
      destruct p, q. cbn [fst snd] in *. subst. reflexivity.
    + intros w Hw. apply in_map_iff in Hw. destruct Hw as (p & <- & Hp). destruct (HS p Hp) as (L1 & L2 & Pp). apply Permutation_sym, Permutation_NoDup in Pp; auto.
      unfold layout. apply perm2_NoDup; try lia; [apply NoDup_app_l in Pp|apply NoDup_app_r in Pp]; exact Pp.
    + intros u w z Hu Hw Hz Fz. apply in_map_iff in Hu, Hw. destruct Hu as (p & <- & Hp). destruct Hw as (q & <- & Hq). apply (HI p z Hp) in Hz. apply (HI q z Hq) in Fz.
      destruct Hz as (A' & B' & -> & PA & PB). destruct Fz as (A2 & B2 & E & PA2 & PB2). apply app_inv_head in E.
      apply app_inj_len in E; [|apply Permutation_length in PA, PA2; destruct (HS p Hp) as (L1 & _), (HS q Hq) as (L2 & _); lia]. destruct E as [-> _].
      f_equal. apply (splits_inj (A ++ B) ND (length A)); auto. intros x Hx. eapply Permutation_in; [exact PA2|]. eapply Permutation_in; [apply Permutation_sym; exact PA|exact Hx].
  - intro w. rewrite in_flat_map. split.
    + intros (u & Hu & Hw). apply in_map_iff in Hu. destruct Hu as (p & <- & Hp). apply (HI p w Hp) in Hw. destruct Hw as (A' & B' & -> & PA & PB).
      destruct (HS p Hp) as (L1 & L2 & Pp). exists A', B'. refine (conj eq_refl (conj _ _)); [apply Permutation_length in PA; lia|].
      rewrite <- Pp. apply Permutation_app; assumption.
    + intros (A' & B' & -> & LA & PP). destruct (splits_complete (A ++ B) ND A' B' PP) as (p & Hp & P1 & P2). rewrite LA in Hp.
      exists (layout P M R p). split; [apply in_map; exact Hp|]. apply (HI p _ Hp). exists A', B'. refine (conj eq_refl (conj _ _)); apply Permutation_sym; assumption.
Qed.
End Enumerate.
