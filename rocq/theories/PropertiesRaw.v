(** * Raw files of persistence diagrams (C123) *)
From Coq Require Import String Ascii List Arith NArith ZArith Bool Lia.
From Verif Require Import Base BaseFacts LoadMatrix SpecText LoadFacts StringUtilities PropertiesString PointCloud PropertiesPointCloud DiagramIO.
Import ListNotations.
Local Open Scope list_scope.

(** Specification: the first two words of a line *)
Definition plain_word (a : str) : Prop := a <> [] /\ forall c, In c a -> isspace c = false.
Definition two_words (l a b : str) : Prop :=
  exists s0 s1 rest, l = s0 ++ a ++ s1 ++ b ++ rest /\ spaces s0 /\ plain_word a /\ spaces s1 /\ s1 <> [] /\ plain_word b /\
    forall c t, rest = c :: t -> isspace c = true.
(** lines that are neither empty nor comments *)
Definition is_data (l : str) : bool := match l with [] => false | c :: _ => negb (Ascii.eqb c hash) end.

Lemma tokens_spaces s0 l : spaces s0 -> tokens [] (s0 ++ l) = tokens [] l.
Proof. induction 1 as [|c s0 Hc _ IH]; cbn [app tokens]; [reflexivity|]. rewrite Hc. exact IH. Qed.
Lemma tokens_plain a cur l : (forall c, In c a -> isspace c = false) -> tokens cur (a ++ l) = tokens (cur ++ a) l.
Proof.
  revert cur. induction a as [|c a IH]; intros cur H; cbn [app tokens]; [rewrite app_nil_r; reflexivity|].
  rewrite (H c (or_introl eq_refl)). rewrite IH by (intros; apply H; simpl; auto). rewrite <- app_assoc. reflexivity.
Qed.
Lemma tokens_stop cur l : cur <> [] -> (forall c t, l = c :: t -> isspace c = true) -> tokens cur l = cur :: tokens [] l.
Proof.
  intros Hc Hl. destruct l as [|c t]; cbn [tokens]; [destruct cur; easy|]. rewrite (Hl c t eq_refl). destruct cur; easy.
Qed.

(** the first token of a line *)
Lemma first_token l : match tokens [] l with
  | [] => spaces l
  | a :: ts => exists s0 r, l = s0 ++ a ++ r /\ spaces s0 /\ plain_word a /\ (forall c t, r = c :: t -> isspace c = true) /\ tokens [] r = ts
  end.
Proof.
  assert (G : forall l cur, cur <> [] -> (forall c, In c cur -> isspace c = false) ->
    exists a r, tokens cur l = (cur ++ a) :: tokens [] r /\ l = a ++ r /\ (forall c, In c a -> isspace c = false) /\ (forall c t, r = c :: t -> isspace c = true)).
  { clear l. induction l as [|c l IH]; intros cur Hc Hw.
    - exists [], []. cbn [tokens app]. rewrite app_nil_r. destruct cur; [congruence|]. repeat split; easy.
    - cbn [tokens]. destruct (isspace c) eqn:E.
      + exists [], (c :: l). rewrite app_nil_r. cbn [tokens app]. rewrite E. destruct cur; [congruence|]. refine (conj eq_refl (conj eq_refl (conj _ _))); [intros ? []|]. intros c' t Q. injection Q as <- <-. exact E.
      + destruct (IH (cur ++ [c])) as (a & r & H1 & H2 & H3 & H4); [destruct cur; discriminate|intros c' Hc'; apply in_app_or in Hc'; destruct Hc' as [Hc'|[<-|[]]]; auto|].
        exists (c :: a), r. rewrite H1, H2, <- app_assoc. refine (conj eq_refl (conj eq_refl (conj _ H4))). intros c' [<-|Hc']; auto. }
  induction l as [|c l IH]; cbn [tokens]; [constructor|]. destruct (isspace c) eqn:E.
  - destruct (tokens [] l) as [|a ts]; [constructor; assumption|]. destruct IH as (s0 & r & H1 & H2 & H). exists (c :: s0), r. rewrite H1. split; [reflexivity|]. split; [constructor; assumption|exact H].
  - cbn [app]. destruct (G l [c]) as (a & r & H1 & H2 & H3 & H4); [discriminate|intros c' [<-|[]]; exact E|]. rewrite H1. exists [], r. rewrite H2. refine (conj eq_refl (conj _ (conj _ (conj H4 eq_refl)))); [constructor|].
    split; [discriminate|]. intros c' [<-|Hc']; auto.
Qed.

Lemma two_words_tokens l a b : two_words l a b <-> exists ts, tokens [] l = a :: b :: ts.
Proof.
  split.
  - intros (s0 & s1 & rest & -> & H0 & [Ha1 Ha2] & H1 & Hne & [Hb1 Hb2] & Hr). rewrite tokens_spaces by exact H0. rewrite tokens_plain by exact Ha2. cbn [app].
    assert (Hs : forall c t, s1 ++ b ++ rest = c :: t -> isspace c = true).
    { intros c t E. destruct s1 as [|d s1]; [congruence|]. cbn in E. injection E as <- _. inversion H1. assumption. }
    rewrite tokens_stop by auto.
    rewrite tokens_spaces by exact H1. rewrite tokens_plain by exact Hb2. cbn [app]. rewrite tokens_stop by auto. eauto.
  - intros (ts & H). pose proof (first_token l) as F. rewrite H in F. destruct F as (s0 & r & -> & H0 & Ha & Hr & E).
    pose proof (first_token r) as F. rewrite E in F. destruct F as (s1 & r' & -> & H1 & Hb & Hr' & _).
    exists s0, s1, r'. refine (conj eq_refl (conj H0 (conj Ha (conj H1 (conj _ (conj Hb Hr')))))).
    intros ->. destruct Hb as [Hb1 Hb2]. destruct b as [|c b]; [congruence|]. cbn in Hr. specialize (Hr c (b ++ r') eq_refl). rewrite (Hb2 c (or_introl eq_refl)) in Hr. discriminate.
Qed.

Section Load.
  Context {V : Type}.
  Variable conv : str -> V.

  Lemma raw_lines lines D : match foldM (raw_line conv) lines D with
    | Ok D' => exists ps, Forall2 (fun l p => exists a b, two_words l a b /\ p = (conv a, conv b)) (filter is_data lines) ps /\ D' = Dgm (dg_dim D) (dg_points D ++ ps)
    | Throw e => e = RuntimeError /\ exists l, In l (filter is_data lines) /\ forall a b, ~ two_words l a b
    | _ => False
    end.
  Proof.
    revert D. induction lines as [|l lines IH]; intro D; cbn [foldM].
    - exists []. split; [constructor|]. rewrite app_nil_r. destruct D; reflexivity.
    - unfold raw_line at 1. assert (Skip : is_data l = false -> match foldM (raw_line conv) lines D with
        | Ok D' => exists ps, Forall2 (fun l p => exists a b, two_words l a b /\ p = (conv a, conv b)) (filter is_data (l :: lines)) ps /\ D' = Dgm (dg_dim D) (dg_points D ++ ps)
        | Throw e => e = RuntimeError /\ exists l', In l' (filter is_data (l :: lines)) /\ forall a b, ~ two_words l' a b
        | _ => False end) by (intro S; cbn [filter]; rewrite S; apply IH).
      destruct l as [|c l]; [apply Skip; reflexivity|]. destruct (Ascii.eqb c hash) eqn:Eh; [apply Skip; cbn; rewrite Eh; reflexivity|]. clear Skip.
      assert (Ed : is_data (c :: l) = true) by (cbn; rewrite Eh; reflexivity).
      cbn [filter]. rewrite Ed. set (l0 := c :: l) in *. destruct (tokens [] l0) as [|a [|b ts]] eqn:T.
      + cbn [bind]. split; [reflexivity|]. exists l0. split; [simpl; auto|]. intros a b H. apply two_words_tokens in H. destruct H as (ts & H). congruence.
      + cbn [bind]. split; [reflexivity|]. exists l0. split; [simpl; auto|]. intros a' b H. apply two_words_tokens in H. destruct H as (ts & H). congruence.
      + cbn [bind]. specialize (IH (dg_add D (conv a) (conv b))). destruct (foldM _ _ _) as [D'|e| |]; auto.
        * destruct IH as (ps & H1 & ->). exists ((conv a, conv b) :: ps). split.
          -- constructor; [|exact H1]. exists a, b. split; [apply two_words_tokens; eauto|reflexivity].
          -- unfold dg_add. cbn [dg_dim dg_points]. rewrite <- app_assoc. reflexivity.
        * destruct IH as [-> (l' & H1 & H2)]. split; [reflexivity|]. exists l'. simpl. auto.
  Qed.
End Load.

(** Every line that is not empty and does not start with a hash gives a point, in order *)
Theorem C123_load : forall (V : Type) (conv : str -> V) lines last, (forall l, In l (lines ++ [last]) -> ~ In newline l) ->
  let data := filter is_data (lines ++ [last]) in
  (forall ps, Forall2 (fun l p => exists a b, two_words l a b /\ p = (conv a, conv b)) data ps -> load_raw conv (text_of lines last) = Ok (Dgm 0 ps)) /\
  ((exists l, In l data /\ forall a b, ~ two_words l a b) -> load_raw conv (text_of lines last) = Throw RuntimeError).
Proof.
  intros V conv lines last Hn data. unfold load_raw. rewrite getlines_text by exact Hn.
  assert (Ed : filter is_data (lines ++ match last with [] => [] | _ => [last] end) = data).
  { unfold data. rewrite !filter_app. destruct last; reflexivity. }
  pose proof (raw_lines conv (lines ++ match last with [] => [] | _ => [last] end) (Dgm 0 [])) as R. rewrite Ed in R.
  assert (Det : forall l a b a' b', two_words l a b -> two_words l a' b' -> a = a' /\ b = b').
  { intros l a b a' b' H1 H2. apply two_words_tokens in H1, H2. destruct H1 as (t1 & H1), H2 as (t2 & H2). rewrite H1 in H2. injection H2. auto. }
  split.
  - intros ps HF. destruct (foldM _ _ _) as [D|e| |]; [| |contradiction|contradiction].
    + destruct R as (ps' & H1 & ->). cbn [dg_dim dg_points app]. do 2 f_equal. clear - HF H1 Det. revert ps' H1. induction HF as [|l p data ps (a & b & Hab & ->) HF IH]; intros ps' H1; inversion H1 as [|? p' ? ps'' (a' & b' & Hab' & ->) H2]; subst; [reflexivity|].
      destruct (Det _ _ _ _ _ Hab Hab') as [-> ->]. f_equal. apply IH. exact H2.
    + exfalso. destruct R as [_ (l & Hl & Hx)]. clear - HF Hl Hx. induction HF as [|l' p data ps (a & b & Hab & ->) HF IH]; [destruct Hl|]. destruct Hl as [<-|Hl]; [exact (Hx a b Hab)|auto].
  - intros (l & Hl & Hx). destruct (foldM _ _ _) as [D|e| |]; [| |contradiction|contradiction].
    + exfalso. destruct R as (ps & HF & _). clear - HF Hl Hx. induction HF as [|l' p data ps (a & b & Hab & ->) HF IH]; [destruct Hl|]. destruct Hl as [<-|Hl]; [exact (Hx a b Hab)|auto].
    + destruct R as [-> _]. reflexivity.
Qed.

(** What the output operator writes is read again, except for the dimension *)
Theorem C123_round_trip : forall (V : Type) (conv : str -> V) show D, (forall p, In p (dg_points D) -> readable conv show (fst p) /\ readable conv show (snd p)) ->
  load_raw conv (print_points show D) = Ok (Dgm 0 (dg_points D)).
Proof.
  intros V conv show D Hr. set (row := fun p : V * V => show (fst p) ++ [tab] ++ show (snd p)).
  assert (E : print_points show D = text_of (map row (dg_points D)) []).
  { unfold print_points, text_of. rewrite app_nil_r. induction (dg_points D) as [|p l IH]; [reflexivity|]. cbn [flat_map map]. rewrite IH by (intros; apply Hr; simpl; auto). unfold row. rewrite <- !app_assoc. reflexivity. }
  assert (Sp : forall x c, readable conv show x -> In c (show x) -> isspace c = false).
  { intros x c H1 H2. eapply show_space; eauto. }
  assert (Nl : forall c, isspace c = false -> c <> newline) by (intros c H ->; discriminate).
  rewrite E. apply C123_load.
  - intros l Hl Hc. apply in_app_or in Hl. destruct Hl as [Hl|[<-|[]]]; [|destruct Hc]. apply in_map_iff in Hl. destruct Hl as (p & <- & Hp). destruct (Hr p Hp) as [R1 R2]. unfold row in Hc. rewrite !in_app_iff in Hc.
    destruct Hc as [Hc|[[Hc|[]]|Hc]]; [apply (Nl _ (Sp _ _ R1 Hc)); reflexivity|discriminate|apply (Nl _ (Sp _ _ R2 Hc)); reflexivity].
  - rewrite filter_app. cbn [filter is_data]. rewrite app_nil_r. clear E. induction (dg_points D) as [|p l IH]; [constructor|]. cbn [map filter].
    destruct (Hr p (or_introl eq_refl)) as [(A1 & A2 & A3 & A4) R2]. pose proof (Hr p (or_introl eq_refl)) as [R1 _]. destruct R2 as (B1 & B2 & B3 & B4). pose proof (Hr p (or_introl eq_refl)) as [_ R2].
    assert (Ed : is_data (row p) = true).
    { unfold row. destruct (show (fst p)) as [|c t] eqn:Es; [congruence|]. cbn. apply negb_true_iff, Ascii.eqb_neq. intros ->. apply A4. simpl. auto. }
    rewrite Ed. constructor; [|apply IH; intros; apply Hr; simpl; auto].
    exists (show (fst p)), (show (snd p)). split; [|rewrite A1, B1; destruct p; reflexivity].
    exists [], [tab], []. rewrite app_nil_r. refine (conj eq_refl (conj _ (conj _ (conj _ (conj _ (conj _ _)))))); try discriminate; try (constructor; [reflexivity|constructor]); try constructor; auto; intros c Hc; eauto.
Qed.

(** integral types *)
Theorem C123_integers : forall lo hi (D : diagram Z), (forall p, In p (dg_points D) -> (lo <= fst p <= hi /\ lo <= snd p <= hi)%Z) ->
  load_raw (fun s => fst (convert lo hi s)) (print_points print_Z D) = Ok (Dgm 0 (dg_points D)).
Proof. intros lo hi D H. apply C123_round_trip. intros p Hp. destruct (H p Hp). split; apply C85_integers; assumption. Qed.

Definition example_raw : str := chars "# x y" ++ [newline] ++ [newline] ++ chars "1 2" ++ [newline] ++ chars " -3" ++ [tab] ++ chars "4 5" ++ [newline].
Example C123_example : load_raw byte example_raw = Ok (Dgm 0 [(1, 2); (-3, 4)]%Z) /\
  load_raw byte (print_points print_Z (Dgm 1 [(7, -8); (0, 100)]%Z)) = Ok (Dgm 0 [(7, -8); (0, 100)]%Z) /\ load_raw byte (chars "1") = Throw RuntimeError.
Proof. vm_compute. auto. Qed.

(** Words that are not numbers do not lead to an exception *)
Theorem C123_garbage_refuted : load_raw byte (chars "a b") = Ok (Dgm 0 [(0, 0)]%Z).
Proof. reflexivity. Qed.
(** A comment after a space is read as a point *)
Theorem C123_comment_refuted : load_raw byte (chars " # birth death") = Ok (Dgm 0 [(0, 0)]%Z).
Proof. reflexivity. Qed.
(** A line that looks empty *)
Theorem C123_blank_refuted : forall l, l <> [] -> (forall c, In c l -> c = " "%char \/ c = tab) -> load_raw byte l = Throw RuntimeError.
Proof.
  intros l Hne H. assert (E : l = text_of [] l) by reflexivity. rewrite E.
  assert (Hs : forall c, In c l -> isspace c = true) by (intros c Hc; destruct (H c Hc) as [->| ->]; reflexivity).
  apply (C123_load Z byte [] l).
  - intros l' [<-|[]] Hc. destruct (H _ Hc); discriminate.
  - exists l. split.
    + cbn [app filter]. destruct l as [|c t]; [congruence|]. cbn [is_data]. destruct (H c (or_introl eq_refl)) as [->| ->]; simpl; auto.
    + intros a b (s0 & s1 & rest & El & _ & [Ha1 Ha2] & _). destruct a as [|c a]; [congruence|]. specialize (Ha2 c (or_introl eq_refl)). rewrite Hs in Ha2; [discriminate|]. rewrite El. rewrite !in_app_iff. simpl. auto.
Qed.

Print Assumptions C123_load.
Print Assumptions C123_round_trip.
Print Assumptions C123_integers.
Print Assumptions C123_blank_refuted.
