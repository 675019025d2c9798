(** * Persistence diagrams in JSON files (C124) *)
From Coq Require Import String Ascii List Arith NArith ZArith Bool Lia DecimalZ.
From Verif Require Import Base BaseFacts LoadMatrix SpecText LoadFacts StringUtilities PropertiesString PointCloud PropertiesPointCloud DiagramIO PropertiesRaw.
Import ListNotations.
Local Open Scope list_scope.

(** Specification: the grammar of JSON for natural numbers (also with leading zeros), strings without escape sequences,
    arrays and objects *)
Definition jsp (w : str) : Prop := forall c, In c w -> c = " "%char \/ c = "009"%char \/ c = "010"%char \/ c = "013"%char.
Definition jplain (s : str) : Prop := forall c, In c s -> c <> quote /\ c <> "\"%char /\ 32 <= nat_of_ascii c.
Inductive jtext : str -> json -> Prop :=
| J_num s n : numeral s n -> jtext s (JNum n)
| J_str s t : jplain s -> t = [quote] ++ s ++ [quote] -> jtext t (JStr s)
| J_arr0 w t : jsp w -> t = chars "[" ++ w ++ chars "]" -> jtext t (JArr [])
| J_arr s l t : jelems s l -> t = chars "[" ++ s ++ chars "]" -> jtext t (JArr l)
| J_obj0 w t : jsp w -> t = chars "{" ++ w ++ chars "}" -> jtext t (JObj [])
| J_obj s l t : jmembers s l -> t = chars "{" ++ s ++ chars "}" -> jtext t (JObj l)
with jelems : str -> list json -> Prop :=
| E_one w s v w' t : jsp w -> jtext s v -> jsp w' -> t = w ++ s ++ w' -> jelems t [v]
| E_cons w s v w' rest l t : jsp w -> jtext s v -> jsp w' -> jelems rest l -> t = w ++ s ++ w' ++ chars "," ++ rest -> jelems t (v :: l)
with jmembers : str -> list (str * json) -> Prop :=
| M_one w k w1 w2 s v w' t : jsp w -> jplain k -> jsp w1 -> jsp w2 -> jtext s v -> jsp w' ->
    t = w ++ [quote] ++ k ++ [quote] ++ w1 ++ chars ":" ++ w2 ++ s ++ w' -> jmembers t [(k, v)]
| M_cons w k w1 w2 s v w' rest l t : jsp w -> jplain k -> jsp w1 -> jsp w2 -> jtext s v -> jsp w' -> jmembers rest l ->
    t = w ++ [quote] ++ k ++ [quote] ++ w1 ++ chars ":" ++ w2 ++ s ++ w' ++ chars "," ++ rest -> jmembers t ((k, v) :: l).
Scheme jtext_ind3 := Induction for jtext Sort Prop
with jelems_ind3 := Induction for jelems Sort Prop
with jmembers_ind3 := Induction for jmembers Sort Prop.
Combined Scheme json_mutind from jtext_ind3, jelems_ind3, jmembers_ind3.

(** ** The parser accepts the grammar *)
Lemma jsp_cons c w : jsp (c :: w) <-> jspace c = true /\ jsp w.
Proof.
  split.
  - intro H. split; [|intros d Hd; apply H; simpl; auto]. destruct (H c (or_introl eq_refl)) as [->|[->|[->| ->]]]; reflexivity.
  - intros [H1 H2] d [<-|Hd]; [|auto]. unfold jspace in H1. rewrite !orb_true_iff, !Nat.eqb_eq in H1.
    rewrite <- (ascii_nat_embedding c). destruct H1 as [[[->| ->]| ->]| ->]; cbn; auto.
Qed.
Lemma jskip_sp w s : jsp w -> jskip (w ++ s) = jskip s.
Proof. induction w as [|c w IH]; intro H; [reflexivity|]. apply jsp_cons in H. destruct H as [H1 H2]. cbn [app jskip]. rewrite H1. auto. Qed.
Lemma jskip_stop c t : jspace c = false -> jskip (c :: t) = c :: t.
Proof. intro H. cbn [jskip]. rewrite H. reflexivity. Qed.
Lemma jstring_plain s t : jplain s -> jstring (s ++ quote :: t) = Some (s, t).
Proof.
  induction s as [|c s IH]; intro H; cbn [app jstring]; [rewrite Ascii.eqb_refl; reflexivity|].
  destruct (H c (or_introl eq_refl)) as (H1 & H2 & H3). rewrite (proj2 (Ascii.eqb_neq c quote) H1). unfold jchar.
  rewrite (proj2 (Ascii.eqb_neq c quote) H1), (proj2 (Ascii.eqb_neq c "\"%char) H2), (proj2 (Nat.leb_le _ _) H3). cbn [negb andb].
  rewrite IH by (intros d Hd; apply H; simpl; auto). reflexivity.
Qed.
Lemma jdigits_all s rest acc : Forall (fun c => exists d, digit c = Some d) s -> no_digit rest -> jdigits acc (s ++ rest) = (digits acc s, rest).
Proof.
  intros H Hr. revert acc. induction H as [|c s (d & Hd) _ IH]; intro acc; cbn [app jdigits digits].
  - destruct rest as [|c t]; [reflexivity|]. cbn [jdigits]. rewrite (Hr c t eq_refl). reflexivity.
  - rewrite Hd. apply IH.
Qed.
Lemma digit_first c d : digit c = Some d -> jspace c = false /\ c <> quote /\ c <> "["%char /\ c <> "{"%char /\ c <> "]"%char /\ c <> "}"%char.
Proof.
  unfold digit. destruct (_ && _)%bool eqn:E; [|discriminate]. intros _. apply andb_true_iff in E. destruct E as [E1 E2]. apply N.leb_le in E1, E2.
  assert (Hc : nat_of_ascii c = N.to_nat (N_of_ascii c)) by reflexivity.
  split; [unfold jspace; rewrite !orb_false_iff, !Nat.eqb_neq; lia|]. repeat split; intros ->; cbn in E1, E2; lia.
Qed.
Lemma sp_no_digit w c t : jsp w -> digit c = None -> no_digit (w ++ c :: t).
Proof.
  intros Hw Hc d u E. destruct w as [|e w]; [injection E as <- <-; exact Hc|]. cbn in E. injection E as <- _.
  destruct (Hw e (or_introl eq_refl)) as [->|[->|[->| ->]]]; reflexivity.
Qed.
Lemma numeral_all s n : numeral s n -> s <> [] /\ Forall (fun c => exists d, digit c = Some d) s /\ digits 0 s = n.
Proof.
  intro H. destruct (numeral_digits s n H) as (H1 & H2 & H3). split; [exact H1|]. split.
  - eapply Forall_impl; [|exact H2]. intros c (d & Hd). exists d. apply digit_iff. exact Hd.
  - specialize (H3 [] 0%N). rewrite app_nil_r, N.mul_0_l, N.add_0_l in H3. exact H3.
Qed.

Lemma chars1 c s : chars (String.String c String.EmptyString) ++ s = c :: s. Proof. reflexivity. Qed.

Lemma complete :
  (forall s v, jtext s v -> (exists c t, s = c :: t /\ jspace c = false /\ c <> "]"%char /\ c <> "}"%char) /\
     forall fuel w rest, jsp w -> 2 * length s <= fuel -> no_digit rest -> parse_value fuel (w ++ s ++ rest) = Some (v, rest)) /\
  (forall s l, jelems s l -> (exists w c t, s = w ++ c :: t /\ jsp w /\ jspace c = false /\ c <> "]"%char) /\
     forall fuel rest, 2 * length s + 1 <= fuel -> parse_elements fuel (s ++ "]"%char :: rest) = Some (l, rest)) /\
  (forall s l, jmembers s l -> (exists w c t, s = w ++ c :: t /\ jsp w /\ jspace c = false /\ c <> "}"%char) /\
     forall fuel rest, 2 * length s + 1 <= fuel -> parse_members fuel (s ++ "}"%char :: rest) = Some (l, rest)).
Proof.
  apply json_mutind.
  - (* numbers *) intros s n H. destruct (numeral_all s n H) as (H1 & H2 & H3). destruct s as [|c s]; [congruence|]. inversion H2 as [|? ? (d & Hd) H4]; subst.
    destruct (digit_first c d Hd) as (F1 & F2 & F3 & F4 & F5 & F6). split; [exists c, s; auto|].
    intros fuel w rest Hw Hf Hr. destruct fuel as [|f]; [cbn in Hf; lia|]. cbn [parse_value]. rewrite jskip_sp by exact Hw. cbn [app]. rewrite jskip_stop by exact F1.
    rewrite (proj2 (Ascii.eqb_neq _ _) F2), (proj2 (Ascii.eqb_neq _ _) F3), (proj2 (Ascii.eqb_neq _ _) F4), Hd, (jdigits_all s rest d H4 Hr). cbn [digits]. rewrite Hd. reflexivity.
  - (* strings *) intros s t H ->. split; [exists quote, (s ++ [quote]); repeat split; easy|].
    intros fuel w rest Hw Hf Hr. destruct fuel as [|f]; [cbn in Hf; lia|]. cbn [parse_value]. rewrite jskip_sp by exact Hw. cbn [app]. rewrite jskip_stop by reflexivity. rewrite Ascii.eqb_refl.
    rewrite <- app_assoc. cbn [app]. rewrite jstring_plain by exact H. reflexivity.
  - intros w0 t H ->. split; [exists "["%char, (w0 ++ chars "]"); repeat split; easy|].
    intros fuel w rest Hw Hf Hr. destruct fuel as [|f]; [cbn in Hf; lia|]. cbn [parse_value]. rewrite jskip_sp by exact Hw. cbn [app chars]. rewrite jskip_stop by reflexivity.
    change (Ascii.eqb "[" quote) with false. rewrite Ascii.eqb_refl. rewrite <- app_assoc, jskip_sp by exact H. reflexivity.
  - intros s l t H [(w1 & c & t1 & E & H1 & H2 & H3) IH] ->. split; [exists "["%char, (s ++ chars "]"); repeat split; easy|].
    intros fuel w rest Hw Hf Hr. rewrite !app_length in Hf. cbn [length chars] in Hf. destruct fuel as [|f]; [lia|]. cbn [parse_value]. rewrite jskip_sp by exact Hw. cbn [app chars]. rewrite jskip_stop by reflexivity.
    change (Ascii.eqb "[" quote) with false. rewrite Ascii.eqb_refl. rewrite <- app_assoc. cbn [app].
    assert (N : starts "]" (jskip (s ++ "]"%char :: rest)) = None).
    { rewrite E, <- app_assoc, jskip_sp by exact H1. cbn [app]. rewrite jskip_stop by exact H2. cbn [starts]. rewrite (proj2 (Ascii.eqb_neq _ _) H3). reflexivity. }
    rewrite N, IH by lia. reflexivity.
  - intros w0 t H ->. split; [exists "{"%char, (w0 ++ chars "}"); repeat split; easy|].
    intros fuel w rest Hw Hf Hr. destruct fuel as [|f]; [cbn in Hf; lia|]. cbn [parse_value]. rewrite jskip_sp by exact Hw. cbn [app chars]. rewrite jskip_stop by reflexivity.
    change (Ascii.eqb "{" quote) with false. change (Ascii.eqb "{" "[") with false. rewrite Ascii.eqb_refl. rewrite <- app_assoc, jskip_sp by exact H. reflexivity.
  - intros s l t H [(w1 & c & t1 & E & H1 & H2 & H3) IH] ->. split; [exists "{"%char, (s ++ chars "}"); repeat split; easy|].
    intros fuel w rest Hw Hf Hr. rewrite !app_length in Hf. cbn [length chars] in Hf. destruct fuel as [|f]; [lia|]. cbn [parse_value]. rewrite jskip_sp by exact Hw. cbn [app chars]. rewrite jskip_stop by reflexivity.
    change (Ascii.eqb "{" quote) with false. change (Ascii.eqb "{" "[") with false. rewrite Ascii.eqb_refl. rewrite <- app_assoc. cbn [app].
    assert (N : starts "}" (jskip (s ++ "}"%char :: rest)) = None).
    { rewrite E, <- app_assoc, jskip_sp by exact H1. cbn [app]. rewrite jskip_stop by exact H2. cbn [starts]. rewrite (proj2 (Ascii.eqb_neq _ _) H3). reflexivity. }
    rewrite N, IH by lia. reflexivity.
  - (* elements *) intros w s v w' t Hw H [(c & t1 & E & H1 & H2 & H3) IH] Hw' ->. split; [exists w, c, (t1 ++ w'); rewrite E; auto|].
    intros fuel rest Hf. rewrite !app_length in Hf. destruct fuel as [|f]; [lia|]. cbn [parse_elements]. rewrite <- !app_assoc.
    rewrite IH; [|exact Hw|lia|apply sp_no_digit; [exact Hw'|reflexivity]]. rewrite jskip_sp by exact Hw'. rewrite jskip_stop by reflexivity. reflexivity.
  - intros w s v w' rest0 l t Hw H [(c & t1 & E & H1 & H2 & H3) IH] Hw' He [_ IHe] ->. split; [exists w, c, (t1 ++ w' ++ chars "," ++ rest0); rewrite E; auto|].
    intros fuel rest Hf. rewrite !app_length in Hf. cbn [length chars] in Hf. destruct fuel as [|f]; [lia|]. cbn [parse_elements]. rewrite <- !app_assoc.
    rewrite IH; [|exact Hw|lia|rewrite chars1; apply sp_no_digit; [exact Hw'|reflexivity]]. rewrite jskip_sp by exact Hw'. rewrite chars1. rewrite jskip_stop by reflexivity. rewrite Ascii.eqb_refl.
    rewrite IHe by lia. reflexivity.
  - (* members *) intros w k w1 w2 s v w' t Hw Hk Hw1 Hw2 H [_ IH] Hw' ->. split; [exists w, quote, (k ++ [quote] ++ w1 ++ chars ":" ++ w2 ++ s ++ w'); repeat split; easy|].
    intros fuel rest Hf. rewrite !app_length in Hf. cbn [length chars] in Hf. destruct fuel as [|f]; [lia|]. cbn [parse_members]. rewrite <- !app_assoc.
    rewrite jskip_sp by exact Hw. cbn [app]. rewrite jskip_stop by reflexivity. cbn [starts]. rewrite Ascii.eqb_refl. rewrite jstring_plain by exact Hk. rewrite jskip_sp by exact Hw1. rewrite chars1. rewrite jskip_stop by reflexivity. cbn [starts]. rewrite Ascii.eqb_refl.
    rewrite IH; [|exact Hw2|lia|apply sp_no_digit; [exact Hw'|reflexivity]]. rewrite jskip_sp by exact Hw'. rewrite jskip_stop by reflexivity. reflexivity.
  - intros w k w1 w2 s v w' rest0 l t Hw Hk Hw1 Hw2 H [_ IH] Hw' He [_ IHe] ->. split; [exists w, quote, (k ++ [quote] ++ w1 ++ chars ":" ++ w2 ++ s ++ w' ++ chars "," ++ rest0); repeat split; easy|].
    intros fuel rest Hf. rewrite !app_length in Hf. cbn [length chars] in Hf. destruct fuel as [|f]; [lia|]. cbn [parse_members]. rewrite <- !app_assoc.
    rewrite jskip_sp by exact Hw. cbn [app]. rewrite jskip_stop by reflexivity. cbn [starts]. rewrite Ascii.eqb_refl. rewrite jstring_plain by exact Hk. rewrite jskip_sp by exact Hw1. rewrite chars1. rewrite jskip_stop by reflexivity. cbn [starts]. rewrite Ascii.eqb_refl.
    rewrite IH; [|exact Hw2|lia|rewrite chars1; apply sp_no_digit; [exact Hw'|reflexivity]]. rewrite jskip_sp by exact Hw'. rewrite chars1. rewrite jskip_stop by reflexivity. rewrite Ascii.eqb_refl.
    rewrite IHe by lia. reflexivity.
Qed.

Lemma parse_text w s v w' : jsp w -> jtext s v -> jsp w' -> parse (w ++ s ++ w') = Some v.
Proof.
  intros Hw H Hw'. unfold parse. destruct (proj1 complete s v H) as [_ C].
  rewrite C; [|exact Hw|rewrite !app_length; lia|].
  - rewrite <- (app_nil_r w'), jskip_sp by exact Hw'. reflexivity.
  - intros c t E. rewrite E in Hw'. destruct (Hw' c (or_introl eq_refl)) as [->|[->|[->| ->]]]; reflexivity.
Qed.

(** ** The writer *)
Lemma numeral_snoc_all s : s <> [] -> Forall (fun c => exists d, digit c = Some d) s -> numeral s (digits 0 s).
Proof.
  intros Hne H. induction s as [|c s IH] using rev_ind; [congruence|]. apply Forall_app in H. destruct H as [H1 H2]. inversion H2 as [|? ? (d & Hd) _]; subst.
  assert (G : forall s acc, Forall (fun c => exists d, digit c = Some d) s -> digits acc (s ++ [c]) = (10 * digits acc s + d)%N).
  { clear - Hd. induction s as [|a s IH]; intros acc H; cbn [app digits]; [rewrite Hd; reflexivity|]. inversion H as [|? ? (e & He) H']; subst. rewrite He. apply IH. exact H'. }
  rewrite G by exact H1. destruct s as [|a s].
  - cbn [app digits]. rewrite N.mul_0_r, N.add_0_l. constructor. apply digit_iff. exact Hd.
  - constructor; [apply IH; [discriminate|exact H1]|apply digit_iff; exact Hd].
Qed.

Lemma print_nat_numeral n : numeral (print_nat n) (N.of_nat n).
Proof.
  unfold print_nat, print_Z. pose proof (to_uint_not_nil (Z.of_nat n)) as Hn. pose proof (DecimalZ.of_to (Z.of_nat n)) as Hz.
  assert (Hp : exists d, Z.to_int (Z.of_nat n) = Decimal.Pos d) by (destruct n; cbn [Z.of_nat Z.to_int]; eauto). destruct Hp as (d & Hd). rewrite Hd in *.
  cbn [Z.of_int] in Hz. unfold Z.of_uint in Hz.
  assert (E : digits 0 (uint_chars d) = N.of_nat n). { rewrite <- (app_nil_r (uint_chars d)), digits_uint by discriminate. lia. }
  rewrite <- E. apply numeral_snoc_all; [destruct d; easy|]. apply Forall_forall. intros c Hc. apply (digit_char d c Hc).
Qed.

Lemma jsp_blank w : Forall (fun c => jspace c = true) w -> jsp w.
Proof. induction 1 as [|c w H _ IH]; [intros ? []|]. apply jsp_cons. auto. Qed.
Ltac blank := apply jsp_blank; repeat (constructor; [reflexivity|]); constructor.

(** a member that is written, after a line break *)
Lemma written_member k v x rest l : jplain k -> jtext v x -> jmembers ([newline] ++ rest) l -> jmembers ([newline] ++ member k v ++ rest) ((k, x) :: l).
Proof.
  intros Hk Hv Hr. apply (M_cons ([newline] ++ chars "  ") k [] (chars " ") v x [] ([newline] ++ rest) l); try assumption; try blank.
  unfold member. rewrite <- !app_assoc. reflexivity.
Qed.

Section Writer.
  Context {V : Type}.
  Variables (show : V -> str) (inf : V -> bool).

  Definition point_value (p : V * V) : json := JArr [JStr (show (fst p)); JStr (show (snd p))].
  Definition dg_plain (D : diagram V) : Prop := forall p, In p (dg_points D) -> jplain (show (fst p)) /\ jplain (show (snd p)).
  (** the object that is written *)
  Definition diagram_value (D : diagram V) (name : str) (kvs : list (str * str)) : json :=
    JObj ([(chars "betti", JNum (N.of_nat (dg_betti inf D))); (chars "dimension", JNum (N.of_nat (dg_dim D)))] ++
          map (fun kv => (fst kv, JStr (snd kv))) kvs ++
          (match name with [] => [] | _ => [(chars "name", JStr name)] end) ++
          [(chars "size", JNum (N.of_nat (dg_size D))); (chars "diagram", JArr (map point_value (dg_points D)))]).

  Lemma written_point p w w' : jplain (show (fst p)) -> jplain (show (snd p)) -> jsp w -> jsp w' -> jelems (w ++ json_point show p ++ w') [point_value p].
  Proof.
    intros H1 H2 Hw Hw'. apply (E_one (w ++ chars "    ") (chars "[" ++ quoted (show (fst p)) ++ chars "," ++ quoted (show (snd p)) ++ chars "]") (point_value p) w').
    - intros c Hc. apply in_app_or in Hc. destruct Hc as [Hc|Hc]; [auto|]. revert c Hc. change (jsp (chars "    ")). blank.
    - apply (J_arr (quoted (show (fst p)) ++ chars "," ++ quoted (show (snd p)))); [|rewrite <- !app_assoc; reflexivity].
      apply (E_cons [] (quoted (show (fst p))) (JStr (show (fst p))) [] (quoted (show (snd p))) [JStr (show (snd p))]); try blank; [apply (J_str _ _ H1); reflexivity| |reflexivity].
      apply (E_one [] (quoted (show (snd p))) (JStr (show (snd p))) []); try blank; [apply (J_str _ _ H2); reflexivity|rewrite app_nil_r; reflexivity].
    - exact Hw'.
    - unfold json_point. rewrite <- !app_assoc. reflexivity.
  Qed.

  Lemma written_points l w w' : l <> [] -> (forall p, In p l -> jplain (show (fst p)) /\ jplain (show (snd p))) -> jsp w -> jsp w' -> jelems (w ++ json_points show l ++ w') (map point_value l).
  Proof.
    intros Hne H Hw Hw'. revert w Hw Hne. induction l as [|p l IH]; intros w Hw Hne; [congruence|]. destruct (H p (or_introl eq_refl)) as [H1 H2]. destruct l as [|q l].
    - apply written_point; auto.
    - pose proof (written_point p w [] H1 H2 Hw ltac:(blank)) as P. rewrite app_nil_r in P. inversion P as [w0 s v w0' t F1 F2 F3 F4|]; subst.
      + apply (E_cons w0 s (point_value p) w0' ([newline] ++ json_points show (q :: l) ++ w') (map point_value (q :: l))); auto.
        * apply IH; [intros; apply H; simpl; auto|blank|discriminate].
        * change (json_points show (p :: q :: l)) with (json_point show p ++ chars "," ++ [newline] ++ json_points show (q :: l)). rewrite (app_assoc w), <- (app_assoc (w ++ json_point show p)) || idtac.
          rewrite <- !app_assoc. rewrite (app_assoc w (json_point show p)), F4. rewrite <- !app_assoc. reflexivity.
      + match goal with X : jelems _ [] |- _ => inversion X end.
  Qed.

  Lemma written D name kvs : dg_plain D -> jplain name -> (forall kv, In kv kvs -> jplain (fst kv) /\ jplain (snd kv)) ->
    jtext (writeJSON show inf D name kvs) (diagram_value D name kvs).
  Proof.
    intros HD Hn Hk. unfold writeJSON, diagram_value.
    assert (P : forall s, Forall (fun c => jchar c = true) s -> jplain s).
    { intros s Hs c Hc. rewrite Forall_forall in Hs. specialize (Hs c Hc). unfold jchar in Hs. rewrite !andb_true_iff, !negb_true_iff, Nat.leb_le, !Ascii.eqb_neq in Hs. tauto. }
    set (points := chars "  ""diagram"": [" ++ [newline] ++ json_points show (dg_points D) ++ [newline] ++ chars "  ]" ++ [newline]).
    apply (J_obj ([newline] ++ member (chars "betti") (print_nat (dg_betti inf D)) ++ member (chars "dimension") (print_nat (dg_dim D)) ++
      flat_map (fun kv => member (fst kv) (quoted (snd kv))) kvs ++ (match name with [] => [] | _ => member (chars "name") (quoted name) end) ++ member (chars "size") (print_nat (dg_size D)) ++ points)).
    2: { unfold points. rewrite <- !app_assoc. reflexivity. }
    cbn [app]. apply written_member; [apply P; repeat constructor|constructor; apply print_nat_numeral|]. apply written_member; [apply P; repeat constructor|constructor; apply print_nat_numeral|].
    assert (Last : jmembers ([newline] ++ points) [(chars "diagram", JArr (map point_value (dg_points D)))]).
    { apply (M_one ([newline] ++ chars "  ") (chars "diagram") [] (chars " ") (chars "[" ++ [newline] ++ json_points show (dg_points D) ++ [newline] ++ chars "  ]") (JArr (map point_value (dg_points D))) [newline]); try blank; [apply P; repeat constructor| |unfold points; rewrite <- !app_assoc; reflexivity].
      destruct (dg_points D) as [|p l] eqn:E.
      - apply (J_arr0 ([newline] ++ [newline] ++ chars "  ")); [blank|reflexivity].
      - apply (J_arr ([newline] ++ json_points show (p :: l) ++ [newline] ++ chars "  ")); [|rewrite <- !app_assoc; reflexivity]. apply (written_points (p :: l) [newline] ([newline] ++ chars "  ")); try blank; [discriminate|]. rewrite <- E. exact HD. }
    assert (Size : jmembers ([newline] ++ member (chars "size") (print_nat (dg_size D)) ++ points) [(chars "size", JNum (N.of_nat (dg_size D))); (chars "diagram", JArr (map point_value (dg_points D)))]).
    { apply written_member; [apply P; repeat constructor|constructor; apply print_nat_numeral|exact Last]. }
    assert (Name : jmembers ([newline] ++ (match name with [] => [] | _ => member (chars "name") (quoted name) end) ++ member (chars "size") (print_nat (dg_size D)) ++ points)
      ((match name with [] => [] | _ => [(chars "name", JStr name)] end) ++ [(chars "size", JNum (N.of_nat (dg_size D))); (chars "diagram", JArr (map point_value (dg_points D)))])).
    { destruct name as [|c name]; [exact Size|]. apply written_member; [apply P; repeat constructor|apply (J_str _ _ Hn); reflexivity|exact Size]. }
    revert Hk. induction kvs as [|[k v] kvs IH]; intro Hk; [exact Name|]. cbn [flat_map map fst snd]. rewrite <- !app_assoc. cbn [app]. destruct (Hk (k, v) (or_introl eq_refl)) as [K1 K2]. cbn [fst snd] in K1, K2.
    apply (written_member k (quoted v) (JStr v)); [exact K1|apply (J_str _ _ K2); reflexivity|]. apply IH. intros; apply Hk; simpl; auto.
  Qed.
End Writer.

(** ** C124 *)
(** Texts of the grammar have one value, which the parser finds *)
Theorem C124_parse : forall w s v w', jsp w -> jtext s v -> jsp w' -> parse (w ++ s ++ w') = Some v /\ forall v', jtext s v' -> v' = v.
Proof.
  intros w s v w' Hw H Hw'. split; [apply parse_text; assumption|]. intros v' H'.
  pose proof (parse_text [] s v [] ltac:(blank) H ltac:(blank)). pose proof (parse_text [] s v' [] ltac:(blank) H' ltac:(blank)). congruence.
Qed.

(** What is written is such a text; the object has the members that are documented, in this order *)
Theorem C124_write : forall (V : Type) (show : V -> str) inf D name kvs, (forall p, In p (dg_points D) -> jplain (show (fst p)) /\ jplain (show (snd p))) ->
  jplain name -> (forall kv, In kv kvs -> jplain (fst kv) /\ jplain (snd kv)) ->
  jtext (writeJSON show inf D name kvs) (JObj (
    [(chars "betti", JNum (N.of_nat (dg_betti inf D))); (chars "dimension", JNum (N.of_nat (dg_dim D)))] ++
    map (fun kv => (fst kv, JStr (snd kv))) kvs ++
    (match name with [] => [] | _ => [(chars "name", JStr name)] end) ++
    [(chars "size", JNum (N.of_nat (dg_size D))); (chars "diagram", JArr (map (fun p => JArr [JStr (show (fst p)); JStr (show (snd p))]) (dg_points D)))])).
Proof. intros V show inf D name kvs H1 H2 H3. apply (written show inf D name kvs H1 H2 H3). Qed.

(** ** The reader *)
Section Reader.
  Context {V : Type}.
  Variables (conv : str -> V) (inf : V -> bool).

  (** an object of a diagram: dimension, Betti number, size and points *)
  Definition typed (x : json) (d b s : nat) (ps : list (V * V)) : Prop :=
    field x (chars "dimension") = Ok (JNum (N.of_nat d)) /\ field x (chars "betti") = Ok (JNum (N.of_nat b)) /\ field x (chars "size") = Ok (JNum (N.of_nat s)) /\
    (N.of_nat d < 2 ^ 32 /\ N.of_nat b < 2 ^ 32 /\ N.of_nat s < 2 ^ 32)%N /\
    exists l, field x (chars "diagram") = Ok (JArr l) /\ Forall2 (fun p xy => exists a b r, p = JArr (JStr a :: JStr b :: r) /\ xy = (conv a, conv b)) l ps.
  Definition consistent (b s : nat) (ps : list (V * V)) : bool := (length ps =? s) && (length (filter (fun p => inf (snd p)) ps) =? b).

  Lemma read_typed x d b s ps : typed x d b s ps -> read_diagram conv inf x = if consistent b s ps then Ok (Dgm d ps) else Throw RuntimeError.
  Proof.
    intros (H1 & H2 & H3 & (B1 & B2 & B3) & l & H4 & HF). unfold read_diagram. rewrite H1, H2, H3, H4. cbn [bind uint_of elements_of].
    apply N.ltb_lt in B1, B2, B3. rewrite B1, B2, B3. cbn [bind]. rewrite !Nnat.Nat2N.id.
    assert (G : forall D, foldM (read_point conv) l D = Ok (Dgm (dg_dim D) (dg_points D ++ ps))).
    { clear - HF. induction HF as [|p xy l ps (a & b & r & -> & ->) HF IH]; intro D; cbn [foldM]; [rewrite app_nil_r; destruct D; reflexivity|].
      unfold read_point at 1. cbn [elements_of bind get_ nth_error string_of]. rewrite IH. unfold dg_add. cbn [dg_dim dg_points]. rewrite <- app_assoc. reflexivity. }
    rewrite G. cbn [bind dg_dim dg_points app]. unfold consistent, dg_size, dg_betti. cbn [dg_points].
    destruct (length ps =? s); cbn [negb andb]; [|reflexivity]. destruct (_ =? b); reflexivity.
  Qed.

  Lemma read_all xs rs acc : Forall2 (fun x r => match r with (d, b, s, ps) => typed x d b s ps end) xs rs ->
    foldM (fun acc x => let* D := read_diagram conv inf x in Ok (acc ++ [D])) xs acc =
    if forallb (fun r => match r with (d, b, s, ps) => consistent b s ps end) rs then Ok (acc ++ map (fun r => match r with (d, b, s, ps) => Dgm d ps end) rs) else Throw RuntimeError.
  Proof.
    intro H. revert acc. induction H as [|x [[[d b] s] ps] xs rs Hx H IH]; intro acc; cbn [foldM forallb map]; [rewrite app_nil_r; reflexivity|].
    rewrite (read_typed x d b s ps Hx). destruct (consistent b s ps); cbn [bind andb]; [|reflexivity]. rewrite IH, <- app_assoc. reflexivity.
  Qed.
End Reader.

(** Diagrams are read if the number of points and the Betti number agree with what is stored *)
Theorem C124_read : forall (V : Type) (conv : str -> V) inf w text w' l xs rs, jsp w -> jtext text (JObj l) -> jsp w' ->
  find_member l (chars "diagrams") = Some (JArr xs) -> Forall2 (fun x r => match r with (d, b, s, ps) => typed conv x d b s ps end) xs rs ->
  readJSON conv inf (w ++ text ++ w') =
    if forallb (fun r => match r with (d, b, s, ps) => (length ps =? s) && (length (filter (fun p => inf (snd p)) ps) =? b) end) rs
    then Ok (map (fun r => match r with (d, b, s, ps) => Dgm d ps end) rs) else Throw RuntimeError.
Proof.
  intros V conv inf w text w' l xs rs Hw Ht Hw' Hm HF. unfold readJSON. rewrite (parse_text w text (JObj l) w' Hw Ht Hw'). unfold read_document. cbn [members_of bind]. rewrite Hm. cbn [elements_of bind].
  rewrite (read_all conv inf xs rs [] HF). reflexivity.
Qed.

Theorem C124_missing : forall (V : Type) (conv : str -> V) inf w text w' l, jsp w -> jtext text (JObj l) -> jsp w' -> ~ In (chars "diagrams") (map fst l) -> readJSON conv inf (w ++ text ++ w') = Throw RuntimeError.
Proof.
  intros V conv inf w text w' l Hw Ht Hw' Hn. unfold readJSON. rewrite (parse_text w text (JObj l) w' Hw Ht Hw'). unfold read_document. cbn [members_of bind].
  assert (E : find_member l (chars "diagrams") = None).
  { unfold find_member. destruct (find _ l) as [[k v]|] eqn:F; [|reflexivity]. exfalso. apply find_some in F. destruct F as [F1 F2]. apply str_eqb_spec in F2. cbn [fst] in F2. subst k. apply Hn. apply in_map_iff. exists (chars "diagrams", v). auto. }
  rewrite E. reflexivity.
Qed.

(** Documents that consist of written diagrams, with arbitrary white space between the tokens *)
Fixpoint separated (w : str) (l : list str) : str :=
  match l with
  | [] => []
  | [t] => t
  | t :: r => t ++ w ++ chars "," ++ w ++ separated w r
  end.
Definition document (w : str) (l : list str) : str :=
  w ++ chars "{" ++ w ++ chars """diagrams""" ++ w ++ chars ":" ++ w ++ chars "[" ++ w ++ separated w l ++ w ++ chars "]" ++ w ++ chars "}" ++ w.

Lemma separated_elems w l vs : jsp w -> l <> [] -> Forall2 jtext l vs -> jelems (w ++ separated w l ++ w) vs.
Proof.
  intros Hw Hne H. induction H as [|t v l vs Ht H IH]; [congruence|]. destruct H as [|t' v' l vs Ht' H].
  - apply (E_one w t v w); auto.
  - cbn [separated]. apply (E_cons w t v w (w ++ separated w (t' :: l) ++ w) (v' :: vs)); auto; [apply IH; discriminate|]. cbn [separated]. rewrite <- !app_assoc. reflexivity.
Qed.

Lemma document_text w l vs : jsp w -> Forall2 jtext l vs -> exists text, document w l = w ++ text ++ w /\ jtext text (JObj [(chars "diagrams", JArr vs)]).
Proof.
  intros Hw H. exists (chars "{" ++ (w ++ chars """diagrams""" ++ w ++ chars ":" ++ w ++ (chars "[" ++ (w ++ separated w l ++ w) ++ chars "]") ++ w) ++ chars "}"). split.
  - unfold document. rewrite <- !app_assoc. reflexivity.
  - apply (J_obj (w ++ chars """diagrams""" ++ w ++ chars ":" ++ w ++ (chars "[" ++ (w ++ separated w l ++ w) ++ chars "]") ++ w)); [|reflexivity].
    apply (M_one w (chars "diagrams") w w (chars "[" ++ (w ++ separated w l ++ w) ++ chars "]") (JArr vs) w); auto.
    + intros c Hc. cbn in Hc. repeat (destruct Hc as [<-|Hc]; [repeat split; (discriminate || (cbn; lia))|]). destruct Hc.
    + destruct H as [|t v l vs Ht H]; [apply (J_arr0 (w ++ w)); [intros c Hc; apply in_app_or in Hc; destruct Hc; auto|rewrite <- !app_assoc; reflexivity]|].
      apply (J_arr (w ++ separated w (t :: l) ++ w)); [|reflexivity]. apply separated_elems; [exact Hw|discriminate|constructor; assumption].
Qed.

Theorem C124_round_trip : forall (V : Type) (conv : str -> V) show inf w (items : list (diagram V * str * list (str * str))), jsp w ->
  (forall D name kvs, In (D, name, kvs) items ->
     (forall p, In p (dg_points D) -> jplain (show (fst p)) /\ jplain (show (snd p)) /\ conv (show (fst p)) = fst p /\ conv (show (snd p)) = snd p) /\
     jplain name /\ (forall k v, In (k, v) kvs -> jplain k /\ jplain v /\ k <> chars "size" /\ k <> chars "diagram") /\
     (N.of_nat (dg_dim D) < 2 ^ 32)%N /\ (N.of_nat (dg_size D) < 2 ^ 32)%N) ->
  readJSON conv inf (document w (map (fun i => writeJSON show inf (fst (fst i)) (snd (fst i)) (snd i)) items)) = Ok (map (fun i => fst (fst i)) items).
Proof.
  intros V conv show inf w items Hw H.
  destruct (document_text w (map (fun i => writeJSON show inf (fst (fst i)) (snd (fst i)) (snd i)) items) (map (fun i => diagram_value show inf (fst (fst i)) (snd (fst i)) (snd i)) items)) as (text & E & Ht); [exact Hw| |].
  - induction items as [|[[D name] kvs] items IH]; [constructor|]. cbn [map fst snd]. constructor; [|apply IH; intros; apply H; simpl; auto].
    destruct (H D name kvs (or_introl eq_refl)) as (H1 & H2 & H3 & _). apply written; [intros p Hp; destruct (H1 p Hp) as (? & ? & _); auto|exact H2|]. intros [k v] Hkv. destruct (H3 k v Hkv) as (? & ? & _). auto.
  - rewrite E. rewrite (C124_read V conv inf w text w [(chars "diagrams", JArr (map (fun i => diagram_value show inf (fst (fst i)) (snd (fst i)) (snd i)) items))] _
      (map (fun i => (dg_dim (fst (fst i)), dg_betti inf (fst (fst i)), dg_size (fst (fst i)), dg_points (fst (fst i)))) items) Hw Ht Hw eq_refl).
    + replace (forallb _ _) with true.
      * f_equal. rewrite map_map. apply map_ext. intros [[[d ps] name] kvs]. reflexivity.
      * symmetry. apply forallb_forall. intros r Hr. apply in_map_iff in Hr. destruct Hr as ([[D name] kvs] & <- & _). cbn [fst snd]. unfold dg_size, dg_betti. rewrite !Nat.eqb_refl. reflexivity.
    + clear E Ht text. induction items as [|[[D name] kvs] items IH]; [constructor|]. cbn [map fst snd]. constructor; [|apply IH; intros; apply H; simpl; auto].
      destruct (H D name kvs (or_introl eq_refl)) as (H1 & H2 & H3 & H4 & H5). unfold typed, field, diagram_value. cbn [members_of bind].
      assert (Find : forall k, k = chars "size" \/ k = chars "diagram" -> forall tail,
        find_member ([(chars "betti", JNum (N.of_nat (dg_betti inf D))); (chars "dimension", JNum (N.of_nat (dg_dim D)))] ++ map (fun kv : str * str => (fst kv, JStr (snd kv))) kvs ++ (match name with [] => [] | _ => [(chars "name", JStr name)] end) ++ tail) k = find_member tail k).
      { intros k Hk tail. unfold find_member. f_equal. cbn [app find fst].
        assert (N1 : str_eqb (chars "betti") k = false) by (destruct Hk as [->| ->]; reflexivity). assert (N2 : str_eqb (chars "dimension") k = false) by (destruct Hk as [->| ->]; reflexivity). assert (N3 : str_eqb (chars "name") k = false) by (destruct Hk as [->| ->]; reflexivity).
        rewrite N1, N2. clear - H3 N3 Hk. induction kvs as [|[k' v] kvs IHk]; cbn [map app find fst].
        - destruct name; [reflexivity|]. cbn [app find fst]. rewrite N3. reflexivity.
        - destruct (H3 k' v (or_introl eq_refl)) as (_ & _ & F1 & F2). destruct (str_eqb k' k) eqn:Ek; [apply str_eqb_spec in Ek; subst k'; destruct Hk; contradiction|].
          apply IHk. intros; apply H3; simpl; auto. }
      refine (conj eq_refl (conj eq_refl (conj _ (conj _ _)))).
      * rewrite Find by auto. reflexivity.
      * refine (conj H4 (conj _ H5)). eapply N.le_lt_trans; [|exact H5]. unfold dg_betti, dg_size. clear. induction (dg_points D) as [|p l IH]; cbn [filter length]; [lia|]. destruct (inf (snd p)); cbn [length]; lia.
      * exists (map (point_value show) (dg_points D)). split; [rewrite Find by auto; reflexivity|]. clear - H1. induction (dg_points D) as [|p l IH]; [constructor|]. cbn [map]. constructor; [|apply IH; intros; apply H1; simpl; auto].
        destruct (H1 p (or_introl eq_refl)) as (_ & _ & E1 & E2). exists (show (fst p)), (show (snd p)), []. split; [reflexivity|]. rewrite E1, E2. destruct p; reflexivity.
Qed.

(** ** Examples and findings *)
Definition top (y : Z) : bool := (y =? 127)%Z.
Definition example_diagram : diagram Z := Dgm 1 [(0, 127); (-2, 5)]%Z.
Example C124_example :
  writeJSON print_Z top example_diagram (chars "x") [(chars "k", chars "v w")] = concat (map (fun l => chars l ++ [newline])
    ["{"; "  ""betti"": 1,"; "  ""dimension"": 1,"; "  ""k"": ""v w"","; "  ""name"": ""x"","; "  ""size"": 2,"; "  ""diagram"": ["; "    [""0"",""127""],"; "    [""-2"",""5""]"; "  ]"]%string) ++ chars "}" /\
  readJSON byte top (document (chars " ") [writeJSON print_Z top example_diagram (chars "x") [(chars "k", chars "v w")]; writeJSON print_Z top (Dgm 0 []) [] []]) = Ok [example_diagram; Dgm 0 []] /\
  readJSON byte top (chars "{""diagrams"":[{""dimension"":0,""betti"":0,""size"":2,""diagram"":[[""1"",""2""]]}]}") = Throw RuntimeError.
Proof. vm_compute. auto. Qed.

(** What the function that writes a file writes cannot be read *)
Theorem C124_alone_refuted : forall (V : Type) (conv : str -> V) show inf D name, (forall p, In p (dg_points D) -> jplain (show (fst p)) /\ jplain (show (snd p))) -> jplain name ->
  readJSON conv inf (writeJSON show inf D name []) = Throw RuntimeError.
Proof.
  intros V conv show inf D name H Hn. pose proof (C124_write V show inf D name [] H Hn) as W. rewrite <- (app_nil_r (writeJSON _ _ _ _ _)). change (writeJSON show inf D name [] ++ []) with ([] ++ writeJSON show inf D name [] ++ []).
  eapply C124_missing; [blank|apply W; intros ? []|blank|]. cbn. intros [E|[E|E]]; try discriminate. destruct name; cbn in E; destruct E as [E|E]; try discriminate; [destruct E as [E|[]]; discriminate|destruct E as [E|[E|[]]]; discriminate].
Qed.
(** Names are not escaped: the name of a diagram changes what is read *)
Theorem C124_quote_refuted : readJSON byte top (document [] [writeJSON print_Z top example_diagram (chars "x"",""size"":""") []]) = UB /\
  readJSON byte top (document [] [writeJSON print_Z top (Dgm 0 []) (chars "x"",""size"":1,""diagram"":[[""3"",""4""]],""y"":""") []]) = Ok [Dgm 0 [(3, 4)]%Z] /\
  parse (writeJSON print_Z top example_diagram (chars """") []) = None.
Proof. vm_compute. auto. Qed.
(** Additional keys hide the size *)
Theorem C124_key_refuted : readJSON byte top (document [] [writeJSON print_Z top example_diagram [] [(chars "size", chars "2")]]) = UB.
Proof. vm_compute. auto. Qed.
(** Coordinates that are not numbers do not lead to an exception *)
Theorem C124_garbage_refuted : readJSON byte top (chars "{""diagrams"":[{""dimension"":0,""betti"":0,""size"":1,""diagram"":[[""a"",""b""]]}]}") = Ok [Dgm 0 [(0, 0)]%Z].
Proof. vm_compute. auto. Qed.
(** Numbers as coordinates and missing members fail an assertion instead of throwing *)
Theorem C124_assert_refuted : readJSON byte top (chars "{""diagrams"":[{""dimension"":0,""betti"":0,""size"":1,""diagram"":[[1,2]]}]}") = UB /\
  readJSON byte top (chars "{""diagrams"":[{""betti"":0,""size"":0,""diagram"":[]}]}") = UB.
Proof. vm_compute. auto. Qed.

Print Assumptions C124_parse.
Print Assumptions C124_write.
Print Assumptions C124_read.
Print Assumptions C124_missing.
Print Assumptions C124_round_trip.
Print Assumptions C124_alone_refuted.
