(** * Loading boundary matrices from text. *)
From Coq Require Import List Arith Bool NArith Ascii Lia.
From Verif Require Import Base BaseFacts Matrix FiltrationFacts SpecText LoadMatrix.
Import ListNotations.
Local Arguments N.add : simpl never.
Local Arguments N.mul : simpl never.
Local Arguments N.sub : simpl never.
Local Arguments N.pow : simpl never.
Local Arguments N.modulo : simpl never.
Local Arguments N.ltb : simpl never.
Local Arguments N.leb : simpl never.

Lemma isspace_iff c : isspace c = true <-> blank c.
Proof.
  unfold isspace, blank. generalize (nat_of_ascii c). intro n. rewrite orb_true_iff, andb_true_iff, Nat.eqb_eq, !Nat.leb_le. simpl.
  split; [|lia]. intros [->|[H1 H2]]; [tauto|]. assert (H : n = 9 \/ n = 10 \/ n = 11 \/ n = 12 \/ n = 13) by lia. intuition.
Qed.

Lemma digit_iff c d : digit c = Some d <-> decimal_digit c d.
Proof.
  unfold digit, decimal_digit. generalize (N_of_ascii c). intro n. cbv zeta.
  destruct (N.leb_spec 48 n), (N.leb_spec n 57); simpl.
  - split; [intros [= <-]; lia|]. intros [H1 H2]. f_equal. lia.
  - split; [discriminate|lia].
  - split; [discriminate|lia].
  - split; [discriminate|lia].
Qed.

Lemma digit_not_space c d : decimal_digit c d -> isspace c = false.
Proof.
  intros [H1 H2]. destruct (isspace c) eqn:E; auto. apply isspace_iff in E. unfold blank in E.
  unfold nat_of_ascii in E. rewrite H2 in E. simpl in E. lia.
Qed.

Lemma digit_not c d x : decimal_digit c d -> (N_of_ascii x < 48)%N -> Ascii.eqb c x = false.
Proof.
  intros [H1 H2] Hx. apply Ascii.eqb_neq. intros ->. lia.
Qed.

Lemma hash_not_blank c : blank c -> Ascii.eqb c hash = false.
Proof. intro H. apply Ascii.eqb_neq. intros ->. vm_compute in H. lia. Qed.

(** numerals *)
Lemma numeral_digits s v : numeral s v ->
  s <> [] /\ Forall (fun c => exists d, decimal_digit c d) s /\ forall t acc, digits acc (s ++ t) = digits (acc * 10 ^ N.of_nat (length s) + v)%N t.
Proof.
  induction 1 as [c d Hd|s v c d Hs (IH1 & IH2 & IH3) Hd].
  - refine (conj _ (conj _ _)); [discriminate|repeat constructor; eauto|]. intros t acc. simpl.
    rewrite (proj2 (digit_iff c d) Hd). f_equal. change (N.of_nat 1) with 1%N. rewrite N.pow_1_r. lia.
  - refine (conj _ (conj _ _)).
    + intro E. apply app_eq_nil in E. easy.
    + apply Forall_app; split; auto. repeat constructor; eauto.
    + intros t acc. rewrite <- app_assoc, IH3. simpl. rewrite (proj2 (digit_iff c d) Hd). f_equal.
      rewrite app_length, Nat2N.inj_add, N.pow_add_r. change (N.of_nat (length [c])) with 1%N. rewrite N.pow_1_r. lia.
Qed.

Lemma numeral_stoul s v : numeral s v -> (v < 2 ^ 64)%N -> stoul s = Ok v.
Proof.
  intros H Hv. destruct (numeral_digits s v H) as (H1 & H2 & H3). specialize (H3 [] 0%N). rewrite app_nil_r in H3.
  simpl digits at 2 in H3. destruct s as [|c t]; [easy|]. inversion H2 as [|? ? [d Hd] ?]; subst. unfold stoul.
  rewrite (digit_not c d "+"), (digit_not c d "-") by (auto; reflexivity). unfold stoul_digits.
  rewrite (proj2 (digit_iff c d) Hd), H3. rewrite N.mul_0_l, N.add_0_l.
  destruct (N.ltb_spec v (2 ^ 64)); [auto|lia].
Qed.

Lemma numeral_read s v : numeral s v -> (v < 2 ^ 32)%N -> read_index s = Ok (N.to_nat v).
Proof.
  intros H Hv. unfold read_index. rewrite (numeral_stoul s v H).
  - simpl bind. rewrite N.mod_small by auto. auto.
  - eapply N.lt_trans; [apply Hv|reflexivity].
Qed.

(** tokens *)
Lemma tokens_blanks ws t : Forall blank ws -> tokens [] (ws ++ t) = tokens [] t.
Proof.
  induction 1 as [|c ws Hc _ IH]; simpl; auto. rewrite (proj2 (isspace_iff c) Hc). auto.
Qed.

Lemma tokens_word s cur t : Forall (fun c => exists d, decimal_digit c d) s -> tokens cur (s ++ t) = tokens (cur ++ s) t.
Proof.
  intro H. revert cur. induction H as [|c s [d Hc] _ IH]; intro cur; simpl; [rewrite app_nil_r; auto|].
  rewrite (digit_not_space c d Hc), IH, <- app_assoc. auto.
Qed.

Lemma tokens_end cur rest : cur <> [] -> (forall c t, rest = c :: t -> blank c) -> tokens cur rest = cur :: tokens [] rest.
Proof.
  intros Hc Hr. destruct rest as [|c t]; simpl.
  - destruct cur; easy.
  - rewrite (proj2 (isspace_iff c) (Hr c t eq_refl)). destruct cur; easy.
Qed.

Lemma numbers_read l vs : numbers l vs -> Forall (fun v => (v < 2 ^ 32)%N) vs ->
  read_indices (tokens [] l) = Ok (map N.to_nat vs).
Proof.
  induction 1 as [ws Hw|ws s v rest vs Hw Hs Hr IH Hb]; intro HF.
  - rewrite <- (app_nil_r ws), tokens_blanks by auto. reflexivity.
  - inversion HF; subst. destruct (numeral_digits s v Hs) as (H1' & H2' & _).
    rewrite tokens_blanks, tokens_word, tokens_end by auto. simpl. rewrite (numeral_read s v) by auto. simpl.
    rewrite IH by auto. auto.
Qed.

Lemma numbers_first l v vs : numbers l (v :: vs) ->
  exists c t, l = c :: t /\ Ascii.eqb c hash = false /\ tokens [] l <> [] /\ counted l = true.
Proof.
  intro H. inversion H as [|ws s v' rest vs' Hw Hs Hr Hb]; subst.
  destruct (numeral_digits s v Hs) as (H1 & H2 & _). destruct s as [|c s]; [easy|]. inversion H2 as [|? ? [d Hd] H2']; subst.
  assert (HT : tokens [] (ws ++ (c :: s) ++ rest) <> []).
  { rewrite tokens_blanks, tokens_word, tokens_end by (auto; discriminate). discriminate. }
  assert (HC : counted (ws ++ (c :: s) ++ rest) = true).
  { unfold counted. rewrite filter_app.
    assert (E : filter (fun c0 => negb (isspace c0)) ws = []).
    { clear - Hw. induction Hw as [|a ws Ha _ IH]; simpl; auto. rewrite (proj2 (isspace_iff a) Ha). auto. }
    rewrite E. simpl. rewrite (digit_not_space c d Hd). simpl. rewrite (digit_not c d hash Hd) by reflexivity. auto. }
  destruct ws as [|w ws].
  - exists c, (s ++ rest). refine (conj eq_refl (conj _ (conj HT HC))). apply (digit_not c d); auto. reflexivity.
  - exists w, (ws ++ (c :: s) ++ rest). inversion Hw; subst. refine (conj eq_refl (conj _ (conj HT HC))). apply hash_not_blank; auto.
Qed.

(** lines *)
Lemma getlines_line cur l t : ~ In newline l -> getlines cur (l ++ newline :: t) = (cur ++ l) :: getlines [] t.
Proof.
  revert cur. induction l as [|c l IH]; intros cur H.
  - cbn [app getlines]. rewrite Ascii.eqb_refl, app_nil_r. auto.
  - cbn [app getlines]. destruct (Ascii.eqb_spec c newline); [subst; simpl in H; tauto|].
    rewrite IH by (simpl in H; tauto). rewrite <- app_assoc. auto.
Qed.

Lemma getlines_last cur l : ~ In newline l -> getlines cur l = match cur ++ l with [] => [] | r => [r] end.
Proof.
  revert cur. induction l as [|c l IH]; intros cur H; cbn [getlines].
  - rewrite app_nil_r. destruct cur; auto.
  - destruct (Ascii.eqb_spec c newline); [subst; simpl in H; tauto|].
    rewrite IH by (simpl in H; tauto). rewrite <- app_assoc. auto.
Qed.

Lemma getlines_text lines last : (forall l, In l (lines ++ [last]) -> ~ In newline l) ->
  getlines [] (text_of lines last) = lines ++ match last with [] => [] | _ => [last] end.
Proof.
  unfold text_of. induction lines as [|l lines IH]; intro H.
  - cbn [flat_map app]. rewrite getlines_last by (apply H; simpl; auto). destruct last; auto.
  - cbn [flat_map]. rewrite <- !app_assoc. cbn [app].
    change ("010"%char) with newline in *.
    rewrite getlines_line by (apply H; simpl; auto). cbn [app]. f_equal. apply IH. intros; apply H; simpl; auto.
Qed.

Lemma none_line l st : line_means l None -> load_line st l = Ok st /\ counted l = false.
Proof.
  intro H. inversion H as [l' Hb|t|]; subst; clear H.
  - split.
    + unfold load_line. destruct l as [|c t]; auto. inversion Hb; subst. rewrite hash_not_blank by auto.
      rewrite <- (app_nil_r (c :: t)), tokens_blanks by auto. reflexivity.
    + unfold counted. replace (filter (fun c => negb (isspace c)) l) with (@nil ascii); auto.
      induction Hb as [|a l Ha _ IH]; simpl; auto. rewrite (proj2 (isspace_iff a) Ha). auto.
  - split; reflexivity.
Qed.

Lemma some_line l d is C D r : line_means l (Some (d, is)) -> length C = length D ->
  counted l = true /\
  load_line (Matrix (C ++ [] :: repeat [] r) (D ++ 0 :: repeat 0 r) false, length C) l =
  if length is - 1 =? d then Ok (Matrix (C ++ cpp_sort Nat.ltb (cpp_sort Nat.ltb is) :: repeat [] r) (D ++ length is - 1 :: repeat 0 r) false, S (length C))
  else Throw RuntimeError.
Proof.
  intros H EL. inversion H as [| |l' d' is' Hn HF]; subst; clear H. cbn [map] in Hn.
  destruct (numbers_first _ _ _ Hn) as (c & t & -> & Hh & HT & HC). split; auto.
  unfold load_line. rewrite Hh. destruct (tokens [] (c :: t)) as [|t0 ts] eqn:ET; [easy|]. rewrite <- ET.
  rewrite (numbers_read _ _ Hn).
  2:{ rewrite Forall_forall in *. intros v Hv. change (N.of_nat d :: map N.of_nat is) with (map N.of_nat (d :: is)) in Hv.
      apply in_map_iff in Hv. destruct Hv as (i & <- & Hi). auto. }
  change (N.of_nat d :: map N.of_nat is) with (map N.of_nat (d :: is)). rewrite map_map.
  rewrite (map_ext _ (fun x => x)) by (intro; apply Nat2N.id). rewrite map_id. cbn [bind fst snd].
  unfold setColumn. cbn [cols dims dualized]. rewrite at_app. cbn [bind].
  replace (at_ (D ++ 0 :: repeat 0 r) (length C)) with (Ok 0) by (rewrite EL, at_app; auto). cbn [bind].
  unfold getDimension. cbn [dims]. rewrite upd_app.
  replace (upd (D ++ 0 :: repeat 0 r) (length C)) with (upd (D ++ 0 :: repeat 0 r) (length D)) by (rewrite EL; auto).
  rewrite upd_app. replace (at_ (D ++ length (cpp_sort Nat.ltb is) - 1 :: repeat 0 r) (length C)) with (Ok (length (cpp_sort Nat.ltb is) - 1)) by (rewrite EL, at_app; auto).
  cbn [bind]. rewrite (cpp_sort_length Nat.ltb is). auto.
Qed.
