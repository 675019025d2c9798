(** * Texts that contain numbers *)
From Coq Require Import List Arith Bool ZArith Ascii Lia.
From Verif Require Import Base BaseFacts LoadMatrix SpecText LoadFacts StringUtilities PropertiesString ReadMatrices.
Import ListNotations.
Local Open Scope nat_scope.

(** [text] consists of the decimal representations of the numbers, separated by
    whitespace *)
Definition spaced (s : str) : Prop := forall c t, s = c :: t -> isspace c = true.
Inductive denotes : str -> list Z -> Prop :=
| denotes_nil b : spaces b -> denotes b []
| denotes_cons b z t zs : spaces b -> spaced t -> denotes t zs -> denotes (b ++ print_Z z ++ t) (z :: zs).

Lemma space_no_digit c : isspace c = true -> digit c = None.
Proof.
  intro H. unfold digit. destruct (_ && _)%bool eqn:E; [|reflexivity]. unfold isspace in H. exfalso.
  apply andb_true_iff in E. destruct E as [E1 E2]. apply N.leb_le in E1, E2.
  assert (Hc : nat_of_ascii c = N.to_nat (N_of_ascii c)) by reflexivity.
  apply orb_true_iff in H. destruct H as [H|H]; [apply Nat.eqb_eq in H; lia|]. apply andb_true_iff in H. destruct H as [H1 H2]. apply Nat.leb_le in H1, H2. lia.
Qed.
Lemma spaced_no_digit t : spaced t -> no_digit t.
Proof. intros H c s E. apply space_no_digit. apply (H c s E). Qed.

Lemma skip_digits_uint d t : no_digit t -> skip_digits (uint_chars d ++ t) = t.
Proof.
  intro Ht. assert (E : skip_digits t = t) by (destruct t as [|c t]; [reflexivity|cbn [skip_digits]; rewrite (Ht c t eq_refl); reflexivity]).
  induction d as [|d IH|d IH|d IH|d IH|d IH|d IH|d IH|d IH|d IH|d IH]; cbn [uint_chars app skip_digits]; [exact E|..];
    match goal with |- context [digit ?c] => let v := eval vm_compute in (digit c) in change (digit c) with v end; cbv iota beta; exact IH.
Qed.
Lemma skip_print b z t : spaces b -> no_digit t -> skip_number (b ++ print_Z z ++ t) = t.
Proof.
  intros Hb Ht. unfold skip_number, print_Z. pose proof (to_uint_not_nil z) as Hn. destruct (Z.to_int z) as [d|d].
  - destruct (uint_first d t Hn) as (c & s & E & F1 & F2 & F3). pose proof (skip_digits_uint d t Ht) as L. rewrite E in L |- *.
    rewrite ltrim_blanks by (auto; intros c' t' Q; injection Q as <- <-; exact F1). rewrite F2, F3. exact L.
  - cbn [app]. rewrite ltrim_blanks by (auto; intros c' t' Q; injection Q as <- <-; reflexivity). cbn [Ascii.eqb orb]. apply skip_digits_uint. exact Ht.
Qed.
Lemma ltrim_spaces b : spaces b -> ltrim b = [].
Proof. induction 1 as [|c b Hc Hb IH]; [reflexivity|]. cbn [ltrim]. rewrite Hc. exact IH. Qed.
Lemma print_nonempty z : 0 < length (print_Z z).
Proof. unfold print_Z. pose proof (to_uint_not_nil z) as Hn. destruct (Z.to_int z) as [d|d]; [destruct d; [easy|..]|]; cbn [uint_chars length]; lia. Qed.

Lemma read_denoted lo hi text zs : denotes text zs -> Forall (fun z => (lo <= z <= hi)%Z) zs ->
  forall fuel, length text < fuel -> read_numbers fuel lo hi text = Ok zs.
Proof.
  induction 1 as [b Hb|b z t zs Hb Ht Hd IH]; intros HF fuel Hf; (destruct fuel as [|fuel]; [lia|]); cbn [read_numbers].
  - unfold extract. rewrite (ltrim_spaces b Hb). reflexivity.
  - inversion HF as [|? ? Hz HF']; subst. rewrite extract_print by (auto; apply spaced_no_digit; exact Ht).
    destruct (Z.ltb_spec z lo); [lia|]. destruct (Z.ltb_spec hi z); [lia|]. cbv iota beta. rewrite skip_print by (auto; apply spaced_no_digit; exact Ht).
    rewrite IH; [reflexivity|exact HF'|]. rewrite !app_length in Hf. pose proof (print_nonempty z). lia.
Qed.
Lemma values_denoted lo hi text zs : denotes text zs -> Forall (fun z => (lo <= z <= hi)%Z) zs -> read_values lo hi text = Ok zs.
Proof. intros H HF. apply (read_denoted lo hi text zs H HF). lia. Qed.

(** reading always ends *)
Lemma skip_digits_length s : length (skip_digits s) <= length s.
Proof. induction s as [|c s IH]; [simpl; lia|]. cbn [skip_digits length]. destruct (digit c); [lia|cbn [length]; lia]. Qed.
Lemma ltrim_length s : length (ltrim s) <= length s.
Proof. induction s as [|c s IH]; [simpl; lia|]. cbn [ltrim length]. destruct (isspace c); [lia|cbn [length]; lia]. Qed.
Lemma read_numbers_ends lo hi : forall fuel s, length s < fuel -> exists l, read_numbers fuel lo hi s = Ok l.
Proof.
  induction fuel as [|fuel IH]; intros s Hs; [lia|]. cbn [read_numbers]. destruct (extract lo hi s) as [z fail] eqn:E. destruct fail; [exists []; reflexivity|].
  destruct (IH (skip_number s)) as (l & El); [|rewrite El; exists (z :: l); reflexivity].
  unfold skip_number. unfold extract in E. pose proof (ltrim_length s) as Ls. destruct (ltrim s) as [|c t]; [discriminate|]. cbn [length] in Ls.
  destruct (Ascii.eqb c "-"); cbn [orb]; [pose proof (skip_digits_length t); lia|]. destruct (Ascii.eqb c "+"); [pose proof (skip_digits_length t); lia|].
  cbn [leading_digits] in E. destruct (digit c) eqn:D; [|discriminate]. cbn [skip_digits]. rewrite D. pose proof (skip_digits_length t). lia.
Qed.
Lemma read_values_ends lo hi s : exists l, read_values lo hi s = Ok l.
Proof. apply read_numbers_ends. lia. Qed.

(** joining texts *)
Lemma denotes_spaces b t zs : spaces b -> denotes t zs -> denotes (b ++ t) zs.
Proof.
  intros Hb H. inversion H as [b' Hb'|b' z t' zs' Hb' Ht Hd]; subst.
  - constructor. apply Forall_app. auto.
  - rewrite app_assoc. constructor; auto. apply Forall_app. auto.
Qed.
Lemma denotes_app a b zs ws : denotes a zs -> spaced b -> denotes b ws -> denotes (a ++ b) (zs ++ ws).
Proof.
  intros H Hb Hd. induction H as [b' Hb'|b' z t zs Hb' Ht _ IH].
  - cbn [app]. apply denotes_spaces; auto.
  - cbn [app]. rewrite <- !app_assoc. constructor; auto. intros c s E. destruct t as [|d t]; [apply (Hb c s E)|]. cbn [app] in E. injection E as -> _. apply (Ht c t eq_refl).
Qed.
Lemma denotes_line a b zs ws : denotes a zs -> denotes b ws -> denotes (a ++ newline :: b) (zs ++ ws).
Proof.
  intros Ha Hb. apply denotes_app; [exact Ha| |].
  - intros c s E. injection E as <- <-. reflexivity.
  - change (newline :: b) with ([newline] ++ b). apply denotes_spaces; [repeat constructor|exact Hb].
Qed.
Lemma denotes_text lines rows last row : Forall2 denotes lines rows -> denotes last row -> denotes (text_of lines last) (concat rows ++ row).
Proof.
  intros H Hl. unfold text_of. induction H as [|l r lines rows Hlr _ IH]; [exact Hl|]. cbn [flat_map concat]. rewrite <- !app_assoc. cbn [app]. apply denotes_line; auto.
Qed.

(** the tokens of a text *)
Lemma print_word z : word isspace (print_Z z).
Proof.
  unfold print_Z. assert (G : forall d, word isspace (uint_chars d)) by (induction d; cbn [uint_chars]; constructor; auto).
  destruct (Z.to_int z); [apply G|constructor; [reflexivity|apply G]].
Qed.
Lemma tokens_word w s : word isspace w -> forall cur, tokens cur (w ++ s) = tokens (cur ++ w) s.
Proof.
  induction 1 as [|c w Hc Hw IH]; intro cur; cbn [app]; [rewrite app_nil_r; reflexivity|]. cbn [tokens]. rewrite Hc, IH, <- app_assoc. reflexivity.
Qed.
Lemma tokens_spaces b s : spaces b -> tokens [] (b ++ s) = tokens [] s.
Proof. induction 1 as [|c b Hc Hb IH]; cbn [app]; [reflexivity|]. cbn [tokens]. rewrite Hc. exact IH. Qed.
Lemma tokens_end cur s : cur <> [] -> spaced s -> tokens cur s = cur :: tokens [] s.
Proof.
  intros Hc Hs. destruct s as [|c s]; cbn [tokens]; [destruct cur; [easy|reflexivity]|]. rewrite (Hs c s eq_refl). destruct cur; [easy|reflexivity].
Qed.
Lemma tokens_denoted text zs : denotes text zs -> tokens [] text = map print_Z zs.
Proof.
  induction 1 as [b Hb|b z t zs Hb Ht _ IH].
  - rewrite <- (app_nil_r b), tokens_spaces by exact Hb. reflexivity.
  - rewrite tokens_spaces by exact Hb. rewrite tokens_word by apply print_word. cbn [app map]. rewrite tokens_end; [rewrite IH; reflexivity| |exact Ht].
    pose proof (print_nonempty z). destruct (print_Z z); [simpl in *; lia|discriminate].
Qed.
Lemma tokens_app s b : spaces b -> forall cur, tokens cur (s ++ b) = tokens cur s.
Proof.
  intro Hb. induction s as [|c s IH]; intro cur; cbn [app].
  - destruct b as [|c b]; [reflexivity|]. inversion Hb; subst. cbn [tokens]. rewrite H1. rewrite <- (app_nil_r b), tokens_spaces by assumption. reflexivity.
  - cbn [tokens]. destruct (isspace c); [destruct cur; rewrite IH; reflexivity|apply IH].
Qed.
Lemma tokens_trim s : tokens [] (trim s) = tokens [] s.
Proof. destruct (C84_trim s) as (_ & a & b & Ha & Hb & E). rewrite E at 2. rewrite tokens_spaces by exact Ha. rewrite tokens_app by exact Hb. reflexivity. Qed.

(** [split] of a string without whitespace at its ends *)
Lemma split_trimmed s : trim s <> [] -> length (split isspace (trim s)) = countTokens s.
Proof.
  intro Hne. unfold countTokens. rewrite <- (tokens_trim s). destruct (C84_trim s) as ([T1 T2] & _). set (t := trim s) in *. clearbody t. clear s.
  change (tokens [] t) with (splitByWhitespace t). rewrite (proj1 (C84_whitespace t)). f_equal.
  symmetry. assert (E := proj2 (C84_split isspace t (split isspace t)) eq_refl). destruct E as (f & rest & others & E1 & E2 & E3 & E4). rewrite E2.
  assert (Hf : f <> []).
  { intros ->. cbn [app] in E1. subst t. inversion E4 as [r Hr|r w u ws Hr Hn _ _ _ Q]; subst.
    - destruct rest as [|c rest]; [easy|]. inversion Hr; subst. rewrite (T1 c rest eq_refl) in H1. discriminate.
    - destruct r as [|c r]; [easy|]. inversion Hr; subst. rewrite (T1 c _ eq_refl) in H1. discriminate. }
  cbn [filter]. destruct f as [|c f]; [easy|]. cbn [nonempty]. f_equal.
  clear -E4. induction E4 as [|r w u ws _ _ _ Hw _ IH]; [reflexivity|]. cbn [filter]. destruct w; [easy|]. cbn [nonempty]. f_equal. exact IH.
Qed.
Lemma split_denoted text zs : denotes text zs -> zs <> [] -> length (split isspace (trim text)) = length zs.
Proof.
  intros H Hne. rewrite split_trimmed.
  - unfold countTokens. rewrite (tokens_denoted _ _ H). apply map_length.
  - intro E. pose proof (tokens_trim text) as T. rewrite E, (tokens_denoted _ _ H) in T. destruct zs; [easy|discriminate].
Qed.

(** a line of spaces has one token *)
Lemma split_blank b : spaces b -> length (split isspace (trim b)) = 1.
Proof.
  intro Hb. rewrite (C84_trim_unique b [] b []); [reflexivity| |exact Hb|constructor|rewrite !app_nil_r; reflexivity].
  split; intros c t E; [discriminate|]. destruct t; discriminate.
Qed.

(** lines *)
Definition no_newline (l : str) : Prop := ~ In newline l.
(** a file: lines, each of them terminated except possibly the last one *)
Inductive file_of (lines : list str) : str -> Prop :=
| file_terminated : Forall no_newline lines -> file_of lines (text_of lines [])
| file_open front last : lines = front ++ [last] -> last <> [] -> Forall no_newline lines -> file_of lines (text_of front last).

Lemma file_lines lines text : file_of lines text -> getlines [] text = lines.
Proof.
  intros [H|front last E Hne H].
  - rewrite getlines_text; [apply app_nil_r|]. intros l Hl. apply in_app_or in Hl. destruct Hl as [Hl|[<-|[]]]; [rewrite Forall_forall in H; apply H; exact Hl|simpl; tauto].
  - rewrite getlines_text; [|intros l Hl; rewrite Forall_forall in H; apply H; rewrite E; exact Hl]. rewrite E. destruct last; [easy|reflexivity].
Qed.
Lemma Forall2_app_r {A B} (R : A -> B -> Prop) l x m : Forall2 R (l ++ [x]) m -> exists m' y, m = m' ++ [y] /\ Forall2 R l m' /\ R x y.
Proof.
  intro H. apply Forall2_app_inv_l in H. destruct H as (m1 & m2 & H1 & H2 & ->). inversion H2 as [|? y ? ? Hy H3]; subst. inversion H3; subst. exists m1, y. auto.
Qed.
Lemma file_denotes lines text rows : file_of lines text -> Forall2 denotes lines rows -> denotes text (concat rows).
Proof.
  intros [H|front last E Hne H] HR.
  - rewrite <- (app_nil_r (concat rows)). apply denotes_text; [exact HR|]. constructor. constructor.
  - rewrite E in HR. apply Forall2_app_r in HR. destruct HR as (rows' & row & -> & H1 & H2). rewrite concat_app. cbn [concat]. rewrite app_nil_r. apply denotes_text; auto.
Qed.
