(** * C84: utility functions for strings. *)
From Coq Require Import String Decimal DecimalN DecimalPos DecimalZ DecimalFacts.
From Coq Require Import List Arith Bool NArith ZArith Ascii Lia.
From Verif Require Import Base BaseFacts LoadMatrix StringUtilities.
Import ListNotations.
Local Open Scope nat_scope.

(** ** trimming *)
Definition spaces (s : str) : Prop := Forall (fun c => isspace c = true) s.
(** the first and the last character are no whitespace *)
Definition trimmed (s : str) : Prop :=
  (forall c t, s = c :: t -> isspace c = false) /\ (forall c t, s = t ++ [c] -> isspace c = false).

Lemma ltrim_spec s : exists a, spaces a /\ s = a ++ ltrim s /\ forall c t, ltrim s = c :: t -> isspace c = false.
Proof.
  induction s as [|c s (a & H1 & H2 & H3)]; cbn [ltrim].
  - exists []. refine (conj (Forall_nil _) (conj eq_refl _)). discriminate.
  - destruct (isspace c) eqn:E.
    + exists (c :: a). refine (conj (Forall_cons _ E H1) (conj _ H3)). cbn [app]. congruence.
    + exists []. refine (conj (Forall_nil _) (conj eq_refl _)). intros d t F. injection F as -> ->. exact E.
Qed.

Lemma spaces_rev s : spaces s -> spaces (rev s).
Proof. unfold spaces. rewrite !Forall_forall. intros H c Hc. apply H. apply in_rev. exact Hc. Qed.

Lemma rtrim_spec s : exists b, spaces b /\ s = rtrim s ++ b /\ forall c t, rtrim s = t ++ [c] -> isspace c = false.
Proof.
  unfold rtrim. destruct (ltrim_spec (rev s)) as (a & H1 & H2 & H3). exists (rev a). refine (conj (spaces_rev _ H1) (conj _ _)).
  - rewrite <- rev_app_distr, <- H2, rev_involutive. reflexivity.
  - intros c t E. apply (H3 c (rev t)). rewrite <- (rev_involutive (ltrim (rev s))), E, rev_app_distr. reflexivity.
Qed.

Theorem C84_trim : forall s, trimmed (trim s) /\ exists a b, spaces a /\ spaces b /\ s = a ++ trim s ++ b.
Proof.
  intro s. unfold trim. destruct (rtrim_spec s) as (b & B1 & B2 & B3). destruct (ltrim_spec (rtrim s)) as (a & A1 & A2 & A3).
  split; [split; [exact A3|]|].
  - intros c t E. apply (B3 c (a ++ t)). rewrite A2, E, app_assoc. reflexivity.
  - exists a, b. refine (conj A1 (conj B1 _)). rewrite app_assoc, <- A2. exact B2.
Qed.

(** What is left is determined by that. *)
Lemma trimmed_unique_l a a' t t' : spaces a -> spaces a' -> (forall c u, t = c :: u -> isspace c = false) -> (forall c u, t' = c :: u -> isspace c = false) ->
  a ++ t = a' ++ t' -> t = t'.
Proof.
  revert a'. induction a as [|c a IH]; intros a' Ha Ha' Ht Ht' E.
  - destruct a' as [|d a']; [exact E|]. cbn [app] in E. inversion Ha'; subst. rewrite (Ht _ _ eq_refl) in H1. discriminate.
  - destruct a' as [|d a'].
    + cbn [app] in E. inversion Ha; subst. rewrite (Ht' _ _ eq_refl) in H1. discriminate.
    + cbn [app] in E. injection E as -> E. inversion Ha; subst. inversion Ha'; subst. apply (IH a'); auto.
Qed.

Lemma all_spaces_end s b t c : spaces s -> s = b ++ t ++ [c] -> isspace c = false -> False.
Proof. intros H E F. unfold spaces in H. rewrite Forall_forall in H. rewrite (H c) in F; [discriminate|]. subst s. rewrite !in_app_iff. simpl. auto. Qed.

Theorem C84_trim_unique : forall s t a b, trimmed t -> spaces a -> spaces b -> s = a ++ t ++ b -> trim s = t.
Proof.
  intros s t a b [T1 T2] Ha Hb E. destruct (C84_trim s) as ([S1 S2] & a' & b' & A & B & F). set (r := trim s) in *.
  (** cut the spaces on the left *)
  assert (G : r ++ b' = t ++ b \/ (t = [] /\ r = [])).
  { destruct t as [|c t].
    - right. split; [reflexivity|]. destruct r as [|d r]; [reflexivity|]. exfalso. rewrite E in F. cbn [app] in F.
      pose proof (S1 d r eq_refl) as Hd. assert (Hin : In d (a ++ b)) by (rewrite F; rewrite in_app_iff; simpl; auto).
      unfold spaces in *. rewrite Forall_forall in Ha, Hb. apply in_app_or in Hin. destruct Hin as [Hin|Hin]; [rewrite (Ha d Hin) in Hd|rewrite (Hb d Hin) in Hd]; discriminate.
    - left. destruct r as [|d r].
      + exfalso. rewrite E in F. cbn [app] in F. pose proof (T1 c t eq_refl) as Hc. assert (Hin : In c (a' ++ b')) by (rewrite <- F; rewrite in_app_iff; simpl; auto).
        unfold spaces in *. rewrite Forall_forall in A, B. apply in_app_or in Hin. destruct Hin as [Hin|Hin]; [rewrite (A c Hin) in Hc|rewrite (B c Hin) in Hc]; discriminate.
      + symmetry. apply (trimmed_unique_l a a'); auto; [| |rewrite <- E; exact F].
        * intros x u Q. cbn [app] in Q. injection Q as <- <-. apply (T1 c t eq_refl).
        * intros x u Q. cbn [app] in Q. injection Q as <- <-. apply (S1 d r eq_refl). }
  destruct G as [G|[-> ->]]; [|reflexivity].
  (** and on the right *)
  assert (G' : rev b' ++ rev r = rev b ++ rev t) by (rewrite <- !rev_app_distr, G; reflexivity).
  rewrite <- (rev_involutive r), <- (rev_involutive t). f_equal.
  apply (trimmed_unique_l (rev b') (rev b)); try apply spaces_rev; auto.
  - intros c u Q. apply (S2 c (rev u)). rewrite <- (rev_involutive r), Q. reflexivity.
  - intros c u Q. apply (T2 c (rev u)). rewrite <- (rev_involutive t), Q. reflexivity.
Qed.

(** ** splitting *)
Definition run (sep : ascii -> bool) (s : str) : Prop := Forall (fun c => sep c = true) s.
Definition word (sep : ascii -> bool) (s : str) : Prop := Forall (fun c => sep c = false) s.
(** [first] is what precedes the first separator; every other token is preceded by
    separators and is not empty; there may be separators at the end *)
Inductive follows (sep : ascii -> bool) : str -> list str -> Prop :=
| follows_end r : run sep r -> follows sep r []
| follows_token r t s ts : run sep r -> r <> [] -> word sep t -> t <> [] -> follows sep s ts ->
    follows sep (r ++ t ++ s) (t :: ts).
Definition splits (sep : ascii -> bool) (s : str) (ts : list str) : Prop :=
  exists first rest others, s = first ++ rest /\ ts = first :: others /\ word sep first /\ follows sep rest others.

Lemma split_exists sep s :
  (forall cur, word sep cur -> splits sep (cur ++ s) (split_token sep cur s)) /\
  (forall r, run sep r -> r <> [] -> follows sep (r ++ s) (split_run sep s)).
Proof.
  induction s as [|c s [I1 I2]]; cbn [split_token split_run]; split.
  - intros cur H. exists cur, [], []. refine (conj eq_refl (conj eq_refl (conj H _))). constructor. constructor.
  - intros r H _. rewrite app_nil_r. constructor. exact H.
  - intros cur H. destruct (sep c) eqn:E.
    + exists cur, (c :: s), (split_run sep s). refine (conj eq_refl (conj eq_refl (conj H _))). apply (I2 [c]); [repeat constructor; exact E|discriminate].
    + replace (cur ++ c :: s) with ((cur ++ [c]) ++ s) by (rewrite <- app_assoc; reflexivity). apply I1. apply Forall_app. split; [exact H|repeat constructor; exact E].
  - intros r H Hne. destruct (sep c) eqn:E.
    + replace (r ++ c :: s) with ((r ++ [c]) ++ s) by (rewrite <- app_assoc; reflexivity). apply I2; [apply Forall_app; split; [exact H|repeat constructor; exact E]|destruct r; discriminate].
    + destruct (I1 [c]) as (f & rest & others & E1 & E2 & E3 & E4); [repeat constructor; exact E|]. cbn [app] in E1. rewrite E1, E2.
      assert (f <> []). { intros ->. cbn [app] in E1. rewrite <- E1 in E4. inversion E4 as [r' Hr|r' t s' ts' Hr Hn _ _ _ Q]; subst.
        - inversion Hr; congruence.
        - destruct r'; [easy|]. cbn [app] in Q. injection Q as -> _. inversion Hr; congruence. }
      apply follows_token; auto.
Qed.

Lemma split_word sep t : word sep t -> forall cur s, split_token sep cur (t ++ s) = split_token sep (cur ++ t) s.
Proof.
  induction 1 as [|c t Hc Ht IH]; intros cur s; cbn [app]; [rewrite app_nil_r; reflexivity|]. cbn [split_token]. rewrite Hc, IH, <- app_assoc. reflexivity.
Qed.
Lemma split_skip sep r : run sep r -> forall s, split_run sep (r ++ s) = split_run sep s.
Proof. induction 1 as [|c r Hc Hr IH]; intro s; cbn [app]; [reflexivity|]. cbn [split_run]. rewrite Hc. apply IH. Qed.

Lemma follows_split sep s ts : follows sep s ts -> split_run sep s = ts /\ forall cur, split_token sep cur s = cur :: ts.
Proof.
  assert (S : forall r s, run sep r -> r <> [] -> forall cur, split_token sep cur (r ++ s) = cur :: split_run sep s).
  { intros r s' Hr Hne cur. destruct r as [|c r]; [easy|]. inversion Hr; subst. cbn [app split_token]. rewrite H1, split_skip by assumption. reflexivity. }
  induction 1 as [r Hr|r t s ts Hr Hne Ht Htne Hf [I1 I2]].
  - assert (R : split_run sep r = []) by (rewrite <- (app_nil_r r), split_skip by exact Hr; reflexivity). split; [exact R|]. intro cur. destruct r as [|c r]; [reflexivity|].
    rewrite <- (app_nil_r (c :: r)), S by (auto; discriminate). reflexivity.
  - assert (R : split_run sep (t ++ s) = t :: ts).
    { destruct t as [|c t]; [easy|]. inversion Ht; subst. cbn [app split_run]. rewrite H1, split_word by assumption. apply I2. }
    split; [rewrite split_skip by exact Hr; exact R|]. intro cur. rewrite S by assumption. rewrite R. reflexivity.
Qed.

(** The tokens of a string, and they are unique. *)
Theorem C84_split : forall sep s ts, splits sep s ts <-> split sep s = ts.
Proof.
  intros sep s ts. split.
  - intros (f & rest & others & -> & -> & Hf & H). unfold split. rewrite split_word by exact Hf. apply (proj2 (follows_split _ _ _ H)).
  - intros <-. apply (proj1 (split_exists sep s) []). constructor.
Qed.

(** the empty string has one token; a separator at the end does not lead to another one *)
Theorem C84_split_limits : forall sep, split sep [] = [[]] /\
  (forall s r, s <> [] -> run sep r -> (forall c t, s = t ++ [c] -> sep c = false) -> split sep (s ++ r) = split sep s) /\
  (forall s r, run sep r -> r <> [] -> split sep (r ++ s) = [] :: match split_run sep s with [] => [] | ts => ts end).
Proof.
  intro sep. refine (conj eq_refl (conj _ _)).
  - intros s r Hne Hr Hlast.
    assert (G : forall s, (forall c t, s = t ++ [c] -> sep c = false) ->
      (forall cur, s <> [] \/ r = [] \/ cur <> [] -> split_token sep cur (s ++ r) = split_token sep cur s) /\ (split_run sep (s ++ r) = split_run sep s)).
    { clear s Hne Hlast. induction s as [|c s IH]; intro Hl; cbn [app].
      - split.
        + intros cur _. destruct r as [|c r]; [reflexivity|]. inversion Hr; subst. cbn [split_token]. rewrite H1.
          rewrite <- (app_nil_r r), split_skip by assumption. reflexivity.
        + rewrite <- (app_nil_r r), split_skip by assumption. reflexivity.
      - assert (Hs : forall d t, s = t ++ [d] -> sep d = false) by (intros d t ->; apply (Hl d (c :: t) eq_refl)).
        destruct (IH Hs) as [I1 I2]. cbn [split_token split_run]. split; [intros cur _|]; destruct (sep c) eqn:E.
        + rewrite I2. reflexivity.
        + apply I1. right. right. destruct cur; discriminate.
        + exact I2.
        + apply I1. right. right. discriminate. }
    apply (proj1 (G s Hlast)). auto.
  - intros s r Hr Hne. destruct r as [|c r]; [easy|]. inversion Hr; subst. unfold split. cbn [app split_token]. rewrite H1, split_skip by assumption.
    destruct (split_run sep s); reflexivity.
Qed.

Definition nonempty (s : str) : bool := match s with [] => false | _ => true end.
(** Tokens separated by whitespace are the non-empty results of [split]. *)
Theorem C84_whitespace : forall s, splitByWhitespace s = filter nonempty (split isspace s) /\ countTokens s = length (splitByWhitespace s).
Proof.
  intro s. split; [|reflexivity]. unfold splitByWhitespace, split.
  assert (G : forall s, (forall cur, tokens cur s = filter nonempty (split_token isspace cur s)) /\ tokens [] s = filter nonempty (split_run isspace s)).
  { clear s. induction s as [|c s [I1 I2]]; cbn [tokens split_token split_run]; [split; [intros [|]; reflexivity|reflexivity]|].
    split; [intro cur|]; destruct (isspace c); auto. destruct cur as [|d cur]; cbn [filter nonempty]; [exact I2|f_equal; exact I2]. }
  apply G.
Qed.

(** ** numbers *)
Fixpoint uint_chars (d : Decimal.uint) : str :=
  match d with
  | Nil => []
  | D0 d => "0"%char :: uint_chars d | D1 d => "1"%char :: uint_chars d | D2 d => "2"%char :: uint_chars d
  | D3 d => "3"%char :: uint_chars d | D4 d => "4"%char :: uint_chars d | D5 d => "5"%char :: uint_chars d
  | D6 d => "6"%char :: uint_chars d | D7 d => "7"%char :: uint_chars d | D8 d => "8"%char :: uint_chars d
  | D9 d => "9"%char :: uint_chars d
  end.
(** the decimal representation *)
Definition print_Z (z : Z) : str :=
  match Z.to_int z with Decimal.Pos d => uint_chars d | Decimal.Neg d => "-"%char :: uint_chars d end.

Definition no_digit (s : str) : Prop := forall c t, s = c :: t -> digit c = None.

Lemma digits_stop n s : no_digit s -> digits n s = n.
Proof. intro H. destruct s as [|c t]; cbn [digits]; [reflexivity|]. rewrite (H c t eq_refl). reflexivity. Qed.

Ltac compute_digit := cbn [digits]; match goal with |- context [digit ?c] => let v := eval vm_compute in (digit c) in change (digit c) with v end; cbv iota beta.

Lemma digits_acc s : no_digit s -> forall d p, digits (Npos p) (uint_chars d ++ s) = Npos (Pos.of_uint_acc d p).
Proof.
  intro Hs. induction d as [|d IH|d IH|d IH|d IH|d IH|d IH|d IH|d IH|d IH|d IH]; intro p; cbn [uint_chars app Pos.of_uint_acc];
    [apply digits_stop; exact Hs|..]; compute_digit; rewrite <- IH; f_equal; lia.
Qed.
Lemma digits_uint s : no_digit s -> forall d, digits 0 (uint_chars d ++ s) = Pos.of_uint d.
Proof.
  intro Hs. induction d as [|d IH|d IH|d IH|d IH|d IH|d IH|d IH|d IH|d IH|d IH]; cbn [uint_chars app Pos.of_uint];
    [apply digits_stop; exact Hs|exact IH|..]; compute_digit; apply (digits_acc s Hs).
Qed.

Lemma leading_uint s d : no_digit s -> d <> Nil -> leading_digits (uint_chars d ++ s) = Some (Pos.of_uint d).
Proof.
  intros Hs Hd. rewrite <- (digits_uint s Hs d). destruct d; [easy|..]; reflexivity.
Qed.

Lemma uint_first d s : d <> Nil -> exists c t, uint_chars d ++ s = c :: t /\ isspace c = false /\ Ascii.eqb c "-" = false /\ Ascii.eqb c "+" = false.
Proof. intro H. destruct d; [easy|..]; cbn [uint_chars app]; do 2 eexists; (split; [reflexivity|]); repeat split; reflexivity. Qed.

Lemma ltrim_blanks b s : spaces b -> (forall c t, s = c :: t -> isspace c = false) -> ltrim (b ++ s) = s.
Proof.
  intros Hb Hs. induction Hb as [|c b Hc Hb IH]; cbn [app ltrim]; [|rewrite Hc; exact IH].
  destruct s as [|c t]; [reflexivity|]. cbn [ltrim]. rewrite (Hs c t eq_refl). reflexivity.
Qed.

Lemma to_uint_not_nil z : match Z.to_int z with Decimal.Pos d | Decimal.Neg d => d <> Nil end.
Proof.
  destruct z as [|p|p]; cbn [Z.to_int]; [discriminate| |]; apply (Unsigned.to_uint_nonnil p).
Qed.

Lemma extract_print lo hi b z s : spaces b -> no_digit s ->
  extract lo hi (b ++ print_Z z ++ s) = if (z <? lo)%Z then (lo, true) else if (hi <? z)%Z then (hi, true) else (z, false).
Proof.
  intros Hb Hs. unfold extract, print_Z. pose proof (to_uint_not_nil z) as Hn. pose proof (DecimalZ.of_to z) as Hz.
  destruct (Z.to_int z) as [d|d].
  - destruct (uint_first d s Hn) as (c & t & E & F1 & F2 & F3). pose proof (leading_uint s d Hs Hn) as L. rewrite E in L |- *.
    rewrite ltrim_blanks by (auto; intros c' t' Q; injection Q as <- <-; exact F1). rewrite F2, F3, L. cbn [Z.of_int] in Hz; unfold Z.of_uint in Hz. rewrite Hz. reflexivity.
  - cbn [app]. rewrite ltrim_blanks by (auto; intros c' t' Q; injection Q as <- <-; reflexivity). rewrite Ascii.eqb_refl. rewrite (leading_uint s d Hs Hn).
    cbn [Z.of_int] in Hz. unfold Z.of_uint in Hz. rewrite Hz. reflexivity.
Qed.

(** a plus sign is ignored *)
Lemma extract_plus lo hi b z s : (0 <= z)%Z -> spaces b -> no_digit s ->
  extract lo hi (b ++ "+"%char :: print_Z z ++ s) = if (z <? lo)%Z then (lo, true) else if (hi <? z)%Z then (hi, true) else (z, false).
Proof.
  intros H0 Hb Hs. unfold extract, print_Z. pose proof (to_uint_not_nil z) as Hn. pose proof (DecimalZ.of_to z) as Hz.
  rewrite ltrim_blanks by (auto; intros c' t' Q; injection Q as <- <-; reflexivity).
  change (Ascii.eqb "+" "-") with false. change (Ascii.eqb "+" "+") with true. cbv iota.
  destruct z as [|p|p]; [| |lia]; cbn [Z.to_int] in *; rewrite (leading_uint s _ Hs Hn); cbn [Z.of_int] in Hz; unfold Z.of_uint in Hz; rewrite Hz; reflexivity.
Qed.

(** A number is read, whatever follows it. *)
Theorem C84_convert : forall lo hi b z s, (lo <= z <= hi)%Z -> spaces b -> no_digit s ->
  convert lo hi (b ++ print_Z z ++ s) = (z, true) /\ ((0 <= z)%Z -> convert lo hi (b ++ "+"%char :: print_Z z ++ s) = (z, true)).
Proof.
  intros lo hi b z s Hz Hb Hs. unfold convert, convert_to. split; [|intro H0; rewrite extract_plus by assumption]; [rewrite extract_print by assumption|];
  (destruct (Z.ltb_spec z lo); [lia|]; destruct (Z.ltb_spec hi z); [lia|]; reflexivity).
Qed.

(** names without regard to upper and lower case *)
Definition same_letter (c d : ascii) : Prop := c = d \/ exists i, i < 26 /\ c = ascii_of_nat (65 + i) /\ d = ascii_of_nat (97 + i).
Definition spells (s : str) (name : string) : Prop := Forall2 same_letter s (chars name).

Definition lower_case (s : str) : Prop := Forall (fun c => nat_of_ascii c < 65 \/ 90 < nat_of_ascii c) s.

Lemma tolower_same c d : (nat_of_ascii d < 65 \/ 90 < nat_of_ascii d) -> (tolower c = d <-> same_letter c d).
Proof.
  intro Hd. unfold tolower, same_letter. split.
  - destruct (Nat.leb_spec 65 (nat_of_ascii c)); destruct (Nat.leb_spec (nat_of_ascii c) 90); cbn [andb]; intro E; auto.
    right. exists (nat_of_ascii c - 65). refine (conj _ (conj _ _)); [lia|..].
    + replace (65 + (nat_of_ascii c - 65)) with (nat_of_ascii c) by lia. rewrite ascii_nat_embedding. reflexivity.
    + rewrite <- E. f_equal. lia.
  - intros [-> | (i & Hi & -> & ->)].
    + destruct (Nat.leb_spec 65 (nat_of_ascii d)); destruct (Nat.leb_spec (nat_of_ascii d) 90); cbn [andb]; try reflexivity; lia.
    + rewrite nat_ascii_embedding by lia. destruct (Nat.leb_spec 65 (65 + i)); [|lia]. destruct (Nat.leb_spec (65 + i) 90); [|lia]. cbn [andb]. f_equal. lia.
Qed.

Lemma str_eqb_spec a : forall b, str_eqb a b = true <-> a = b.
Proof.
  induction a as [|c a IH]; intros [|d b]; cbn [str_eqb]; try (split; easy). rewrite andb_true_iff, IH, Ascii.eqb_eq.
  split; [intros [-> ->]; reflexivity|intro E; injection E as -> ->; auto].
Qed.

Lemma lower_same s : forall t, lower_case t -> (map tolower s = t <-> Forall2 same_letter s t).
Proof.
  induction s as [|c s IH]; intros t Ht; cbn [map].
  - split; [intros <-; constructor|intro H; inversion H; reflexivity].
  - destruct t as [|d t]; [split; [discriminate|intro H; inversion H]|]. inversion Ht; subst. split.
    + intro E. injection E as E1 E2. constructor; [apply tolower_same; assumption|apply IH; assumption].
    + intro H. inversion H; subst. f_equal; [apply tolower_same; assumption|apply IH; assumption].
Qed.

Lemma named_spec s names : Forall (fun n => lower_case (chars n)) names -> (named s names = true <-> exists n, In n names /\ spells s n).
Proof.
  intro H. unfold named. rewrite existsb_exists. rewrite Forall_forall in H. split.
  - intros (t & Ht & E). apply in_map_iff in Ht. destruct Ht as (n & <- & Hn). apply str_eqb_spec in E. exists n. split; [exact Hn|]. apply lower_same; auto.
  - intros (n & Hn & E). exists (chars n). split; [apply in_map; exact Hn|]. apply str_eqb_spec. apply lower_same; auto.
Qed.

Definition names_inf : list string := ["inf"; "+inf"; "infinity"; "+infinity"]%string.
Definition names_ninf : list string := ["-inf"; "-infinity"]%string.
Definition names_nan : list string := ["nan"]%string.

Lemma lower_names l : forallb (fun n => forallb (fun c => (nat_of_ascii c <? 65) || (90 <? nat_of_ascii c)) (chars n)) l = true -> Forall (fun n => lower_case (chars n)) l.
Proof.
  intro H. rewrite forallb_forall in H. apply Forall_forall. intros n Hn. apply Forall_forall. intros c Hc. specialize (H n Hn). rewrite forallb_forall in H. specialize (H c Hc).
  apply orb_true_iff in H. rewrite !Nat.ltb_lt in H. exact H.
Qed.
Ltac names := apply lower_names; vm_compute; reflexivity.

(** If no number can be extracted, exactly the special names yield special values. *)
Theorem C84_convert_special : forall {V : Type} eqb (zero inf ninf nan : V) ext s,
  (forall x y, eqb x y = true -> x = y) -> inf <> zero -> ninf <> zero -> nan <> zero -> eqb zero zero = true ->
  ext s = (zero, true) ->
  let r := convert_to eqb zero inf ninf nan ext s in
  ((exists n, In n names_inf /\ spells s n) -> r = (inf, true)) /\
  ((exists n, In n names_ninf /\ spells s n) -> r = (ninf, true)) /\
  ((exists n, In n names_nan /\ spells s n) -> r = (nan, true)) /\
  ((forall n, In n (names_inf ++ names_ninf ++ names_nan) -> ~ spells s n) -> r = (zero, false)).
Proof.
  intros V eqb zero inf ninf nan ext s Heq Hi Hn Hq Hz E. cbv zeta. unfold convert_to. rewrite E.
  pose proof (named_spec s ["+inf"; "inf"; "+infinity"; "infinity"]%string ltac:(names)) as N1.
  pose proof (named_spec s names_ninf ltac:(names)) as N2. pose proof (named_spec s names_nan ltac:(names)) as N3.
  fold names_ninf names_nan.
  assert (Q : forall x, x <> zero -> negb (eqb x zero) = true) by (intros x Hx; destruct (eqb x zero) eqn:F; [apply Heq in F; contradiction|reflexivity]).
  assert (D : forall n m, spells s n -> spells s m -> lower_case (chars n) -> lower_case (chars m) -> chars n = chars m).
  { intros n m A B Ln Lm. apply lower_same in A; [|exact Ln]. apply lower_same in B; [|exact Lm]. congruence. }
  assert (L : forall n, In n (names_inf ++ names_ninf ++ names_nan) -> lower_case (chars n)).
  { apply Forall_forall. names. }
  assert (X : forall n m, In n (names_inf ++ names_ninf ++ names_nan) -> In m (names_inf ++ names_ninf ++ names_nan) -> spells s n -> spells s m -> chars n = chars m)
    by (intros n m A B C F; apply D; auto).
  refine (conj _ (conj _ (conj _ _))).
  - intros (n & I & S). rewrite (proj2 N1); [rewrite Q by assumption; reflexivity|]. exists n. split; [simpl in I |- *; tauto|exact S].
  - intros (n & I & S). destruct (named s ["+inf"; "inf"; "+infinity"; "infinity"]%string).
    + destruct (proj1 N1 eq_refl) as (m & J & T). assert (C : chars n = chars m) by (apply X; auto; rewrite !in_app_iff; [tauto|left; simpl in J |- *; tauto]).
      exfalso. simpl in I, J. destruct I as [<- |[<- |[]]]; destruct J as [<- |[<- |[<- |[<- |[]]]]]; discriminate C.
    + rewrite (proj2 N2) by eauto. rewrite Q by assumption. reflexivity.
  - intros (n & I & S). destruct (named s ["+inf"; "inf"; "+infinity"; "infinity"]%string).
    + destruct (proj1 N1 eq_refl) as (m & J & T). assert (C : chars n = chars m) by (apply X; auto; rewrite !in_app_iff; [tauto|left; simpl in J |- *; tauto]).
      exfalso. simpl in I, J. destruct I as [<- |[]]; destruct J as [<- |[<- |[<- |[<- |[]]]]]; discriminate C.
    + destruct (named s names_ninf).
      * destruct (proj1 N2 eq_refl) as (m & J & T). assert (C : chars n = chars m) by (apply X; auto; rewrite !in_app_iff; tauto).
        exfalso. simpl in I, J. destruct I as [<- |[]]; destruct J as [<- |[<- |[]]]; discriminate C.
      * rewrite (proj2 N3) by eauto. rewrite Q by assumption. reflexivity.
  - intro H. destruct (named s ["+inf"; "inf"; "+infinity"; "infinity"]%string).
    + destruct (proj1 N1 eq_refl) as (m & J & T). exfalso. apply (H m); [|exact T]. rewrite !in_app_iff. left. simpl in J |- *. tauto.
    + destruct (named s names_ninf); [destruct (proj1 N2 eq_refl) as (m & J & T); exfalso; apply (H m); [|exact T]; rewrite !in_app_iff; tauto|].
      destruct (named s names_nan); [destruct (proj1 N3 eq_refl) as (m & J & T); exfalso; apply (H m); [|exact T]; rewrite !in_app_iff; tauto|].
      rewrite Hz. reflexivity.
Qed.

(** Without a digit at the beginning there is no number. *)
Theorem C84_convert_fails : forall lo hi b s, spaces b ->
  (forall c t, s = c :: t -> isspace c = false /\ digit c = None /\ ((c = "+"%char \/ c = "-"%char) -> no_digit t)) ->
  convert lo hi (b ++ s) = (0%Z, false).
Proof.
  intros lo hi b s Hb Hs. unfold convert, convert_to.
  assert (E : extract lo hi (b ++ s) = (0%Z, true)).
  { unfold extract. rewrite ltrim_blanks by (auto; intros c t E; apply (Hs c t E)).
    assert (G : forall t, no_digit t -> leading_digits t = None) by (intros [|c t] H; [reflexivity|]; cbn [leading_digits]; rewrite (H c t eq_refl); reflexivity).
    destruct s as [|c t]; [reflexivity|]. destruct (Hs c t eq_refl) as (H1 & H2 & H3).
    destruct (Ascii.eqb_spec c "-") as [->|N1]; [rewrite (G t) by auto; reflexivity|].
    destruct (Ascii.eqb_spec c "+") as [->|N2]; [rewrite (G t) by auto; reflexivity|].
    cbn [leading_digits]. rewrite H2. reflexivity. }
  rewrite E. destruct (named _ _); [reflexivity|]. destruct (named _ _); [reflexivity|]. destruct (named _ _); reflexivity.
Qed.

Lemma named_print z : named (print_Z z) ["+inf"; "inf"; "+infinity"; "infinity"]%string = false /\ named (print_Z z) ["-inf"; "-infinity"]%string = false /\ named (print_Z z) ["nan"]%string = false.
Proof.
  unfold print_Z. pose proof (to_uint_not_nil z) as Hn. destruct (Z.to_int z) as [d|d]; destruct d; easy || (repeat split; reflexivity).
Qed.

(** FINDING: numbers that are too large are reported as a success. *)
Theorem C84_overflow_refuted : forall lo hi z, (hi < z)%Z -> (lo <= z)%Z -> hi <> 0%Z -> convert lo hi (print_Z z) = (hi, true).
Proof.
  intros lo hi z H1 H2 H3. destruct (named_print z) as (N1 & N2 & N3). unfold convert, convert_to. assert (E := extract_print lo hi [] z [] (Forall_nil _) ltac:(discriminate)). cbn [app] in E. rewrite app_nil_r in E. rewrite E.
  destruct (Z.ltb_spec z lo); [lia|]. destruct (Z.ltb_spec hi z); [|lia]. rewrite N1, N2, N3. destruct (Z.eqb_spec hi 0); [contradiction|reflexivity].
Qed.

(** the values of a type with special values *)
Inductive extended := Number (z : Z) | Infinity | NegInfinity | NotANumber.
Definition ext_eqb (x y : extended) : bool :=
  match x, y with Number a, Number b => Z.eqb a b | Infinity, Infinity | NegInfinity, NegInfinity => true | _, _ => false end.
Example C84_special_example :
  let f s := convert_to ext_eqb (Number 0) Infinity NegInfinity NotANumber (fun s => let '(z, b) := extract (-1000) 1000 s in (Number z, b)) (chars s) in
  f "iNfiniTY"%string = (Infinity, true) /\ f "-Inf"%string = (NegInfinity, true) /\ f "NaN"%string = (NotANumber, true) /\
  f " inf"%string = (Number 0, false) /\ f "none"%string = (Number 0, false) /\ f "+12"%string = (Number 12, true).
Proof. repeat split; vm_compute; reflexivity. Qed.

Example C84_example :
  trim (chars " a b  ") = chars "a b" /\
  split isspace (chars " a b  ") = [[]; chars "a"; chars "b"] /\ splitByWhitespace (chars " a b  ") = [chars "a"; chars "b"] /\
  split (fun c => Ascii.eqb c "," || Ascii.eqb c ":") (chars "1,2::3,") = [chars "1"; chars "2"; chars "3"] /\
  convert (-128) 127 (chars " -17abc") = ((-17)%Z, true) /\ convert (-128) 127 (chars "200") = (127%Z, true) /\ convert (-128) 127 (chars "Inf") = (0%Z, false) /\
  print_Z (-1203) = chars "-1203".
Proof. repeat split; vm_compute; reflexivity. Qed.

Print Assumptions C84_trim.
Print Assumptions C84_trim_unique.
Print Assumptions C84_split.
Print Assumptions C84_split_limits.
Print Assumptions C84_whitespace.
Print Assumptions C84_convert.
Print Assumptions C84_convert_special.
Print Assumptions C84_convert_fails.
Print Assumptions C84_overflow_refuted.
