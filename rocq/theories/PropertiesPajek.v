(** * Pajek files (C129) *)
From Coq Require Import String Ascii List Arith Bool NArith ZArith Lia Permutation Sorted.
From Verif Require Import Base BaseFacts SpecText LoadMatrix LoadFacts StringUtilities PropertiesString Simplex SimplexFacts Complex ComplexFacts RipsFacts BarycentricFacts DiagramIO PropertiesJSON Filesystem Pajek.
Import ListNotations.
Local Open Scope list_scope.
Local Open Scope nat_scope.

(** ** Specification: classes of characters and lines *)
Definition letter (c : ascii) : Prop := In c (chars "abcdefghijklmnopqrstuvwxyzABCDEFGHIJKLMNOPQRSTUVWXYZ").
Definition a_digit (c : ascii) : Prop := In c (chars "0123456789").
Definition on_line (c : ascii) : Prop := c <> "010"%char /\ c <> "013"%char.
Definition weight_char (c : ascii) : Prop := In c (chars "0123456789.").
(** one or more characters of a class *)
Definition some (P : ascii -> Prop) (s : str) : Prop := s <> [] /\ Forall P s.
Definition stops (P : ascii -> Prop) (s : str) : Prop := forall c t, s = c :: t -> ~ P c.

(** \*([[:alpha:]]+).* *)
Definition re_keyword (name rest line : str) : Prop := line = "*"%char :: name ++ rest /\ some letter name /\ Forall on_line rest.
(** \*([[:alpha:]]+)[[:space:]]+([[:digit:]]+) *)
Definition re_key_value (number line : str) : Prop :=
  exists name sp, line = "*"%char :: name ++ sp ++ number /\ some letter name /\ some SpecText.blank sp /\ some a_digit number.
(** ([[:digit:]]+)[[:space:]]+"(.* )" *)
Definition re_vertex (id label line : str) : Prop :=
  exists sp, line = id ++ sp ++ quote :: label ++ [quote] /\ some a_digit id /\ some SpecText.blank sp /\ Forall on_line label.
(** ([[:digit:]]+)[[:space:]]+([[:digit:]]+)[[:space:]]*([[:digit:]\.]+)* *)
Definition re_edge (u v sp' w line : str) : Prop :=
  exists sp, line = u ++ sp ++ v ++ sp' ++ w /\ some a_digit u /\ some SpecText.blank sp /\ some a_digit v /\ Forall SpecText.blank sp' /\ Forall weight_char w.

(** ** The classes *)
Lemma all_ascii (f : ascii -> bool) : forallb f (map ascii_of_nat (seq 0 256)) = true -> forall c, f c = true.
Proof.
  intros H c. rewrite forallb_forall in H. apply H. apply in_map_iff. exists (nat_of_ascii c). split; [apply ascii_nat_embedding|]. apply in_seq. pose proof (nat_ascii_bounded c). lia.
Qed.
Definition ascii_in (c : ascii) (l : str) : bool := existsb (Ascii.eqb c) l.
Lemma ascii_in_spec c l : ascii_in c l = true <-> In c l.
Proof. unfold ascii_in. rewrite existsb_exists. split; [intros (x & Hx & E); apply Ascii.eqb_eq in E; subst; exact Hx|]. intro H. exists c. split; [exact H|apply Ascii.eqb_refl]. Qed.
Lemma class_eq (f : ascii -> bool) (l : str) : forallb (fun c => Bool.eqb (f c) (ascii_in c l)) (map ascii_of_nat (seq 0 256)) = true -> forall c, f c = true <-> In c l.
Proof. intros H c. pose proof (all_ascii _ H c) as E. apply Bool.eqb_prop in E. rewrite E. apply ascii_in_spec. Qed.
Lemma isalpha_spec c : isalpha c = true <-> letter c.
Proof. apply class_eq. vm_compute. reflexivity. Qed.
Lemma isdigit_spec c : isdigit c = true <-> a_digit c.
Proof. apply class_eq. vm_compute. reflexivity. Qed.
Lemma isweight_spec c : isweight c = true <-> weight_char c.
Proof. apply class_eq. vm_compute. reflexivity. Qed.
Lemma isspace_spec c : isspace c = true <-> SpecText.blank c.
Proof.
  assert (E : isspace c = existsb (Nat.eqb (nat_of_ascii c)) [9; 10; 11; 12; 13; 32]).
  { apply Bool.eqb_prop. apply (all_ascii (fun c => Bool.eqb (isspace c) (existsb (Nat.eqb (nat_of_ascii c)) [9; 10; 11; 12; 13; 32]))). vm_compute. reflexivity. }
  rewrite E, existsb_exists. unfold SpecText.blank. split; [intros (x & Hx & F); apply Nat.eqb_eq in F; subst; exact Hx|]. intro H. exists (nat_of_ascii c). split; [exact H|apply Nat.eqb_refl].
Qed.
Lemma anychar_spec c : anychar c = true <-> on_line c.
Proof.
  assert (E : anychar c = negb (ascii_in c ["010"%char; "013"%char])).
  { apply Bool.eqb_prop. apply (all_ascii (fun c => Bool.eqb (anychar c) (negb (ascii_in c ["010"%char; "013"%char])))). vm_compute. reflexivity. }
  rewrite E, negb_true_iff. unfold on_line. pose proof (ascii_in_spec c ["010"%char; "013"%char]) as S. destruct (ascii_in c ["010"%char; "013"%char]).
  - split; [discriminate|]. intros [A B]. exfalso. destruct (proj1 S eq_refl) as [X|[X|[]]]; congruence.
  - split; [|reflexivity]. intros _. split; intros ->; assert (false = true) by (apply S; simpl; auto); discriminate.
Qed.
Lemma all_class (f : ascii -> bool) (P : ascii -> Prop) s : (forall c, f c = true <-> P c) -> (forallb f s = true <-> Forall P s).
Proof. intro H. rewrite forallb_forall, Forall_forall. split; intros X c Hc; apply H; apply X; exact Hc. Qed.

(** disjoint classes *)
Lemma digit_not_space c : a_digit c -> ~ SpecText.blank c.
Proof. intros H B. apply isdigit_spec in H. apply isspace_spec in B. pose proof (all_ascii (fun c => negb (isdigit c && isspace c)) ltac:(vm_compute; reflexivity) c) as X. cbn beta in X. rewrite H, B in X. discriminate. Qed.
Lemma letter_not_space c : letter c -> ~ SpecText.blank c.
Proof. intros H B. apply isalpha_spec in H. apply isspace_spec in B. pose proof (all_ascii (fun c => negb (isalpha c && isspace c)) ltac:(vm_compute; reflexivity) c) as X. cbn beta in X. rewrite H, B in X. discriminate. Qed.
Lemma weight_not_space c : weight_char c -> ~ SpecText.blank c.
Proof. intros H B. apply isweight_spec in H. apply isspace_spec in B. pose proof (all_ascii (fun c => negb (isweight c && isspace c)) ltac:(vm_compute; reflexivity) c) as X. cbn beta in X. rewrite H, B in X. discriminate. Qed.

Section Span.
Variable f : ascii -> bool.
Variable P : ascii -> Prop.
Hypothesis fP : forall c, f c = true <-> P c.
Lemma span_spec s : let '(a, b) := span f s in s = a ++ b /\ Forall P a /\ stops P b.
Proof.
  induction s as [|c t IH]; cbn [span]; [refine (conj eq_refl (conj (Forall_nil _) _)); discriminate|]. destruct (f c) eqn:E.
  - destruct (span f t) as [a b]. destruct IH as (-> & H1 & H2). refine (conj eq_refl (conj _ H2)). constructor; [apply fP; exact E|exact H1].
  - refine (conj eq_refl (conj (Forall_nil _) _)). intros d u X. injection X as -> ->. intro H. apply fP in H. congruence.
Qed.
Lemma span_app a b : Forall P a -> stops P b -> span f (a ++ b) = (a, b).
Proof.
  induction 1 as [|c a Hc _ IH]; intro H; cbn [app span].
  - destruct b as [|c t]; [reflexivity|]. cbn [span]. destruct (f c) eqn:E; [|reflexivity]. exfalso. apply (H c t eq_refl). apply fP. exact E.
  - rewrite (proj2 (fP c) Hc), IH by exact H. reflexivity.
Qed.
End Span.
Arguments span_spec f P fP s : clear implicits.
Arguments span_app f P fP a b : clear implicits.

Lemma stops_some (P Q : ascii -> Prop) s t : (forall c, Q c -> ~ P c) -> some Q s -> stops P (s ++ t).
Proof. intros D [Hne H] c u E. destruct s as [|d s]; [contradiction|]. injection E as -> _. inversion H; subst. apply D. assumption. Qed.
Lemma stops_some_nil (P Q : ascii -> Prop) s : (forall c, Q c -> ~ P c) -> some Q s -> stops P s.
Proof. intros D H. rewrite <- (app_nil_r s). apply (stops_some P Q); assumption. Qed.
Lemma space_not_digit c : SpecText.blank c -> ~ a_digit c.
Proof. intros H X. exact (digit_not_space c X H). Qed.
Lemma space_not_letter c : SpecText.blank c -> ~ letter c.
Proof. intros H X. exact (letter_not_space c X H). Qed.

(** ** The regular expressions *)
(** The matches of the first expression, with the longest name; of the second and third one; and of the
    fourth one, with the longest number. *)
Theorem C129_expressions :
  (forall line name, match_keyword line = Some name <-> exists rest, re_keyword name rest line /\ stops letter rest) /\
  (forall line, match_keyword line = None <-> forall name rest, ~ re_keyword name rest line) /\
  (forall line number, match_key_value line = Some number <-> re_key_value number line) /\
  (forall line id label, match_vertex line = Some (id, label) <-> re_vertex id label line) /\
  (forall line u v w, match_edge line = Some (u, v, w) <-> exists sp', re_edge u v sp' w line /\ stops a_digit (sp' ++ w)) /\
  (forall line, match_edge line = None <-> forall u v sp' w, ~ re_edge u v sp' w line).
Proof.
  assert (K1 : forall line name, match_keyword line = Some name <-> exists rest, re_keyword name rest line /\ stops letter rest).
  { intros line name. split.
    - destruct line as [|c t]; cbn [match_keyword]; [discriminate|]. destruct (Ascii.eqb_spec c "*") as [->|]; [|discriminate]. pose proof (span_spec _ _ isalpha_spec t) as S. destruct (span isalpha t) as [a b]. destruct S as (-> & Ha & Hb).
      destruct a as [|x a]; [discriminate|]. destruct (forallb anychar b) eqn:E; [|discriminate]. intro X. injection X as <-. exists b. refine (conj (conj eq_refl (conj (conj _ Ha) _)) Hb); [discriminate|]. apply (all_class _ _ _ anychar_spec). exact E.
    - intros (rest & (-> & [Hne Hn] & Hr) & Hs). cbn [match_keyword]. rewrite Ascii.eqb_refl, (span_app _ _ isalpha_spec) by assumption. destruct name; [contradiction|]. rewrite (proj2 (all_class _ _ rest anychar_spec) Hr). reflexivity. }
  assert (E1 : forall line u v w, match_edge line = Some (u, v, w) <-> exists sp', re_edge u v sp' w line /\ stops a_digit (sp' ++ w)).
  { intros line u v w. unfold match_edge. split.
    - pose proof (span_spec _ _ isdigit_spec line) as S. destruct (span isdigit line) as [a b]. destruct S as (-> & Ha & Hb). destruct a as [|x a]; [discriminate|].
      pose proof (span_spec _ _ isspace_spec b) as S. destruct (span isspace b) as [s b']. destruct S as (-> & Hs & Hb'). destruct s as [|y s]; [discriminate|].
      pose proof (span_spec _ _ isdigit_spec b') as S. destruct (span isdigit b') as [a2 b2]. destruct S as (-> & Ha2 & Hb2). destruct a2 as [|z a2]; [discriminate|].
      pose proof (span_spec _ _ isspace_spec b2) as S. destruct (span isspace b2) as [s2 b3]. destruct S as (-> & Hs2 & Hb3). destruct (forallb isweight b3) eqn:E; [|discriminate]. intro X. injection X as <- <- <-.
      exists s2. split; [|exact Hb2]. exists (y :: s). refine (conj eq_refl (conj (conj _ Ha) (conj (conj _ Hs) (conj (conj _ Ha2) (conj Hs2 _))))); try discriminate. apply (all_class _ _ _ isweight_spec). exact E.
    - intros (sp' & (sp & -> & Hu & Hsp & Hv & Hsp' & Hw) & Hst). pose proof (stops_some a_digit _ _ (v ++ sp' ++ w) space_not_digit Hsp) as S1. destruct Hu as [Hu1 Hu2]. rewrite (span_app _ _ isdigit_spec _ _ Hu2 S1). destruct u as [|x u]; [contradiction|].
      pose proof (stops_some SpecText.blank _ _ (sp' ++ w) digit_not_space Hv) as S2. destruct Hsp as [Hp1 Hp2]. rewrite (span_app _ _ isspace_spec _ _ Hp2 S2). destruct sp as [|y sp]; [contradiction|].
      destruct Hv as [Hv1 Hv2]. rewrite (span_app _ _ isdigit_spec _ _ Hv2 Hst). destruct v as [|z v]; [contradiction|].
      assert (S3 : stops SpecText.blank w). { destruct w as [|c w]; [discriminate|]. apply (stops_some_nil _ weight_char); [exact weight_not_space|split; [discriminate|exact Hw]]. }
      rewrite (span_app _ _ isspace_spec _ _ Hsp' S3). rewrite (proj2 (all_class _ _ w isweight_spec) Hw). reflexivity. }
  refine (conj K1 (conj _ (conj _ (conj _ (conj E1 _))))).
  - intro line. split.
    + intros E name rest (-> & [Hne Hn] & Hr). destruct name as [|c name]; [contradiction|]. cbn [match_keyword] in E. rewrite Ascii.eqb_refl in E. cbn [app span] in E. inversion Hn as [|? ? Hc Hn']; subst. rewrite (proj2 (isalpha_spec c) Hc) in E.
      pose proof (span_spec _ _ isalpha_spec (name ++ rest)) as S. destruct (span isalpha (name ++ rest)) as [a b]. destruct S as (Eq & Ha & Hb). assert (X : forallb anychar b = true); [|rewrite X in E; discriminate].
      apply (all_class _ _ b anychar_spec). assert (Hall : Forall on_line (name ++ rest)). { apply Forall_app. split; [|exact Hr]. eapply Forall_impl; [|exact Hn']. intros x Hx. apply isalpha_spec in Hx. apply anychar_spec. pose proof (all_ascii (fun c => implb (isalpha c) (anychar c)) ltac:(vm_compute; reflexivity) x) as Y. cbn beta in Y. rewrite Hx in Y. exact Y. }
      rewrite Eq in Hall. apply Forall_app in Hall. apply Hall.
    + intro H. destruct (match_keyword line) as [name|] eqn:E; [|reflexivity]. apply K1 in E. destruct E as (rest & E & _). exfalso. exact (H _ _ E).
  - intros line number. split.
    + destruct line as [|c t]; cbn [match_key_value]; [discriminate|]. destruct (Ascii.eqb_spec c "*") as [->|]; [|discriminate]. pose proof (span_spec _ _ isalpha_spec t) as S. destruct (span isalpha t) as [a b]. destruct S as (-> & Ha & Hb). destruct a as [|x a]; [discriminate|].
      pose proof (span_spec _ _ isspace_spec b) as S. destruct (span isspace b) as [s b']. destruct S as (-> & Hs & Hb'). destruct s as [|y s]; [discriminate|].
      pose proof (span_spec _ _ isdigit_spec b') as S. destruct (span isdigit b') as [a2 b2]. destruct S as (-> & Ha2 & Hb2). destruct a2 as [|z a2]; [discriminate|]. destruct b2; [|discriminate]. intro X. injection X as <-. rewrite app_nil_r.
      exists (x :: a), (y :: s). refine (conj eq_refl (conj (conj _ Ha) (conj (conj _ Hs) (conj _ Ha2)))); discriminate.
    + intros (name & sp & -> & Hn & Hsp & Hnum). cbn [match_key_value]. rewrite Ascii.eqb_refl. pose proof (stops_some letter _ _ number space_not_letter Hsp) as S1. destruct Hn as [Hn1 Hn2]. rewrite (span_app _ _ isalpha_spec _ _ Hn2 S1). destruct name; [contradiction|].
      pose proof (stops_some_nil SpecText.blank _ _ digit_not_space Hnum) as S2. destruct Hsp as [Hp1 Hp2]. rewrite (span_app _ _ isspace_spec _ _ Hp2 S2). destruct sp; [contradiction|].
      destruct Hnum as [Hd1 Hd2]. pose proof (span_app _ _ isdigit_spec number [] Hd2 ltac:(discriminate)) as X. rewrite app_nil_r in X. rewrite X. destruct number; [contradiction|reflexivity].
  - intros line id label. unfold match_vertex. split.
    + pose proof (span_spec _ _ isdigit_spec line) as S. destruct (span isdigit line) as [a b]. destruct S as (-> & Ha & Hb). destruct a as [|x a]; [discriminate|].
      pose proof (span_spec _ _ isspace_spec b) as S. destruct (span isspace b) as [s b']. destruct S as (-> & Hs & Hb'). destruct s as [|y s]; [discriminate|]. destruct b' as [|q t]; [discriminate|]. destruct (Ascii.eqb_spec q quote) as [->|]; [|discriminate].
      destruct (rev t) as [|d r] eqn:Er; [discriminate|]. destruct (Ascii.eqb_spec d quote) as [->|]; [|discriminate]. cbn [andb]. destruct (forallb anychar r) eqn:E; [|discriminate]. intro X. injection X as <- <-.
      assert (Et : t = rev r ++ [quote]) by (rewrite <- (rev_involutive t), Er; reflexivity). subst t. exists (y :: s). refine (conj eq_refl (conj (conj _ Ha) (conj (conj _ Hs) _))); try discriminate. apply Forall_rev. apply (all_class _ _ _ anychar_spec). exact E.
    + intros (sp & -> & Hid & Hsp & Hl). pose proof (stops_some a_digit _ _ (quote :: label ++ [quote]) space_not_digit Hsp) as S1. destruct Hid as [Hi1 Hi2]. rewrite (span_app _ _ isdigit_spec _ _ Hi2 S1). destruct id; [contradiction|].
      assert (S2 : stops SpecText.blank (quote :: label ++ [quote])). { intros c t E X. injection E as <- _. apply isspace_spec in X. vm_compute in X. discriminate. } destruct Hsp as [Hp1 Hp2]. rewrite (span_app _ _ isspace_spec _ _ Hp2 S2). destruct sp; [contradiction|]. rewrite Ascii.eqb_refl, rev_app_distr. cbn [rev app]. rewrite Ascii.eqb_refl. cbn [andb].
      rewrite (proj2 (all_class _ _ (rev label) anychar_spec) (Forall_rev Hl)), rev_involutive. reflexivity.
  - intro line. split.
    + intros E u v sp' w (sp & -> & Hu & Hsp & Hv & Hsp' & Hw). enough (exists v' sp2 w', re_edge u v' sp2 w' (u ++ sp ++ v ++ sp' ++ w) /\ stops a_digit (sp2 ++ w')) as (v' & sp2 & w' & H) by (rewrite (proj2 (E1 _ u v' w') (ex_intro _ sp2 H)) in E; discriminate).
      destruct sp' as [|c sp'].
      * pose proof (span_spec _ _ isdigit_spec w) as S. destruct (span isdigit w) as [a b]. destruct S as (-> & Ha & Hb). exists (v ++ a), [], b. split; [|exact Hb]. apply Forall_app in Hw. exists sp. refine (conj _ (conj Hu (conj Hsp (conj _ (conj (Forall_nil _) (proj2 Hw)))))); [cbn [app]; rewrite <- !app_assoc; reflexivity|]. destruct Hv as [Hv1 Hv2]. split; [destruct v; [contradiction|discriminate]|]. apply Forall_app. auto.
      * exists v, (c :: sp'), w. split; [exists sp; auto 7|]. apply (stops_some a_digit SpecText.blank); [exact space_not_digit|split; [discriminate|exact Hsp']].
    + intro H. destruct (match_edge line) as [[[u v] w]|] eqn:E; [|reflexivity]. apply E1 in E. destruct E as (sp' & E & _). exfalso. exact (H _ _ _ _ E).
Qed.

(** ** Specification: files *)
(** a line with the contents [core], apart from white space around them *)
Definition padded (core l : str) : Prop :=
  exists a b, l = a ++ core ++ b /\ Forall SpecText.blank a /\ Forall SpecText.blank b /\
    (forall c t, core = c :: t -> ~ SpecText.blank c) /\ (forall c t, core = t ++ [c] -> ~ SpecText.blank c).
Definition comment (l : str) : Prop := exists a t, l = a ++ "%"%char :: t /\ Forall SpecText.blank a.
Definition vertices_line (n : N) (l : str) : Prop :=
  exists name sp number, padded ("*"%char :: name ++ sp ++ number) l /\ In (map tolower name) [chars "vertices"; chars "verts"] /\ Forall letter name /\
    some SpecText.blank sp /\ Forall on_line sp /\ numeral number n /\ (n < 2 ^ 64)%N.
Definition edges_line (l : str) : Prop :=
  exists name rest, padded ("*"%char :: name ++ rest) l /\ In (map tolower name) [chars "edges"; chars "arcs"] /\ Forall letter name /\ stops letter rest /\ Forall on_line rest.
(** number, label and vertex *)
Definition vertex_item (x : str * str * nat) (l : str) : Prop :=
  let '(id, label, v) := x in exists core, padded core l /\ re_vertex id label core /\ numeral id (N.of_nat v) /\ (N.of_nat v < 2 ^ 32)%N.
(** vertices and text of the weight *)
Definition edge_item (x : nat * nat * str) (l : str) : Prop :=
  let '(u, v, w) := x in exists core tu tv sp, padded core l /\ re_edge tu tv sp w core /\ stops a_digit (sp ++ w) /\
    numeral tu (N.of_nat u) /\ (N.of_nat u < 2 ^ 32)%N /\ numeral tv (N.of_nat v) /\ (N.of_nat v < 2 ^ 32)%N.
(** lines of a section, with comments in between *)
Inductive items {A} (P : A -> str -> Prop) : list A -> list str -> Prop :=
| items_nil : items P [] []
| items_comment l ls xs : comment l -> items P xs ls -> items P xs (l :: ls)
| items_item x l ls xs : P x l -> items P xs ls -> items P (x :: xs) (l :: ls).
Definition vertex_simplex (x : str * str * nat) : simplex := simplex_of [snd x] 0%Z.
Definition edge_simplex (conv : str -> Z) (x : nat * nat * str) : simplex :=
  let '(u, v, w) := x in simplex_of [u; v] (match w with [] => 0%Z | _ => conv w end).

(** ** Steps *)
Lemma padded_trim core l : padded core l -> trim l = core.
Proof.
  intros (a & b & E & Ha & Hb & H1 & H2). apply (C84_trim_unique l core a b); [split| | |exact E].
  - intros c t X. destruct (isspace c) eqn:F; [|reflexivity]. exfalso. apply (H1 c t X). apply isspace_spec. exact F.
  - intros c t X. destruct (isspace c) eqn:F; [|reflexivity]. exfalso. apply (H2 c t X). apply isspace_spec. exact F.
  - unfold spaces. eapply Forall_impl; [|exact Ha]. intros c Hc. apply isspace_spec. exact Hc.
  - unfold spaces. eapply Forall_impl; [|exact Hb]. intros c Hc. apply isspace_spec. exact Hc.
Qed.
Lemma comment_trim l : comment l -> exists t, trim l = "%"%char :: t.
Proof.
  intros (a & t & -> & Ha). destruct (C84_trim (a ++ "%"%char :: t)) as ([T1 T2] & a' & b' & A & B & F). set (r := trim (a ++ "%"%char :: t)) in *. clearbody r.
  assert (Ha' : spaces a) by (unfold spaces; eapply Forall_impl; [|exact Ha]; intros c Hc; apply isspace_spec; exact Hc). clear Ha T2.
  revert a' A F. induction a as [|c a IH]; intros a' A F.
  - destruct a' as [|d a']; [|injection F as <- _; inversion A; subst; discriminate]. cbn [app] in F. destruct r as [|d r]; [|injection F as <- _; exists r; reflexivity]. cbn [app] in F. unfold spaces in B. rewrite <- F in B. inversion B; subst. discriminate.
  - inversion Ha'; subst. destruct a' as [|d a'].
    + cbn [app] in F. destruct r as [|d r]; [|injection F as <- _; rewrite (T1 c r eq_refl) in *; discriminate]. cbn [app] in F. unfold spaces in B. rewrite <- F in B. exfalso. rewrite Forall_forall in B. specialize (B "%"%char). assert (X : isspace "%"%char = true) by (apply B; simpl; right; apply in_or_app; simpl; auto). discriminate.
    + injection F as <- F. inversion A; subst. apply (IH H2 a' H4 F).
Qed.
Lemma comment_step strict conv st l : comment l -> pajek_line strict conv st l = Ok st.
Proof. intro H. destruct (comment_trim l H) as (t & E). unfold pajek_line. rewrite E. cbn [bind]. reflexivity. Qed.

Lemma digit_head s c t : some a_digit s -> s = c :: t -> Ascii.eqb c "%" = false /\ Ascii.eqb c "*" = false.
Proof.
  intros [_ H] ->. inversion H as [|? ? Hc _]; subst. apply isdigit_spec in Hc. split.
  - destruct (Ascii.eqb_spec c "%") as [->|]; [vm_compute in Hc; discriminate|reflexivity].
  - destruct (Ascii.eqb_spec c "*") as [->|]; [vm_compute in Hc; discriminate|reflexivity].
Qed.
Lemma no_star_keyword c t : Ascii.eqb c "*" = false -> match_keyword (c :: t) = None.
Proof. intro H. cbn [match_keyword]. rewrite H. reflexivity. Qed.
Lemma numeral_a_digit s v : numeral s v -> some a_digit s.
Proof.
  intro H. destruct (numeral_all s v H) as (H1 & H2 & _). split; [exact H1|]. eapply Forall_impl; [|exact H2]. intros c (d & Hd). apply isdigit_spec. unfold isdigit. rewrite Hd. reflexivity.
Qed.
Lemma vertex_of_small n : (N.of_nat n < 2 ^ 32)%N -> vertex_of (N.of_nat n) = n.
Proof. intro H. unfold vertex_of. rewrite N.mod_small by exact H. apply Nat2N.id. Qed.

Lemma named_in s (a b : str) : In s [a; b] -> str_eqb s a || str_eqb s b = true.
Proof. intro H. apply orb_true_iff. rewrite !str_eqb_spec. destruct H as [H|[H|[]]]; auto. Qed.

Lemma digits_on_line s : Forall a_digit s -> Forall on_line s.
Proof. intro H. eapply Forall_impl; [|exact H]. intros x Hx. apply isdigit_spec in Hx. apply anychar_spec. pose proof (all_ascii (fun c => implb (isdigit c) (anychar c)) ltac:(vm_compute; reflexivity) x) as Y. cbn beta in Y. rewrite Hx in Y. exact Y. Qed.

Lemma vertices_step strict conv st n l : vertices_line n l -> pajek_line strict conv st l = Ok (PajekState Vertices n (pj_labels st) (pj_simplices st)).
Proof.
  intros (name & sp & number & Hp & Hn & Hl & Hs & Ho & Hnum & Hlt). unfold pajek_line. rewrite (padded_trim _ _ Hp). cbn [bind].
  assert (Hne : name <> []) by (intros ->; destruct Hn as [X|[X|[]]]; discriminate). pose proof (numeral_a_digit _ _ Hnum) as Hd.
  destruct C129_expressions as (K1 & _ & K2 & _). assert (HK : re_key_value number ("*"%char :: name ++ sp ++ number)). { exists name, sp. exact (conj eq_refl (conj (conj Hne Hl) (conj Hs Hd))). }
  assert (E1 : match_keyword ("*"%char :: name ++ sp ++ number) = Some name).
  { apply K1. exists (sp ++ number). refine (conj (conj eq_refl (conj (conj Hne Hl) _)) (stops_some letter _ _ number space_not_letter Hs)). apply Forall_app. split; [exact Ho|]. apply digits_on_line. apply Hd. }
  destruct (Ascii.eqb_spec "*" "%"); [discriminate|]. rewrite E1. rewrite (named_in _ _ _ Hn). rewrite (proj2 (K2 _ _) HK). rewrite (numeral_stoul _ _ Hnum Hlt). reflexivity.
Qed.
Lemma edges_step strict conv st l : edges_line l -> pajek_line strict conv st l = Ok (PajekState Edges (pj_number st) (pj_labels st) (pj_simplices st)).
Proof.
  intros (name & rest & Hp & Hn & Hl & Hs & Ho). unfold pajek_line. rewrite (padded_trim _ _ Hp). cbn [bind].
  assert (Hne : name <> []) by (intros ->; destruct Hn as [X|[X|[]]]; discriminate). destruct C129_expressions as (K1 & _).
  assert (E1 : match_keyword ("*"%char :: name ++ rest) = Some name). { apply K1. exists rest. exact (conj (conj eq_refl (conj (conj Hne Hl) Ho)) Hs). }
  destruct (Ascii.eqb_spec "*" "%"); [discriminate|]. rewrite E1. rewrite (named_in _ _ _ Hn).
  assert (E2 : str_eqb (map tolower name) (chars "vertices") || str_eqb (map tolower name) (chars "verts") = false) by (destruct Hn as [<-|[<-|[]]]; reflexivity). rewrite E2. reflexivity.
Qed.
Lemma digit_line core l u rest (strict : bool) : padded core l -> core = u ++ rest -> some a_digit u ->
  exists c t, trim l = c :: t /\ c :: t = core /\ Ascii.eqb c "%" = false /\ match_keyword core = None /\ (match trim l with c :: _ => Ok c | [] => if strict then @UB ascii else Ok "000"%char end) = Ok c.
Proof.
  intros Hp -> Hu. pose proof (padded_trim _ _ Hp) as E. destruct u as [|c t]; [destruct Hu; contradiction|]. destruct (digit_head _ c t Hu eq_refl) as [H1 H2]. cbn [app] in *. exists c, (t ++ rest). rewrite E. refine (conj eq_refl (conj eq_refl (conj H1 (conj _ eq_refl)))). apply no_star_keyword. exact H2.
Qed.
Lemma vertex_step strict conv st id label v l : vertex_item (id, label, v) l -> pj_mode st = Vertices -> smap_find id (pj_labels st) = None ->
  pajek_line strict conv st l = Ok (PajekState Vertices (pj_number st) (smap_set id label (pj_labels st)) (pj_simplices st ++ [vertex_simplex (id, label, v)])).
Proof.
  intros (core & Hp & Hre & Hn & Hlt) Hm Hf. pose proof Hre as (sp & Ec & Hd & _). destruct (digit_line core l id (sp ++ quote :: label ++ [quote]) strict Hp Ec Hd) as (c & t & E & Ect & H1 & H2 & H3). unfold pajek_line. rewrite H3. cbn [bind]. rewrite H1, E, Ect, H2, Hm.
  destruct C129_expressions as (_ & _ & _ & K3 & _). rewrite (proj2 (K3 _ _ _) Hre), Hf. rewrite (numeral_stoul _ _ Hn) by (eapply N.lt_trans; [exact Hlt|reflexivity]). cbn [bind]. rewrite vertex_of_small by exact Hlt. reflexivity.
Qed.
Lemma edge_step strict conv st u v w l : edge_item (u, v, w) l -> pj_mode st = Edges -> (pj_number st <= N.of_nat (length (create_vertices (pj_number st) (pj_simplices st))))%N ->
  pajek_line strict conv st l = Ok (PajekState Edges (pj_number st) (pj_labels st) (create_vertices (pj_number st) (pj_simplices st) ++ [edge_simplex conv (u, v, w)])).
Proof.
  intros (core & tu & tv & sp' & Hp & Hre & Hst & Hu & Hu' & Hv & Hv') Hm Hlt. pose proof Hre as (sp & Ec & Hd & _). destruct (digit_line core l tu (sp ++ tv ++ sp' ++ w) strict Hp Ec Hd) as (c & t & E & Ect & H1 & H2 & H3). unfold pajek_line. rewrite H3. cbn [bind]. rewrite H1, E, Ect, H2, Hm.
  destruct (N.ltb_spec (N.of_nat (length (create_vertices (pj_number st) (pj_simplices st)))) (pj_number st)) as [X|_]; [lia|].
  destruct C129_expressions as (_ & _ & _ & _ & K4 & _). rewrite (proj2 (K4 _ _ _ _) (ex_intro _ sp' (conj Hre Hst))).
  rewrite (numeral_stoul _ _ Hu) by (eapply N.lt_trans; [exact Hu'|reflexivity]). cbn [bind]. rewrite (numeral_stoul _ _ Hv) by (eapply N.lt_trans; [exact Hv'|reflexivity]). cbn [bind]. rewrite !vertex_of_small by assumption.
  unfold edge_simplex. destruct w; reflexivity.
Qed.

(** ** Maps *)
Lemma smap_find_set k k' v m : smap_find k (smap_set k' v m) = if str_eqb k k' then Some v else smap_find k m.
Proof.
  induction m as [|[k1 v1] m IH]; cbn [smap_set smap_find]; [reflexivity|]. destruct (str_eqb k' k1) eqn:E1.
  - cbn [smap_find]. apply str_eqb_spec in E1. subst k1. destruct (str_eqb k k'); reflexivity.
  - destruct (str_ltb k' k1); cbn [smap_find]; [reflexivity|]. rewrite IH. destruct (str_eqb k k1) eqn:E2; [|reflexivity]. destruct (str_eqb k k') eqn:E3; [|reflexivity]. apply str_eqb_spec in E2, E3. subst. assert (X : str_eqb k1 k1 = true) by (apply str_eqb_spec; reflexivity). congruence.
Qed.
Lemma smap_set_new k v m : smap_find k m = None -> Permutation (smap_set k v m) (m ++ [(k, v)]).
Proof.
  induction m as [|[k1 v1] m IH]; cbn [smap_find smap_set app]; [reflexivity|]. destruct (str_eqb k k1); [discriminate|]. intro H. destruct (str_ltb k k1); [rewrite (Permutation_cons_append ((k1, v1) :: m) (k, v)); reflexivity|]. rewrite (IH H). reflexivity.
Qed.
Lemma str_ltb_irrefl a : str_ltb a a = false.
Proof. induction a as [|c a IH]; [reflexivity|]. cbn [str_ltb]. rewrite N.ltb_irrefl. exact IH. Qed.
Lemma str_ltb_trans a b c : str_ltb a b = true -> str_ltb b c = true -> str_ltb a c = true.
Proof.
  revert b c. induction a as [|x a IH]; intros [|y b] [|z c]; cbn [str_ltb]; try discriminate; try reflexivity.
  destruct (N.ltb_spec (N_of_ascii x) (N_of_ascii y)), (N.ltb_spec (N_of_ascii y) (N_of_ascii z)), (N.ltb_spec (N_of_ascii x) (N_of_ascii z)); try lia; try reflexivity; destruct (N.ltb_spec (N_of_ascii y) (N_of_ascii x)); try discriminate; destruct (N.ltb_spec (N_of_ascii z) (N_of_ascii y)); try discriminate; try lia.
  intros A B. destruct (N.ltb_spec (N_of_ascii z) (N_of_ascii x)); [lia|]. exact (IH _ _ A B).
Qed.
Lemma N_of_ascii_inj c d : N_of_ascii c = N_of_ascii d -> c = d.
Proof. intro H. rewrite <- (ascii_N_embedding c), H. apply ascii_N_embedding. Qed.
Lemma str_ltb_total a b : str_ltb a b = false -> str_ltb b a = false -> a = b.
Proof.
  revert b. induction a as [|x a IH]; intros [|y b]; cbn [str_ltb]; try discriminate; try reflexivity.
  destruct (N.ltb_spec (N_of_ascii x) (N_of_ascii y)); [discriminate|]. destruct (N.ltb_spec (N_of_ascii y) (N_of_ascii x)); [discriminate|]. intros A B. rewrite (IH b A B). f_equal. apply N_of_ascii_inj. lia.
Qed.
Definition before (a b : str) : Prop := str_ltb a b = true.
Lemma smap_set_sorted k v m : StronglySorted before (map fst m) -> StronglySorted before (map fst (smap_set k v m)).
Proof.
  induction m as [|[k1 v1] m IH]; cbn [map smap_set fst]; intro H; [repeat constructor|]. inversion H as [|? ? H1 H2]; subst. destruct (str_eqb k k1) eqn:E.
  - apply str_eqb_spec in E. subst. cbn [map fst]. exact H.
  - destruct (str_ltb k k1) eqn:L; cbn [map fst].
    + constructor; [exact H|]. constructor; [exact L|]. eapply Forall_impl; [|exact H2]. intros x Hx. exact (str_ltb_trans _ _ _ L Hx).
    + constructor; [apply IH; exact H1|]. assert (L' : str_ltb k1 k = true). { destruct (str_ltb k1 k) eqn:L'; [reflexivity|]. rewrite (str_ltb_total _ _ L L') in E. assert (X : str_eqb k1 k1 = true) by (apply str_eqb_spec; reflexivity). congruence. }
      clear - H2 L'. induction m as [|[k2 v2] m IH]; cbn [smap_set map fst]; [repeat constructor; exact L'|]. cbn [map fst] in H2. inversion H2; subst. destruct (str_eqb k k2) eqn:E2; [apply str_eqb_spec in E2; subst; cbn [map fst]; constructor; assumption|]. destruct (str_ltb k k2); cbn [map fst]; constructor; auto; try exact L'.
Qed.

(** ** Sections *)
Lemma vertices_run strict conv vs ls : items vertex_item vs ls -> forall n m l,
  NoDup (map fst m ++ map (fun x => fst (fst x)) vs) -> StronglySorted before (map fst m) ->
  exists m', foldM (pajek_line strict conv) ls (PajekState Vertices n m l) = Ok (PajekState Vertices n m' (l ++ map vertex_simplex vs)) /\
    Permutation m' (m ++ map fst vs) /\ StronglySorted before (map fst m').
Proof.
  induction 1 as [|l0 ls xs Hc _ IH|[[id label] v] l0 ls xs Hx _ IH]; intros n m l Hn Hs; cbn [foldM map].
  - exists m. rewrite !app_nil_r. auto.
  - rewrite (comment_step strict conv _ _ Hc). cbn [bind]. apply IH; assumption.
  - cbn [map fst] in Hn.
    assert (Hf : smap_find id m = None).
    { clear - Hn. assert (Hni : ~ In id (map fst m)). { intro X. apply NoDup_remove_2 in Hn. apply Hn. apply in_or_app. left. exact X. } clear Hn. induction m as [|[k v'] m IH]; [reflexivity|]. cbn [smap_find]. destruct (str_eqb id k) eqn:E; [exfalso; apply Hni; apply str_eqb_spec in E; left; auto|]. apply IH. intro X. apply Hni. right. exact X. }
    rewrite (vertex_step strict conv (PajekState Vertices n m l) id label v l0 Hx eq_refl Hf). cbn [bind pj_number pj_labels pj_simplices].
    destruct (IH n (smap_set id label m) (l ++ [vertex_simplex (id, label, v)])) as (m' & E & P & S).
    { eapply Permutation_NoDup; [|exact Hn]. rewrite (Permutation_map fst (smap_set_new id label m Hf)), map_app, <- app_assoc. reflexivity. }
    { apply smap_set_sorted. exact Hs. }
    exists m'. rewrite <- app_assoc in E. refine (conj E (conj _ S)). rewrite P, (smap_set_new id label m Hf), <- app_assoc. reflexivity.
Qed.
Lemma edges_run strict conv es ls : items edge_item es ls -> forall n m l, (l <> [] \/ es = []) -> (es = [] \/ n <= N.of_nat (length l))%N ->
  foldM (pajek_line strict conv) ls (PajekState Edges n m l) = Ok (PajekState Edges n m (l ++ map (edge_simplex conv) es)).
Proof.
  induction 1 as [|l0 ls xs Hc _ IH|[[u v] w] l0 ls xs Hx _ IH]; intros n m l Hl Hn; cbn [foldM map].
  - rewrite app_nil_r. reflexivity.
  - rewrite (comment_step strict conv _ _ Hc). cbn [bind]. apply IH; assumption.
  - destruct Hl as [Hl|]; [|discriminate]. destruct Hn as [|Hn]; [discriminate|]. assert (Ec : create_vertices n l = l) by (destruct l; [contradiction|reflexivity]).
    rewrite (edge_step strict conv (PajekState Edges n m l) u v w l0 Hx eq_refl) by (cbn [pj_number pj_simplices]; rewrite Ec; exact Hn). cbn [bind pj_number pj_labels pj_simplices]. rewrite Ec.
    rewrite IH; [rewrite <- app_assoc; reflexivity|left; destruct l; discriminate|right; rewrite app_length; lia].
Qed.
Lemma comments_run strict conv st ls : Forall comment ls -> foldM (pajek_line strict conv) ls st = Ok st.
Proof. induction 1 as [|l ls Hl _ IH]; cbn [foldM]; [reflexivity|]. rewrite (comment_step strict conv _ _ Hl). exact IH. Qed.
Lemma lines_text (lines : list str) : (forall l, In l lines -> ~ In newline l) -> getlines [] (text_of lines []) = lines.
Proof. intro H. rewrite getlines_text by (intros l X; apply in_app_or in X; destruct X as [X|[<-|[]]]; [apply H; exact X|intros []]). apply app_nil_r. Qed.

(** ** Files with labels *)
(** A file with comments, a section of vertices and a section of edges is read as the vertices in the
    order of the file, followed by the edges with their weights.  The labels are stored for the texts of
    the numbers, in lexicographical order of these texts. *)
Theorem C129_read : forall strict conv n vs es pre l1 vl l2 el,
  let lines := pre ++ l1 :: vl ++ l2 :: el in
  (forall l, In l lines -> ~ In newline l) ->
  Forall comment pre -> vertices_line n l1 -> items vertex_item vs vl -> edges_line l2 -> items edge_item es el ->
  NoDup (map (fun x => fst (fst x)) vs) -> vs <> [] -> (es = [] \/ n <= N.of_nat (length vs))%N ->
  exists labels, Permutation labels (map fst vs) /\ StronglySorted before (map fst labels) /\
    let L := map vertex_simplex vs ++ map (edge_simplex conv) es in
    readPajek strict conv (text_of lines []) = (let* K := k_of_range L in Ok (K, labels)) /\
    (NoDup (map verts L) -> exists K, readPajek strict conv (text_of lines []) = Ok (K, labels) /\ by_index K = L).
Proof.
  intros strict conv n vs es pre l1 vl l2 el lines Hnl Hpre H1 Hv H2 He Hnd Hne Hn. destruct (vertices_run strict conv vs vl Hv n [] [] Hnd (SSorted_nil _)) as (labels & E & P & S). cbn [app] in *.
  exists labels. refine (conj P (conj S _)). cbn zeta. set (L := map vertex_simplex vs ++ map (edge_simplex conv) es).
  assert (R : readPajek strict conv (text_of lines []) = (let* K := k_of_range L in Ok (K, labels))).
  { unfold readPajek. rewrite (lines_text lines Hnl). unfold lines. rewrite foldM_app, (comments_run strict conv _ _ Hpre). cbn [bind foldM]. rewrite (vertices_step strict conv _ n l1 H1). cbn [bind pj_labels pj_simplices]. rewrite foldM_app, E. cbn [bind foldM].
    rewrite (edges_step strict conv _ l2 H2). cbn [bind pj_number pj_labels pj_simplices].
    rewrite (edges_run strict conv es el He n labels (map vertex_simplex vs)); [reflexivity|left; destruct vs; [contradiction|discriminate]|rewrite map_length; exact Hn]. }
  split; [exact R|]. intro HL. destruct (of_range_new L) as (K & EK & _ & EL); [|exact HL|].
  - intros s Hs. apply in_app_or in Hs. destruct Hs as [Hs|Hs]; apply in_map_iff in Hs; [destruct Hs as (x & <- & _)|destruct Hs as ([[u v] w] & <- & _)]; (split; [apply simplex_of_wf|]).
    + unfold vertex_simplex. cbn. discriminate.
    + unfold edge_simplex. destruct (verts (simplex_of [u; v] _)) eqn:Ev; [|discriminate]. assert (X : In u (verts (simplex_of [u; v] (match w with [] => 0%Z | _ => conv w end)))) by (apply simplex_of_In; simpl; auto). rewrite Ev in X. destruct X.
  - exists K. rewrite R, EK. cbn [bind]. auto.
Qed.

(** ** Files without labels: the vertices 1, ..., n, provided that there are edges *)
Theorem C129_unlabelled : forall strict conv n es pre l1 vl l2 el,
  let lines := pre ++ l1 :: vl ++ l2 :: el in
  (forall l, In l lines -> ~ In newline l) ->
  Forall comment pre -> vertices_line (N.of_nat n) l1 -> Forall comment vl -> edges_line l2 -> items edge_item es el -> (N.of_nat n < 2 ^ 32)%N -> es <> [] ->
  readPajek strict conv (text_of lines []) = (let* K := k_of_range (map (fun i => simplex_of [i] 0%Z) (seq 1 n) ++ map (edge_simplex conv) es) in Ok (K, [])).
Proof.
  intros strict conv n es pre l1 vl l2 el lines Hnl Hpre H1 Hv H2 He Hlt Hne. unfold readPajek. rewrite (lines_text lines Hnl). unfold lines. rewrite foldM_app, (comments_run strict conv _ _ Hpre). cbn [bind foldM]. rewrite (vertices_step strict conv _ _ l1 H1). cbn [bind pj_labels pj_simplices].
  rewrite foldM_app, (comments_run strict conv _ _ Hv). cbn [bind foldM]. rewrite (edges_step strict conv _ l2 H2). cbn [bind pj_number pj_labels pj_simplices].
  assert (EV : create_vertices (N.of_nat n) [] = map (fun i => simplex_of [i] 0%Z) (seq 1 n)).
  { cbn [create_vertices]. rewrite Nat2N.id. rewrite <- seq_shift, map_map. apply map_ext_in. intros i Hi. apply in_seq in Hi. replace (N.of_nat i + 1)%N with (N.of_nat (S i)) by lia. rewrite vertex_of_small by lia. reflexivity. }
  assert (G : foldM (pajek_line strict conv) el (PajekState Edges (N.of_nat n) [] []) = Ok (PajekState Edges (N.of_nat n) [] (map (fun i => simplex_of [i] 0%Z) (seq 1 n) ++ map (edge_simplex conv) es))).
  { clear lines Hnl H2 Hv. induction He as [|l0 ls xs Hc _ IH|[[u v] w] l0 ls xs Hx He IH]; [contradiction| |]; cbn [foldM map].
    - rewrite (comment_step strict conv _ _ Hc). cbn [bind]. apply IH. exact Hne.
    - rewrite (edge_step strict conv (PajekState Edges (N.of_nat n) [] []) u v w l0 Hx eq_refl) by (cbn [pj_number pj_simplices]; rewrite EV, map_length, seq_length; lia). cbn [bind pj_number pj_labels pj_simplices]. rewrite EV.
      rewrite (edges_run strict conv xs ls He); [rewrite <- app_assoc; reflexivity|left; destruct (map (fun i => simplex_of [i] 0%Z) (seq 1 n)); discriminate|right; rewrite app_length, map_length, seq_length; lia]. }
  rewrite G. reflexivity.
Qed.

(** ** Errors *)
(** a line with contents that is neither a comment nor a keyword *)
Definition other_line (core l : str) : Prop := padded core l /\ exists c t, core = c :: t /\ c <> "%"%char /\ c <> "*"%char.
Lemma other_front core l (strict : bool) : other_line core l -> exists c t, trim l = c :: t /\ c :: t = core /\ Ascii.eqb c "%" = false /\ match_keyword core = None.
Proof.
  intros (Hp & c & t & -> & N1 & N2). exists c, t. rewrite (padded_trim _ _ Hp). refine (conj eq_refl (conj eq_refl (conj _ _))); [apply Ascii.eqb_neq; exact N1|]. apply no_star_keyword. apply Ascii.eqb_neq. exact N2.
Qed.
Lemma foldM_throw {A B} (f : A -> B -> outcome A) l x e r s : f s x = Throw e -> l = x :: r -> foldM f l s = Throw e.
Proof. intros H ->. cbn [foldM]. rewrite H. reflexivity. Qed.

(** [std::runtime_error] is thrown for a line in the section of vertices that has a wrong form or repeats a
    number; if there are edges, but fewer vertices than announced; and for an edge of a wrong form. *)
Theorem C129_errors : forall strict conv n vs pre l1 vl rest,
  Forall comment pre -> vertices_line n l1 -> items vertex_item vs vl -> NoDup (map (fun x => fst (fst x)) vs) -> vs <> [] ->
  (forall core l more, rest = l :: more -> other_line core l -> 
     ((forall id label, ~ re_vertex id label core) \/ exists id label, re_vertex id label core /\ In id (map (fun x => fst (fst x)) vs)) ->
     let lines := pre ++ l1 :: vl ++ rest in (forall l, In l lines -> ~ In newline l) -> readPajek strict conv (text_of lines []) = Throw RuntimeError) /\
  (forall l2 es el core l more, rest = l2 :: el ++ l :: more -> edges_line l2 -> items edge_item es el -> other_line core l ->
     ((N.of_nat (length vs) < n)%N /\ es = [] \/ (n <= N.of_nat (length vs))%N /\ forall u v sp w, ~ re_edge u v sp w core) ->
     let lines := pre ++ l1 :: vl ++ rest in (forall l, In l lines -> ~ In newline l) -> readPajek strict conv (text_of lines []) = Throw RuntimeError).
Proof.
  intros strict conv n vs pre l1 vl rest Hpre H1 Hv Hnd Hne. destruct (vertices_run strict conv vs vl Hv n [] [] Hnd (SSorted_nil _)) as (labels & E & P & S). cbn [app] in E, P. destruct C129_expressions as (_ & _ & _ & K3 & _ & K5).
  split.
  - intros core l more -> Ho Hbad lines Hnl. unfold readPajek. rewrite (lines_text lines Hnl). unfold lines. rewrite foldM_app, (comments_run strict conv _ _ Hpre). cbn [bind foldM]. rewrite (vertices_step strict conv _ _ l1 H1). cbn [bind pj_labels pj_simplices]. rewrite foldM_app, E. cbn [bind].
    erewrite foldM_throw; [reflexivity| |reflexivity]. destruct (other_front core l strict Ho) as (c & t & Et & Ec & N1 & N2). unfold pajek_line. rewrite Et. cbn [bind]. rewrite N1, Ec, N2. cbn [pj_mode].
    destruct (match_vertex core) as [[id label]|] eqn:Em; [|reflexivity]. destruct Hbad as [Hbad|(id' & label' & Hre & Hin)]; [exfalso; exact (Hbad _ _ (proj1 (K3 _ _ _) Em))|]. apply K3 in Hre. rewrite Hre in Em. injection Em as -> ->.
    cbn [pj_labels]. destruct (smap_find id labels) eqn:Ef; [reflexivity|]. exfalso. assert (Hin' : In id (map fst labels)) by (rewrite (Permutation_map fst P), map_map; exact Hin). clear - Ef Hin'. induction labels as [|[k x] m IH]; [contradiction|]. cbn [smap_find] in Ef. destruct (str_eqb id k) eqn:Ek; [discriminate|]. destruct Hin' as [X|X]; [cbn [fst] in X; subst; assert (Y : str_eqb id id = true) by (apply str_eqb_spec; reflexivity); congruence|]. exact (IH Ef X).
  - intros l2 es el core l more -> H2 He Ho Hbad lines Hnl. unfold readPajek. rewrite (lines_text lines Hnl). unfold lines. rewrite foldM_app, (comments_run strict conv _ _ Hpre). cbn [bind foldM]. rewrite (vertices_step strict conv _ _ l1 H1). cbn [bind pj_labels pj_simplices]. rewrite foldM_app, E. cbn [bind foldM].
    rewrite (edges_step strict conv _ l2 H2). cbn [bind pj_number pj_labels pj_simplices]. rewrite foldM_app.
    rewrite (edges_run strict conv es el He n labels (map vertex_simplex vs)); [|left; destruct vs; [contradiction|discriminate]|rewrite map_length; destruct Hbad as [[_ X]|[X _]]; auto].
    cbn [bind]. erewrite foldM_throw; [reflexivity| |reflexivity]. destruct (other_front core l strict Ho) as (c & t & Et & Ec & N1 & N2). unfold pajek_line. rewrite Et. cbn [bind]. rewrite N1, Ec, N2. cbn [pj_mode pj_number pj_simplices].
    assert (EC : create_vertices n (map vertex_simplex vs ++ map (edge_simplex conv) es) = map vertex_simplex vs ++ map (edge_simplex conv) es) by (destruct vs; [contradiction|reflexivity]). rewrite EC, app_length, !map_length.
    destruct Hbad as [[Hlt ->]|[Hle Hno]].
    + destruct (N.ltb_spec (N.of_nat (length vs + length (@nil (nat * nat * str)))) n) as [_|X]; [reflexivity|cbn [length] in X; lia].
    + destruct (N.ltb_spec (N.of_nat (length vs + length es)) n) as [X|_]; [reflexivity|]. rewrite (proj2 (K5 core)) by exact Hno. reflexivity.
Qed.

(** ** Examples *)
Definition int_conv (s : str) : Z := fst (convert (-1000) 1000 s).
Definition contents (r : outcome (complex * smap)) : outcome (list (list nat * Z) * smap) :=
  let* x := r in Ok (map (fun s => (verts s, data s)) (by_index (fst x)), snd x).
Definition vline (id label : string) : str := chars id ++ chars " " ++ [quote] ++ chars label ++ [quote].
Example C129_example :
  contents (readPajek true int_conv (text_of [chars "% comment"; chars "*Vertices 3"; vline "1" "a b"; vline "2" ""; vline "7" "c"; chars "*Edges"; chars "1 2 23"; chars " 7   2"] [])) =
  Ok ([([1], 0%Z); ([2], 0%Z); ([7], 0%Z); ([2; 1], 23%Z); ([7; 2], 0%Z)], [(chars "1", chars "a b"); (chars "2", []); (chars "7", chars "c")]) /\
  contents (readPajek true int_conv (text_of [chars "*vertices 3"; chars "*ARCS"; chars "1 2"] [])) = Ok ([([1], 0%Z); ([2], 0%Z); ([3], 0%Z); ([2; 1], 0%Z)], []) /\
  readPajek true int_conv (text_of [chars "*vertices 2"; vline "1" "a"; vline "1" "b"] []) = Throw RuntimeError /\
  readPajek true int_conv (text_of [chars "*vertices 2"; vline "1" "a"; chars "*edges"; chars "1 2"] []) = Throw RuntimeError.
Proof. vm_compute. repeat split; reflexivity. Qed.

(** ** Findings *)
(** an empty line, as in the files of the tests of the project, is undefined; where it is read as a null
    character, it is accepted before the sections only *)
Theorem C129_blank_refuted :
  readPajek true int_conv (text_of [chars "% comment"; []; chars "*Vertices 1"; chars "*Edges"] []) = UB /\
  contents (readPajek false int_conv (text_of [chars "% comment"; []; chars "*Vertices 2"; chars "*Edges"; chars "1 2"] [])) = Ok ([([1], 0%Z); ([2], 0%Z); ([2; 1], 0%Z)], []) /\
  readPajek false int_conv (text_of [chars "*Vertices 2"; []; chars "*Edges"; chars "1 2"] []) = Throw RuntimeError.
Proof. vm_compute. repeat split; reflexivity. Qed.
(** a graph without labels and edges has no vertices *)
Theorem C129_isolated_refuted : exists lines, vertices_line 3 (nth 0 lines []) /\ edges_line (nth 1 lines []) /\ length lines = 2 /\
  contents (readPajek true int_conv (text_of lines [])) = Ok ([], []).
Proof.
  exists [chars "*Vertices 3"; chars "*Edges"]. refine (conj _ (conj _ (conj eq_refl _))); [| |vm_compute; reflexivity].
  - exists (chars "Vertices"), (chars " "), (chars "3"). refine (conj _ (conj _ (conj _ (conj _ (conj _ (conj _ _)))))).
    + exists [], []. refine (conj eq_refl (conj (Forall_nil _) (conj (Forall_nil _) (conj _ _)))); [intros c t X; injection X as <- _; vm_compute; intuition discriminate|]. intros c t X. assert (Y : rev (nth 0 [chars "*Vertices 3"] []) = c :: rev t) by (cbn [nth]; change (chars "*Vertices 3") with ("*"%char :: chars "Vertices" ++ chars " " ++ chars "3"); rewrite X, rev_app_distr; reflexivity). vm_compute in Y. injection Y as <- _. vm_compute. intuition discriminate.
    + left. reflexivity.
    + repeat (apply Forall_cons; [apply isalpha_spec; reflexivity|]). apply Forall_nil.
    + split; [discriminate|]. repeat (apply Forall_cons; [apply isspace_spec; reflexivity|]). apply Forall_nil.
    + repeat constructor; discriminate.
    + constructor. split; [discriminate|reflexivity].
    + reflexivity.
  - exists (chars "Edges"), []. refine (conj _ (conj _ (conj _ (conj _ (Forall_nil _))))).
    + exists [], []. refine (conj eq_refl (conj (Forall_nil _) (conj (Forall_nil _) (conj _ _)))); [intros c t X; injection X as <- _; vm_compute; intuition discriminate|]. intros c t X. assert (Y : rev (chars "*Edges") = c :: rev t) by (change (chars "*Edges") with ("*"%char :: chars "Edges" ++ []); rewrite X, rev_app_distr; reflexivity). vm_compute in Y. injection Y as <- _. vm_compute. intuition discriminate.
    + left. reflexivity.
    + repeat (apply Forall_cons; [apply isalpha_spec; reflexivity|]). apply Forall_nil.
    + discriminate.
Qed.
(** two words are read as an edge with a weight, an endpoint need not be a vertex, a loop is dropped, numbers
    with the same value are different *)
Theorem C129_accepted_refuted :
  contents (readPajek true (fun w => Z.of_nat (length w)) (text_of [chars "*Vertices 2"; chars "*Edges"; chars "1 2.5"] [])) = Ok ([([1], 0%Z); ([2], 0%Z); ([2; 1], 2%Z)], []) /\
  contents (readPajek true int_conv (text_of [chars "*Vertices 2"; chars "*Edges"; chars "1 9"] [])) = Ok ([([1], 0%Z); ([2], 0%Z); ([9; 1], 0%Z)], []) /\
  contents (readPajek true int_conv (text_of [chars "*Vertices 2"; chars "*Edges"; chars "1 1 5"] [])) = Ok ([([1], 0%Z); ([2], 0%Z)], []) /\
  contents (readPajek true int_conv (text_of [chars "*Vertices 2"; vline "1" "a"; vline "01" "b"] [])) = Ok ([([1], 0%Z)], [(chars "01", chars "b"); (chars "1", chars "a")]).
Proof. vm_compute. repeat split; reflexivity. Qed.
(** negative weights, and coordinates after the label, which the format permits *)
Theorem C129_rejected_refuted :
  readPajek true int_conv (text_of [chars "*Vertices 2"; chars "*Edges"; chars "1 2 -3"] []) = Throw RuntimeError /\
  readPajek true int_conv (text_of [chars "*Vertices 1"; vline "1" "a" ++ chars " 0.5 0.5"] []) = Throw RuntimeError.
Proof. vm_compute. repeat split; reflexivity. Qed.

(** [SimplicialComplexReader::labels] follows the order of the vertices only if the texts of the numbers are
    sorted lexicographically and no label is empty: label 10 precedes label 2, and empty labels are dropped *)
Theorem C129_labels_refuted : exists lines lines' : list str,
  (exists K m, readPajek true int_conv (text_of lines []) = Ok (K, m) /\ k_vertices K = seq 1 10 /\ getLabels m = map chars ["v1"; "v10"; "v2"; "v3"; "v4"; "v5"; "v6"; "v7"; "v8"; "v9"]%string) /\
  (exists K m, readPajek true int_conv (text_of lines' []) = Ok (K, m) /\ k_vertices K = [1; 2] /\ getLabels m = [chars "b"]).
Proof.
  exists (chars "*Vertices 10" :: map (fun i => print_nat i ++ chars " " ++ [quote] ++ chars "v" ++ print_nat i ++ [quote]) (seq 1 10)), [chars "*Vertices 2"; vline "1" ""; vline "2" "b"].
  split; eexists; eexists; (split; [vm_compute; reflexivity|split; vm_compute; reflexivity]).
Qed.
(** otherwise they do *)
Theorem C129_labels : forall strict conv n vs es pre l1 vl l2 el,
  let lines := pre ++ l1 :: vl ++ l2 :: el in
  (forall l, In l lines -> ~ In newline l) ->
  Forall comment pre -> vertices_line n l1 -> items vertex_item vs vl -> edges_line l2 -> items edge_item es el ->
  StronglySorted before (map (fun x => fst (fst x)) vs) -> Forall (fun x => snd (fst x) <> []) vs -> vs <> [] -> (es = [] \/ n <= N.of_nat (length vs))%N ->
  NoDup (map verts (map vertex_simplex vs ++ map (edge_simplex conv) es)) ->
  exists K m, readPajek strict conv (text_of lines []) = Ok (K, m) /\ getLabels m = map (fun x => snd (fst x)) vs.
Proof.
  intros strict conv n vs es pre l1 vl l2 el lines Hnl Hpre H1 Hv H2 He Hs Hl Hne Hn HL.
  assert (Hnd : forall l, StronglySorted before l -> NoDup l). { induction 1 as [|x l _ IH Hx]; constructor; [|exact IH]. intro X. rewrite Forall_forall in Hx. specialize (Hx x X). unfold before in Hx. rewrite str_ltb_irrefl in Hx. discriminate. }
  destruct (C129_read strict conv n vs es pre l1 vl l2 el Hnl Hpre H1 Hv H2 He (Hnd _ Hs) Hne Hn) as (labels & P & S & _ & R). destruct (R HL) as (K & E & _). exists K, labels. split; [exact E|].
  assert (EL : labels = map fst vs).
  { assert (Hs' : StronglySorted before (map fst (map fst vs))) by (rewrite map_map; exact Hs). clear - P S Hs'. revert P S Hs'. generalize (map fst vs) as l. intro l. revert labels. induction l as [|x l IH]; intros labels P S Hs'; [apply Permutation_sym, Permutation_nil in P; exact P|].
    destruct labels as [|y labels]; [apply Permutation_nil in P; discriminate|]. cbn [map] in *. inversion S as [|? ? S1 S2]; subst. inversion Hs' as [|? ? T1 T2]; subst.
    assert (x = y) as ->.
    { pose proof (Permutation_in y P (or_introl eq_refl)) as [X|X]; [exact X|]. pose proof (Permutation_in x (Permutation_sym P) (or_introl eq_refl)) as [Y|Y]; [auto|]. exfalso. rewrite Forall_forall in S2, T2. pose proof (S2 (fst x) (in_map fst _ _ Y)) as B1. pose proof (T2 (fst y) (in_map fst _ _ X)) as B2. unfold before in *. pose proof (str_ltb_trans _ _ _ B1 B2) as B3. rewrite str_ltb_irrefl in B3. discriminate. }
    f_equal. apply IH; [eapply Permutation_cons_inv; exact P|exact S1|exact T1]. }
  subst labels. unfold getLabels. rewrite map_map. clear - Hl. induction Hl as [|[[id label] v] l Hx _ IH]; [reflexivity|]. cbn [map filter fst snd] in *. destruct label; [contradiction|]. rewrite IH. reflexivity.
Qed.

Print Assumptions C129_expressions.
Print Assumptions C129_read.
Print Assumptions C129_unlabelled.
Print Assumptions C129_errors.
Print Assumptions C129_labels.
Print Assumptions C129_labels_refuted.
Print Assumptions C129_isolated_refuted.
