(** * GML files (C131) *)
From Coq Require Import String Ascii List Arith Bool NArith ZArith Lia Permutation Sorted.
From Verif Require Import Base BaseFacts SpecText LoadMatrix LoadFacts StringUtilities PropertiesString Simplex SimplexFacts Complex ComplexFacts RipsFacts EnumerateFacts BarycentricFacts DualFacts DiagramIO PropertiesJSON Pajek PropertiesPajek Gml.
Import ListNotations.
Local Open Scope list_scope.
Local Open Scope nat_scope.

(** ** Specification: lines *)
Definition name_char (c : ascii) : Prop := In c (chars "abcdefghijklmnopqrstuvwxyzABCDEFGHIJKLMNOPQRSTUVWXYZ_|").
Definition value_char (c : ascii) : Prop := In c (chars "abcdefghijklmnopqrstuvwxyzABCDEFGHIJKLMNOPQRSTUVWXYZ0123456789.").
Definition label_char (c : ascii) : Prop := c <> quote.

(** ([_\|[:alpha:]]+)[[:space:]]*.* *)
Definition re_attribute (name rest line : str) : Prop := exists sp any, line = name ++ rest /\ rest = sp ++ any /\ some name_char name /\ Forall SpecText.blank sp /\ Forall on_line any.
(** ([_\|[:alpha:]]+)[[:space:]]+([[:alnum:]\.]+) *)
Definition re_gml_value (name value line : str) : Prop := exists sp, line = name ++ sp ++ value /\ some name_char name /\ some SpecText.blank sp /\ some value_char value.
(** (label)[[:space:]]+, followed by characters other than quotes in quotes *)
Definition re_label (label line : str) : Prop := exists sp, line = chars "label" ++ sp ++ quote :: label ++ [quote] /\ some SpecText.blank sp /\ some label_char label.

(** ** The classes *)
Lemma isname_spec c : isname c = true <-> name_char c.
Proof. apply class_eq. vm_compute. reflexivity. Qed.
Lemma isvalue_spec c : isvalue c = true <-> value_char c.
Proof. apply class_eq. vm_compute. reflexivity. Qed.
Lemma isnoquote_spec c : isnoquote c = true <-> label_char c.
Proof. unfold isnoquote, label_char. rewrite negb_true_iff. apply Ascii.eqb_neq. Qed.
Lemma name_not_space c : name_char c -> ~ SpecText.blank c.
Proof. intros H B. apply isname_spec in H. apply isspace_spec in B. pose proof (all_ascii (fun c => negb (isname c && isspace c)) ltac:(vm_compute; reflexivity) c) as X. cbn beta in X. rewrite H, B in X. discriminate. Qed.
Lemma value_not_space c : value_char c -> ~ SpecText.blank c.
Proof. intros H B. apply isvalue_spec in H. apply isspace_spec in B. pose proof (all_ascii (fun c => negb (isvalue c && isspace c)) ltac:(vm_compute; reflexivity) c) as X. cbn beta in X. rewrite H, B in X. discriminate. Qed.
Lemma space_not_name c : SpecText.blank c -> ~ name_char c.
Proof. intros H X. exact (name_not_space c X H). Qed.
Lemma value_on_line s : Forall value_char s -> Forall on_line s.
Proof. intro H. eapply Forall_impl; [|exact H]. intros x Hx. apply isvalue_spec in Hx. apply anychar_spec. pose proof (all_ascii (fun c => implb (isvalue c) (anychar c)) ltac:(vm_compute; reflexivity) x) as Y. cbn beta in Y. rewrite Hx in Y. exact Y. Qed.
Lemma name_on_line s : Forall name_char s -> Forall on_line s.
Proof. intro H. eapply Forall_impl; [|exact H]. intros x Hx. apply isname_spec in Hx. apply anychar_spec. pose proof (all_ascii (fun c => implb (isname c) (anychar c)) ltac:(vm_compute; reflexivity) x) as Y. cbn beta in Y. rewrite Hx in Y. exact Y. Qed.

(** ** The regular expressions *)
(** The matches of the first expression, with the longest name; of the second and the third one, which are
    unique. *)
Theorem C131_expressions :
  (forall line name, match_attribute line = Some name <-> exists rest, re_attribute name rest line /\ stops name_char rest) /\
  (forall line, match_attribute line = None <-> forall name rest, ~ re_attribute name rest line) /\
  (forall line value, gml_key_value line = Some value <-> exists name, re_gml_value name value line) /\
  (forall line label, match_label line = Some label <-> re_label label line).
Proof.
  assert (K1 : forall line name, match_attribute line = Some name <-> exists rest, re_attribute name rest line /\ stops name_char rest).
  { intros line name. unfold match_attribute. split.
    - pose proof (span_spec _ _ isname_spec line) as S. destruct (span isname line) as [a b]. destruct S as (-> & Ha & Hb). destruct a as [|x a]; [discriminate|].
      pose proof (span_spec _ _ isspace_spec b) as S. destruct (span isspace b) as [s b']. destruct S as (-> & Hs & _). destruct (forallb anychar b') eqn:E; [|discriminate]. intro X. injection X as <-. exists (s ++ b'). split; [|exact Hb].
      exists s, b'. refine (conj eq_refl (conj eq_refl (conj (conj _ Ha) (conj Hs _)))); [discriminate|]. apply (all_class _ _ _ anychar_spec). exact E.
    - intros (rest & (sp & any & -> & -> & [Hne Hn] & Hsp & Hany) & Hs). rewrite (span_app _ _ isname_spec) by assumption. destruct name; [contradiction|].
      pose proof (span_spec _ _ isspace_spec (sp ++ any)) as S. destruct (span isspace (sp ++ any)) as [s b]. destruct S as (E & H1 & H2).
      assert (X : forallb anychar b = true); [|rewrite X; reflexivity]. apply (all_class _ _ _ anychar_spec).
      clear - E H1 H2 Hsp Hany. revert s E H1. induction Hsp as [|c sp Hc _ IH]; intros s E H1.
      + cbn [app] in E. subst any. apply Forall_app in Hany. apply Hany.
      + destruct s as [|d s]; [cbn [app] in E; exfalso; apply (H2 c (sp ++ any) (eq_sym E)); exact Hc|]. injection E as -> E. inversion H1; subst. apply (IH s E). assumption. }
  refine (conj K1 (conj _ (conj _ _))).
  - intro line. split.
    + intros E name rest (sp & any & -> & -> & [Hne Hn] & Hsp & Hany).
      enough (exists name' rest', re_attribute name' rest' (name ++ sp ++ any) /\ stops name_char rest') as (n' & r' & X) by (rewrite (proj2 (K1 _ n') (ex_intro _ r' X)) in E; discriminate).
      destruct sp as [|c sp].
      * cbn [app]. pose proof (span_spec _ _ isname_spec any) as S. destruct (span isname any) as [a b]. destruct S as (-> & Ha & Hb). exists (name ++ a), b. split; [|exact Hb]. exists [], b. apply Forall_app in Hany. refine (conj _ (conj eq_refl (conj (conj _ _) (conj (Forall_nil _) (proj2 Hany))))); [rewrite app_assoc; reflexivity|destruct name; [contradiction|discriminate]|]. apply Forall_app. auto.
      * exists name, ((c :: sp) ++ any). split; [exists (c :: sp), any; exact (conj eq_refl (conj eq_refl (conj (conj Hne Hn) (conj Hsp Hany))))|]. apply (stops_some name_char SpecText.blank); [exact space_not_name|split; [discriminate|exact Hsp]].
    + intro H. destruct (match_attribute line) as [name|] eqn:E; [|reflexivity]. apply K1 in E. destruct E as (rest & E & _). exfalso. exact (H _ _ E).
  - intros line value. unfold gml_key_value. split.
    + pose proof (span_spec _ _ isname_spec line) as S. destruct (span isname line) as [a b]. destruct S as (-> & Ha & Hb). destruct a as [|x a]; [discriminate|].
      pose proof (span_spec _ _ isspace_spec b) as S. destruct (span isspace b) as [s b']. destruct S as (-> & Hs & _). destruct s as [|y s]; [discriminate|]. destruct b' as [|z b']; [discriminate|]. destruct (forallb isvalue (z :: b')) eqn:E; [|discriminate]. intro X. injection X as <-.
      exists (x :: a), (y :: s). refine (conj eq_refl (conj (conj _ Ha) (conj (conj _ Hs) (conj _ _)))); try discriminate. apply (all_class _ _ _ isvalue_spec). exact E.
    + intros (name & sp & -> & [Hn1 Hn2] & Hsp & Hv). rewrite (span_app _ _ isname_spec _ _ Hn2 (stops_some name_char _ _ value space_not_name Hsp)). destruct name; [contradiction|]. pose proof (stops_some_nil SpecText.blank _ _ value_not_space Hv) as S2. destruct Hsp as [Hp1 Hp2]. rewrite (span_app _ _ isspace_spec _ _ Hp2 S2). destruct sp; [contradiction|].
      destruct Hv as [Hv1 Hv2]. destruct value; [contradiction|]. rewrite (proj2 (all_class _ _ _ isvalue_spec) Hv2). reflexivity.
  - intros line label. unfold match_label. split.
    + pose proof (span_spec _ _ isname_spec line) as S. destruct (span isname line) as [a b]. destruct S as (-> & Ha & Hb). destruct (str_eqb a (chars "label")) eqn:El; [|discriminate]. apply str_eqb_spec in El. subst a.
      pose proof (span_spec _ _ isspace_spec b) as S. destruct (span isspace b) as [s b']. destruct S as (-> & Hs & _). destruct s as [|y s]; [discriminate|]. destruct b' as [|q t]; [discriminate|]. destruct (Ascii.eqb_spec q quote) as [->|]; [|discriminate].
      pose proof (span_spec _ _ isnoquote_spec t) as S. destruct (span isnoquote t) as [u r]. destruct S as (-> & Hu & Hr). destruct u as [|z u]; [discriminate|]. destruct r as [|d [|? ?]]; [discriminate| |discriminate]. intro X. injection X as <-.
      assert (d = quote). { destruct (Ascii.eqb_spec d quote) as [->|N]; [reflexivity|]. exfalso. apply (Hr d [] eq_refl). exact N. } subst d.
      exists (y :: s). refine (conj eq_refl (conj (conj _ Hs) (conj _ Hu))); discriminate.
    + intros (sp & -> & Hsp & [Hl1 Hl2]). assert (Hn : Forall name_char (chars "label")) by (apply (all_class _ _ _ isname_spec); reflexivity). rewrite (span_app _ _ isname_spec _ _ Hn (stops_some name_char _ _ (quote :: label ++ [quote]) space_not_name Hsp)).
      replace (str_eqb (chars "label") (chars "label")) with true by reflexivity.
      assert (S2 : stops SpecText.blank (quote :: label ++ [quote])). { intros c t E X. injection E as <- _. apply isspace_spec in X. vm_compute in X. discriminate. }
      destruct Hsp as [Hp1 Hp2]. rewrite (span_app _ _ isspace_spec _ _ Hp2 S2). destruct sp; [contradiction|]. rewrite Ascii.eqb_refl.
      assert (S3 : stops label_char [quote]). { intros c t E X. injection E as <- _. apply X. reflexivity. } rewrite (span_app _ _ isnoquote_spec _ _ Hl2 S3). destruct label; [contradiction|reflexivity].
Qed.

(** ** Specification: files *)
(** the name and the value of a line *)
Definition entry : Type := str * str.
Definition entry_line (e : entry) (l : str) : Prop :=
  exists core, padded core l /\ ~ In (fst e) [chars "comment"; chars "Creator"] /\
    ((fst e = chars "label" /\ re_label (snd e) core /\ Forall on_line (snd e)) \/ (fst e <> chars "label" /\ re_gml_value (fst e) (snd e) core)).
(** lines with [comment] or [Creator], and white space *)
Definition remark (l : str) : Prop :=
  exists word rest, padded (word ++ rest) l /\ In word [chars "comment"; chars "Creator"] /\ (rest = [] \/ exists c t, rest = c :: t /\ SpecText.blank c).
Definition white (l : str) : Prop := Forall SpecText.blank l.
Definition opens (level : str) (ls : list str) : Prop :=
  (exists l sp, ls = [l] /\ padded (level ++ sp ++ ["["%char]) l /\ some SpecText.blank sp) \/
  (exists l r l', ls = l :: r ++ [l'] /\ padded level l /\ padded ["["%char] l' /\ Forall remark r).
Definition closes (l : str) : Prop := padded ["]"%char] l.
(** the lines of a node or an edge *)
Inductive entries : list entry -> list str -> Prop :=
| entries_nil : entries [] []
| entries_remark l es ls : remark l \/ white l -> entries es ls -> entries es (l :: ls)
| entries_entry e l es ls : entry_line e l -> entries es ls -> entries (e :: es) (l :: ls).
Definition record (level : str) (es : list entry) (ls : list str) : Prop :=
  exists op body cl, ls = op ++ body ++ [cl] /\ opens level op /\ entries es body /\ closes cl.
(** the lines of a graph *)
Inductive contents : list (list entry) -> list (list entry) -> list str -> Prop :=
| contents_nil : contents [] [] []
| contents_remark l ns es ls : remark l \/ white l -> contents ns es ls -> contents ns es (l :: ls)
| contents_entry e l ns es ls : entry_line e l -> contents ns es ls -> contents ns es (l :: ls)
| contents_node n r ns es ls : record (chars "node") n r -> contents ns es ls -> contents (n :: ns) es (r ++ ls)
| contents_edge e r ns es ls : record (chars "edge") e r -> contents ns es ls -> contents ns (e :: es) (r ++ ls).
Definition gml_file (ns es : list (list entry)) (ls : list str) : Prop :=
  exists before op body cl after, ls = before ++ op ++ body ++ [cl] ++ after /\ Forall remark before /\ opens (chars "graph") op /\ contents ns es body /\ closes cl /\ Forall remark after.

(** the last value of a name *)
Definition value_of (k : str) (es : list entry) (v : str) : Prop := exists a b, es = a ++ (k, v) :: b /\ ~ In k (map fst b).
Definition no_value (k : str) (es : list entry) : Prop := ~ In k (map fst es).

(** ** Lines *)
Lemma word_blank s : Forall (fun c => ~ SpecText.blank c) s <-> word isspace s.
Proof. unfold word. rewrite !Forall_forall. split; intros H c Hc; specialize (H c Hc); [destruct (isspace c) eqn:E; [exfalso; apply H, isspace_spec; exact E|reflexivity]|intro X; apply isspace_spec in X; congruence]. Qed.
Lemma split_single s : word isspace s -> split isspace s = [s].
Proof. intro H. unfold split. rewrite <- (app_nil_r s), split_word by exact H. rewrite app_nil_r. reflexivity. Qed.
Lemma split_first s c t : word isspace s -> SpecText.blank c -> split isspace (s ++ c :: t) = s :: split_run isspace t.
Proof. intros H Hc. unfold split. rewrite split_word by exact H. cbn [app split_token]. rewrite (proj2 (isspace_spec c) Hc). reflexivity. Qed.
Lemma split_pair s sp t : word isspace s -> some SpecText.blank sp -> word isspace t -> t <> [] -> split isspace (s ++ sp ++ t) = [s; t].
Proof.
  intros H [Hne Hsp] Ht Hn. destruct sp as [|c sp]; [contradiction|]. inversion Hsp as [|? ? Hc Hsp']; subst. cbn [app]. rewrite split_first by assumption. f_equal.
  assert (R : run isspace sp) by (unfold run; eapply Forall_impl; [|exact Hsp']; intros x Hx; apply isspace_spec; exact Hx). rewrite split_skip by exact R.
  destruct t as [|d t]; [contradiction|]. inversion Ht; subst. cbn [split_run]. rewrite H2. rewrite <- (app_nil_r t), split_word by assumption. cbn [split_token]. rewrite app_nil_r. reflexivity.
Qed.
Lemma name_word s : Forall name_char s -> word isspace s.
Proof. intro H. apply word_blank. eapply Forall_impl; [|exact H]. exact name_not_space. Qed.
Lemma value_word s : Forall value_char s -> word isspace s.
Proof. intro H. apply word_blank. eapply Forall_impl; [|exact H]. exact value_not_space. Qed.
Lemma level_word level : In level [chars "graph"; chars "node"; chars "edge"] -> word isspace level /\ isLevel level = true /\ str_eqb level (chars "comment") || str_eqb level (chars "Creator") = false /\ level <> [].
Proof. intros [<-|[<-|[<-|[]]]]; (refine (conj _ (conj eq_refl (conj eq_refl _))); [repeat constructor|discriminate]). Qed.

Lemma remark_step st l : remark l -> gml_line st l = Ok st.
Proof.
  intros (w & rest & Hp & Hw & Hr). unfold gml_line. rewrite (padded_trim _ _ Hp).
  assert (Ww : word isspace w /\ str_eqb w (chars "comment") || str_eqb w (chars "Creator") = true) by (destruct Hw as [<-|[<-|[]]]; (split; [repeat constructor|reflexivity])). destruct Ww as [Ww Wc].
  destruct Hr as [->|(c & t & -> & Hc)]; [rewrite app_nil_r, split_single by exact Ww|rewrite split_first by assumption]; rewrite Wc; reflexivity.
Qed.
Definition set_stack (s : list str) (last : str) (st : gml) : gml := Gml (g_nodes st) (g_edges st) s last (g_node st) (g_edge st) (g_dict st).
Lemma open_inline st level sp l : In level [chars "graph"; chars "node"; chars "edge"] -> padded (level ++ sp ++ ["["%char]) l -> some SpecText.blank sp -> g_last st = [] ->
  gml_line st l = Ok (set_stack (level :: g_stack st) [] st).
Proof.
  intros Hl Hp Hsp Hg. destruct (level_word level Hl) as (W1 & W2 & W3 & W4). unfold gml_line. rewrite (padded_trim _ _ Hp). rewrite (split_pair level sp ["["%char]) by (first [assumption|discriminate|repeat constructor]). rewrite W3. cbn [str_eqb length]. rewrite W2, Hg. replace (str_eqb ["["%char] ["["%char]) with true by reflexivity. cbn [andb]. rewrite orb_true_r. reflexivity.
Qed.
Lemma level_step st level l : In level [chars "graph"; chars "node"; chars "edge"] -> padded level l -> g_last st = [] -> gml_line st l = Ok (set_stack (g_stack st) level st).
Proof.
  intros Hl Hp Hg. destruct (level_word level Hl) as (W1 & W2 & W3 & W4). unfold gml_line. rewrite (padded_trim _ _ Hp). rewrite split_single by exact W1. rewrite W3, W2, Hg. reflexivity.
Qed.
Lemma bracket_step st l : padded ["["%char] l -> gml_line st l = Ok (set_stack (g_last st :: g_stack st) [] st).
Proof. intro Hp. unfold gml_line. rewrite (padded_trim _ _ Hp). reflexivity. Qed.
Lemma remarks_run ls : Forall remark ls -> forall st, foldM gml_line ls st = Ok st.
Proof. induction 1 as [|l ls Hl _ IH]; intro st; cbn [foldM]; [reflexivity|]. rewrite (remark_step st l Hl). cbn [bind]. apply IH. Qed.
Lemma opens_run st level ls : In level [chars "graph"; chars "node"; chars "edge"] -> opens level ls -> g_last st = [] -> foldM gml_line ls st = Ok (set_stack (level :: g_stack st) [] st).
Proof.
  intros Hl [(l & sp & -> & Hp & Hsp)|(l & r & l' & -> & Hp & Hp' & Hr)] Hg; cbn [foldM].
  - rewrite (open_inline st level sp l Hl Hp Hsp Hg). reflexivity.
  - rewrite (level_step st level l Hl Hp Hg). cbn [bind]. rewrite foldM_app, remarks_run by exact Hr. cbn [bind foldM]. rewrite (bracket_step _ l' Hp'). reflexivity.
Qed.
Lemma close_step st level stack l : closes l -> g_stack st = level :: stack ->
  gml_line st l = Ok (Gml (if str_eqb level (chars "node") then g_nodes st ++ [g_node st] else g_nodes st)
                          (if str_eqb level (chars "node") then g_edges st else if str_eqb level (chars "edge") then g_edges st ++ [g_edge st] else g_edges st) stack (g_last st) no_node no_edge (g_dict st)).
Proof. intros Hp Hs. unfold gml_line. rewrite (padded_trim _ _ Hp). cbn -[g_stack]. rewrite Hs. reflexivity. Qed.
Lemma white_step st level stack l : white l -> g_stack st = level :: stack -> In level [chars "graph"; chars "node"; chars "edge"] -> gml_line st l = Ok st.
Proof.
  intros Hw Hs Hl. unfold gml_line. assert (E : trim l = []). { apply padded_trim. exists l, []. rewrite app_nil_r. cbn [app]. refine (conj eq_refl (conj Hw (conj (Forall_nil _) (conj _ _)))); [discriminate|]. intros c t X. destruct t; discriminate. }
  rewrite E. cbn -[g_stack gml_attribute]. unfold gml_attribute. rewrite Hs. destruct Hl as [<-|[<-|[<-|[]]]]; reflexivity.
Qed.

(** the effect of an entry *)
Definition dict_of (level : str) : dictionary := if str_eqb level (chars "node") then NodeDict else if str_eqb level (chars "edge") then EdgeDict else GraphDict.
Definition apply_entry (level : str) (st : gml) (e : entry) : gml :=
  let '(name, value) := e in
  if str_eqb name (chars "id") then Gml (g_nodes st) (g_edges st) (g_stack st) (g_last st) (GNode value (n_dict (g_node st))) (g_edge st) (g_dict st)
  else if str_eqb name (chars "source") then Gml (g_nodes st) (g_edges st) (g_stack st) (g_last st) (g_node st) (GEdge value (e_target (g_edge st)) (e_dict (g_edge st))) (g_dict st)
  else if str_eqb name (chars "target") then Gml (g_nodes st) (g_edges st) (g_stack st) (g_last st) (g_node st) (GEdge (e_source (g_edge st)) value (e_dict (g_edge st))) (g_dict st)
  else gml_store (dict_of level) name value st.
Lemma special_attribute name : str_eqb name (chars "id") || str_eqb name (chars "source") || str_eqb name (chars "target") = true -> isAttribute name = true.
Proof. intro H. apply orb_true_iff in H. destruct H as [H|H]; [apply orb_true_iff in H; destruct H as [H|H]|]; apply str_eqb_spec in H; subst; reflexivity. Qed.
Lemma entry_step st level stack e l : entry_line e l -> g_stack st = level :: stack -> In level [chars "graph"; chars "node"; chars "edge"] -> gml_line st l = Ok (apply_entry level st e).
Proof.
  intros (core & Hp & Hc & H) Hs Hl. destruct e as [name value]. cbn [fst snd] in *. destruct C131_expressions as (X1 & _ & X3 & X4).
  assert (N : str_eqb name (chars "comment") || str_eqb name (chars "Creator") = false).
  { destruct (str_eqb name (chars "comment")) eqn:E1; [apply str_eqb_spec in E1; exfalso; apply Hc; subst; simpl; auto|]. destruct (str_eqb name (chars "Creator")) eqn:E2; [apply str_eqb_spec in E2; exfalso; apply Hc; subst; simpl; auto|reflexivity]. }
  assert (F : match_attribute core = Some name /\ (if str_eqb name (chars "label") then match_label core else gml_key_value core) = Some value /\
     (exists rest, split isspace core = name :: rest /\ (isLevel name = true -> rest <> [["["%char]])) /\ isLevel core = false /\ str_eqb core ["["%char] = false /\ str_eqb core ["]"%char] = false).
  { destruct H as [(-> & Hre & Hon)|(Hn & Hre)].
    - replace (str_eqb (chars "label") (chars "label")) with true by reflexivity. pose proof Hre as (sp & Ec & Hsp & Hlab). assert (Nl : Forall name_char (chars "label")) by (apply (all_class _ _ _ isname_spec); reflexivity).
      refine (conj _ (conj (proj2 (X4 _ _) Hre) _)).
      + apply X1. exists (sp ++ quote :: value ++ [quote]). split; [|apply (stops_some name_char SpecText.blank); [exact space_not_name|exact Hsp]]. exists sp, (quote :: value ++ [quote]). refine (conj Ec (conj eq_refl (conj (conj _ Nl) (conj (proj2 Hsp) _)))); [discriminate|]. constructor; [split; discriminate|]. apply Forall_app. split; [exact Hon|constructor; [split; discriminate|constructor]].
      + destruct Hsp as [Hp1 Hp2]. destruct sp as [|c sp]; [contradiction|]. inversion Hp2; subst. split; [|repeat split; reflexivity]. cbn [app]. exists (split_run isspace (sp ++ quote :: value ++ [quote])). split; [apply split_first; [apply name_word; exact Nl|assumption]|discriminate].
    - assert (En : str_eqb name (chars "label") = false) by (destruct (str_eqb name (chars "label")) eqn:E; [apply str_eqb_spec in E; contradiction|reflexivity]). rewrite En. pose proof Hre as (sp & Ec & [Hn1 Hn2] & Hsp & [Hv1 Hv2]).
      refine (conj _ (conj (proj2 (X3 _ _) (ex_intro _ name Hre)) _)).
      + apply X1. exists (sp ++ value). split; [|apply (stops_some name_char SpecText.blank); [exact space_not_name|exact Hsp]]. exists sp, value. exact (conj Ec (conj eq_refl (conj (conj Hn1 Hn2) (conj (proj2 Hsp) (value_on_line _ Hv2))))).
      + assert (Es : split isspace core = [name; value]) by (rewrite Ec; apply split_pair; auto using name_word, value_word). split.
        * exists [value]. split; [exact Es|]. intros _ X. injection X as ->. inversion Hv2 as [|? ? Y _]; subst. apply isvalue_spec in Y. discriminate.
        * assert (D : forall s, split isspace s = [s] -> str_eqb core s = false). { intros s Y. destruct (str_eqb core s) eqn:E; [|reflexivity]. apply str_eqb_spec in E. subst s. congruence. }
          refine (conj _ (conj (D ["["%char] eq_refl) (D ["]"%char] eq_refl))). unfold isLevel. cbn [map existsb]. rewrite !D by reflexivity. reflexivity. }
  destruct F as (F1 & F2 & (rest & F3 & F4) & F5 & F6 & F7). unfold gml_line. rewrite (padded_trim _ _ Hp), F3. rewrite N, F5. cbn [orb].
  assert (Fi : match rest with [b] => str_eqb b ["["%char] && isLevel name | _ => false end = false).
  { destruct rest as [|b [|? ?]]; try reflexivity. destruct (isLevel name); [|apply andb_false_r]. rewrite andb_true_r. destruct (str_eqb b ["["%char]) eqn:E; [|reflexivity]. apply str_eqb_spec in E. subst b. exfalso. apply F4; reflexivity. }
  match goal with |- context [match name :: rest with _ => _ end] => idtac | _ => idtac end.
  replace (match rest with [] => false | [b] => str_eqb b ["["%char] && isLevel name | b :: _ :: _ => false end) with false by (destruct rest as [|b [|? ?]]; auto).
  rewrite F6, F7. unfold gml_attribute. rewrite Hs. assert (Ed : (if str_eqb level (chars "node") then Ok NodeDict else if str_eqb level (chars "edge") then Ok EdgeDict else if str_eqb level (chars "graph") then Ok GraphDict else Throw RuntimeError) = Ok (dict_of level)) by (destruct Hl as [<-|[<-|[<-|[]]]]; reflexivity).
  rewrite Ed. cbn [bind]. rewrite F1. unfold apply_entry. destruct (isAttribute name) eqn:EA.
  - rewrite F2. destruct (str_eqb name (chars "id")); [rewrite <- Hs; reflexivity|]. destruct (str_eqb name (chars "source")); [rewrite <- Hs; reflexivity|]. destruct (str_eqb name (chars "target")); [rewrite <- Hs|]; reflexivity.
  - assert (El : str_eqb name (chars "label") = false) by (destruct (str_eqb name (chars "label")) eqn:E; [apply str_eqb_spec in E; subst; discriminate|reflexivity]). rewrite El in F2. rewrite F2.
    destruct (str_eqb name (chars "id") || str_eqb name (chars "source") || str_eqb name (chars "target")) eqn:ES; [apply special_attribute in ES; congruence|]. apply orb_false_iff in ES. destruct ES as [ES E3]. apply orb_false_iff in ES. destruct ES as [E1 E2]. rewrite E1, E2, E3. reflexivity.
Qed.

(** ** Records *)
Definition ignored (k : str) : Prop := In k [chars "id"; chars "source"; chars "target"].
(** the contents of a dictionary *)
Definition dict_spec (es : list entry) (m : smap) : Prop :=
  (forall k v, value_of k es v -> ~ ignored k -> smap_find k m = Some v) /\ (forall k, no_value k es \/ ignored k -> smap_find k m = None).
Definition node_spec (es : list entry) (n : gnode) : Prop := (forall v, value_of (chars "id") es v -> n_id n = v) /\ dict_spec es (n_dict n).
Definition edge_spec (es : list entry) (e : gedge) : Prop :=
  (forall v, value_of (chars "source") es v -> e_source e = v) /\ (forall v, value_of (chars "target") es v -> e_target e = v) /\ dict_spec es (e_dict e).

Lemma value_snoc k es e v : value_of k (es ++ [e]) v -> (e = (k, v)) \/ (fst e <> k /\ value_of k es v).
Proof.
  intros (a & b & E & H). destruct b as [|x b] using rev_ind.
  - apply app_inj_tail in E. destruct E as [-> ->]. auto.
  - clear IHb. rewrite app_comm_cons, app_assoc in E. apply app_inj_tail in E. destruct E as [-> ->]. right. rewrite map_app, in_app_iff in H. split; [intro X; apply H; right; left; exact X|]. exists a, b. split; [reflexivity|]. intro X. apply H. auto.
Qed.
Lemma no_value_snoc k es e : no_value k (es ++ [e]) <-> no_value k es /\ fst e <> k.
Proof. unfold no_value. rewrite map_app, in_app_iff. cbn [map In]. tauto. Qed.
Lemma ignored_dec k : ignored k \/ ~ ignored k.
Proof. unfold ignored. destruct (in_dec (list_eq_dec ascii_dec) k [chars "id"; chars "source"; chars "target"]); auto. Qed.
Lemma eqb_false a b : a <> b -> str_eqb a b = false.
Proof. intro H. destruct (str_eqb a b) eqn:E; [apply str_eqb_spec in E; contradiction|reflexivity]. Qed.
Lemma eqb_refl a : str_eqb a a = true.
Proof. apply str_eqb_spec. reflexivity. Qed.
Lemma not_ignored_eqb k : ~ ignored k -> str_eqb k (chars "id") = false /\ str_eqb k (chars "source") = false /\ str_eqb k (chars "target") = false.
Proof. intro H. refine (conj _ (conj _ _)); apply eqb_false; intros ->; apply H; simpl; unfold ignored; simpl; auto. Qed.

Lemma dict_set es m k v : dict_spec es m -> ~ ignored k -> dict_spec (es ++ [(k, v)]) (smap_set k v m).
Proof.
  intros [H1 H2] Hk. split.
  - intros k' v' Hv Hi. rewrite smap_find_set. apply value_snoc in Hv. destruct Hv as [E|[N Hv]]; [injection E as -> ->; rewrite eqb_refl; reflexivity|]. cbn [fst] in N. rewrite eqb_false by auto. apply H1; assumption.
  - intros k' Hn. rewrite smap_find_set, no_value_snoc in *. cbn [fst] in Hn. rewrite eqb_false; [apply H2; tauto|]. intros ->. tauto.
Qed.
Lemma dict_skip es m k v : dict_spec es m -> ignored k -> dict_spec (es ++ [(k, v)]) m.
Proof.
  intros [H1 H2] Hk. split.
  - intros k' v' Hv Hi. apply value_snoc in Hv. destruct Hv as [E|[N Hv]]; [injection E as -> ->; contradiction|]. apply H1; assumption.
  - intros k' Hn. rewrite no_value_snoc in Hn. apply H2. tauto.
Qed.

(** the state after the entries of a node, an edge, or a graph *)
Definition at_level (level : str) (stack : list str) (nodes : list gnode) (edges : list gedge) (es : list entry) (st : gml) : Prop :=
  g_nodes st = nodes /\ g_edges st = edges /\ g_stack st = level :: stack /\ g_last st = [] /\
  (level = chars "node" -> node_spec es (g_node st)) /\ (level = chars "edge" -> edge_spec es (g_edge st)) /\
  (level = chars "graph" -> n_dict (g_node st) = [] /\ e_dict (g_edge st) = []).
Definition is_level (level : str) : Prop := In level [chars "graph"; chars "node"; chars "edge"].
Lemma apply_at level stack nodes edges es st e : is_level level -> at_level level stack nodes edges es st -> at_level level stack nodes edges (es ++ [e]) (apply_entry level st e).
Proof.
  intros Hl (A1 & A2 & A3 & A4 & A5 & A6 & A7). destruct e as [k v]. unfold apply_entry.
  assert (SV : forall k' w, value_of k' (es ++ [(k, v)]) w -> (k = k' /\ v = w) \/ (k <> k' /\ value_of k' es w)). { intros k' w H. apply value_snoc in H. destruct H as [H|H]; [injection H as -> ->; auto|auto]. }
  destruct (str_eqb k (chars "id")) eqn:E1; [|destruct (str_eqb k (chars "source")) eqn:E2; [|destruct (str_eqb k (chars "target")) eqn:E3]].
  - apply str_eqb_spec in E1. subst k. assert (I : ignored (chars "id")) by (unfold ignored; simpl; auto). refine (conj A1 (conj A2 (conj A3 (conj A4 (conj _ (conj _ _)))))); cbn [g_node g_edge n_dict].
    + intro L. destruct (A5 L) as [N1 N2]. split; [intros w H; apply SV in H; destruct H as [[_ H]|[H _]]; [exact H|congruence]|apply dict_skip; assumption].
    + intro L. destruct (A6 L) as (N1 & N2 & N3). refine (conj _ (conj _ (dict_skip _ _ _ _ N3 I))); intros w H; apply SV in H; destruct H as [[H _]|[_ H]]; try discriminate; auto.
    + exact A7.
  - apply str_eqb_spec in E2. subst k. assert (I : ignored (chars "source")) by (unfold ignored; simpl; auto). refine (conj A1 (conj A2 (conj A3 (conj A4 (conj _ (conj _ _)))))); cbn [g_node g_edge e_source e_target e_dict].
    + intro L. destruct (A5 L) as [N1 N2]. split; [intros w H; apply SV in H; destruct H as [[H _]|[_ H]]; [discriminate|auto]|apply dict_skip; assumption].
    + intro L. destruct (A6 L) as (N1 & N2 & N3). refine (conj _ (conj _ (dict_skip _ _ _ _ N3 I))); intros w H; apply SV in H; destruct H as [[H H']|[H H']]; try discriminate; auto. congruence.
    + exact A7.
  - apply str_eqb_spec in E3. subst k. assert (I : ignored (chars "target")) by (unfold ignored; simpl; auto). refine (conj A1 (conj A2 (conj A3 (conj A4 (conj _ (conj _ _)))))); cbn [g_node g_edge e_source e_target e_dict].
    + intro L. destruct (A5 L) as [N1 N2]. split; [intros w H; apply SV in H; destruct H as [[H _]|[_ H]]; [discriminate|auto]|apply dict_skip; assumption].
    + intro L. destruct (A6 L) as (N1 & N2 & N3). refine (conj _ (conj _ (dict_skip _ _ _ _ N3 I))); intros w H; apply SV in H; destruct H as [[H H']|[H H']]; try discriminate; auto. congruence.
    + exact A7.
  - assert (I : ~ ignored k). { intros [<-|[<-|[<-|[]]]]; rewrite eqb_refl in *; discriminate. }
    assert (SI : forall k' w, ignored k' -> value_of k' (es ++ [(k, v)]) w -> value_of k' es w). { intros k' w Hk H. apply SV in H. destruct H as [[-> _]|[_ H]]; [contradiction|exact H]. }
    destruct Hl as [<-|[<-|[<-|[]]]]; unfold dict_of; cbn [str_eqb chars]; cbn -[smap_set chars].
    + refine (conj A1 (conj A2 (conj A3 (conj A4 (conj _ (conj _ _)))))); [discriminate|discriminate|exact A7].
    + refine (conj A1 (conj A2 (conj A3 (conj A4 (conj _ (conj _ _)))))); [|discriminate|discriminate]. intro L. destruct (A5 L) as [N1 N2]. split; [intros w H; apply N1; apply SI; [unfold ignored; simpl; auto|exact H]|apply dict_set; assumption].
    + refine (conj A1 (conj A2 (conj A3 (conj A4 (conj _ (conj _ _)))))); [discriminate| |discriminate]. intro L. destruct (A6 L) as (N1 & N2 & N3). refine (conj _ (conj _ (dict_set _ _ _ _ N3 I))); intros w H; [apply N1|apply N2]; (apply SI; [unfold ignored; simpl; auto|exact H]).
Qed.
Lemma entries_run level stack nodes edges es ls : is_level level -> entries es ls -> forall es0 st, at_level level stack nodes edges es0 st ->
  exists st', foldM gml_line ls st = Ok st' /\ at_level level stack nodes edges (es0 ++ es) st'.
Proof.
  intros Hl H. induction H as [|l es ls Hr _ IH|e l es ls He _ IH]; intros es0 st A; cbn [foldM].
  - exists st. rewrite app_nil_r. auto.
  - assert (E : gml_line st l = Ok st). { destruct Hr as [Hr|Hr]; [apply remark_step; exact Hr|]. destruct A as (_ & _ & A3 & _). exact (white_step st level stack l Hr A3 Hl). } rewrite E. cbn [bind]. apply IH. exact A.
  - assert (E : gml_line st l = Ok (apply_entry level st e)). { destruct A as (_ & _ & A3 & _). exact (entry_step st level stack e l He A3 Hl). } rewrite E. cbn [bind].
    destruct (IH (es0 ++ [e]) _ (apply_at level stack nodes edges es0 st e Hl A)) as (st' & E' & A'). rewrite <- app_assoc in A'. exists st'. auto.
Qed.
Lemma at_level_empty_dict : dict_spec [] [].
Proof. split; [intros k v (a & b & E & _); destruct a; discriminate|reflexivity]. Qed.
Lemma no_value_of k v : ~ value_of k [] v.
Proof. intros (a & b & E & _). destruct a; discriminate. Qed.
(** a graph between its records *)
Definition in_graph (nodes : list gnode) (edges : list gedge) (st : gml) : Prop :=
  g_nodes st = nodes /\ g_edges st = edges /\ g_stack st = [chars "graph"] /\ g_last st = [] /\ n_dict (g_node st) = [] /\ e_dict (g_edge st) = [].
Lemma record_run level es ls nodes edges st : level = chars "node" \/ level = chars "edge" -> record level es ls -> in_graph nodes edges st ->
  exists nodes' edges' st', foldM gml_line ls st = Ok st' /\ in_graph nodes' edges' st' /\
    (level = chars "node" -> exists n, nodes' = nodes ++ [n] /\ edges' = edges /\ (forall v, value_of (chars "id") es v -> node_spec es n)) /\
    (level = chars "edge" -> exists e, nodes' = nodes /\ edges' = edges ++ [e] /\ (forall v, value_of (chars "source") es v -> edge_spec es e)).
Proof.
  intros Hl (op & body & cl & -> & Hop & Hb & Hc) (A1 & A2 & A3 & A4 & A5 & A6). assert (Hl' : is_level level) by (destruct Hl as [->| ->]; unfold is_level; simpl; auto).
  rewrite foldM_app, (opens_run st level op Hl' Hop A4). cbn [bind]. rewrite foldM_app.
  destruct (entries_run level (g_stack st) nodes edges es body Hl' Hb [] (set_stack (level :: g_stack st) [] st)) as (st' & E & B).
  { refine (conj A1 (conj A2 (conj eq_refl (conj eq_refl (conj _ (conj _ _)))))).
    - intros _. split; [intros v X; destruct (no_value_of _ _ X)|]. cbn [set_stack g_node]. rewrite A5. exact at_level_empty_dict.
    - intros _. refine (conj _ (conj _ _)); [intros v X; destruct (no_value_of _ _ X)|intros v X; destruct (no_value_of _ _ X)|]. cbn [set_stack g_edge]. rewrite A6. exact at_level_empty_dict.
    - intros ->. destruct Hl; discriminate. }
  rewrite E. cbn [bind foldM]. cbn [app] in B. destruct B as (B1 & B2 & B3 & B4 & B5 & B6 & _). rewrite (close_step st' level _ cl Hc B3). cbn [bind]. rewrite B1, B2, B4, A3.
  do 3 eexists. split; [reflexivity|]. split; [refine (conj eq_refl (conj eq_refl (conj eq_refl (conj eq_refl (conj eq_refl eq_refl))))) |]. split.
  - intros ->. exists (g_node st'). refine (conj eq_refl (conj eq_refl _)). intros v _. apply B5. reflexivity.
  - intros ->. exists (g_edge st'). refine (conj eq_refl (conj eq_refl _)). intros v _. apply B6. reflexivity.
Qed.
Lemma in_graph_entry nodes edges st e : in_graph nodes edges st -> in_graph nodes edges (apply_entry (chars "graph") st e).
Proof.
  intros (A1 & A2 & A3 & A4 & A5 & A6). destruct e as [k v]. unfold apply_entry. destruct (str_eqb k (chars "id")); [repeat split; assumption|]. destruct (str_eqb k (chars "source")); [repeat split; assumption|]. destruct (str_eqb k (chars "target")); repeat split; assumption.
Qed.
Lemma contents_run ns es ls : contents ns es ls -> forall nodes edges st, in_graph nodes edges st ->
  exists nodes' edges' st', foldM gml_line ls st = Ok st' /\ in_graph (nodes ++ nodes') (edges ++ edges') st' /\
    Forall2 (fun n m => (exists v, value_of (chars "id") n v) -> node_spec n m) ns nodes' /\ Forall2 (fun e m => (exists v, value_of (chars "source") e v) -> edge_spec e m) es edges'.
Proof.
  induction 1 as [|l ns es ls Hr _ IH|e l ns es ls He _ IH|n r ns es ls Hr _ IH|e r ns es ls Hr _ IH]; intros nodes edges st A; cbn [foldM].
  - exists [], [], st. rewrite !app_nil_r. auto.
  - assert (E : gml_line st l = Ok st). { destruct Hr as [Hr|Hr]; [apply remark_step; exact Hr|]. destruct A as (_ & _ & A3 & _). apply (white_step st (chars "graph") [] l Hr A3). simpl. auto. } rewrite E. cbn [bind]. apply IH. exact A.
  - assert (E : gml_line st l = Ok (apply_entry (chars "graph") st e)). { destruct A as (_ & _ & A3 & _). apply (entry_step st (chars "graph") [] e l He A3). simpl. auto. } rewrite E. cbn [bind]. apply IH. apply in_graph_entry. exact A.
  - destruct (record_run _ n r nodes edges st (or_introl eq_refl) Hr A) as (nodes1 & edges1 & st1 & E1 & A1 & B1 & _). rewrite foldM_app, E1. cbn [bind]. destruct (B1 eq_refl) as (m & -> & -> & Hm). destruct (IH _ _ _ A1) as (n2 & e2 & st2 & E2 & A2 & F1 & F2).
    exists (m :: n2), e2, st2. rewrite <- app_assoc in A2. refine (conj E2 (conj A2 (conj _ F2))). constructor; [intros (v & Hv); exact (Hm v Hv)|exact F1].
  - destruct (record_run _ e r nodes edges st (or_intror eq_refl) Hr A) as (nodes1 & edges1 & st1 & E1 & A1 & _ & B1). rewrite foldM_app, E1. cbn [bind]. destruct (B1 eq_refl) as (m & -> & -> & Hm). destruct (IH _ _ _ A1) as (n2 & e2 & st2 & E2 & A2 & F1 & F2).
    exists n2, (m :: e2), st2. rewrite <- app_assoc in A2. refine (conj E2 (conj A2 (conj F1 _))). constructor; [intros (v & Hv); exact (Hm v Hv)|exact F2].
Qed.
Lemma parse_file ns es ls : (forall l, In l ls -> ~ In newline l) -> gml_file ns es ls ->
  (forall n, In n ns -> exists v, value_of (chars "id") n v) -> (forall e, In e es -> exists v, value_of (chars "source") e v) ->
  exists nodes edges, gml_parse (text_of ls []) = Ok (nodes, edges) /\ Forall2 node_spec ns nodes /\ Forall2 edge_spec es edges.
Proof.
  intros Hnl (before & op & body & cl & after & -> & Hb & Hop & Hbody & Hcl & Ha) Hn He. unfold gml_parse. rewrite lines_text by exact Hnl.
  rewrite foldM_app, remarks_run by exact Hb. cbn [bind]. rewrite foldM_app, (opens_run _ (chars "graph")); [|simpl; auto|exact Hop|reflexivity]. cbn [bind]. rewrite foldM_app.
  destruct (contents_run ns es body Hbody [] [] (set_stack [chars "graph"] [] (Gml [] [] [] [] no_node no_edge []))) as (nodes & edges & st & E & A & F1 & F2); [repeat split; reflexivity|]. cbn [set_stack g_nodes g_edges g_stack g_node g_edge g_dict] in *. rewrite E. cbn [bind]. rewrite foldM_app. cbn [foldM].
  destruct A as (A1 & A2 & A3 & A4 & _). rewrite (close_step st (chars "graph") [] cl Hcl A3). cbn [bind]. rewrite remarks_run by exact Ha. cbn -[chars node_spec edge_spec]. rewrite A1, A2. cbn [app]. exists nodes, edges. split; [reflexivity|]. split.
  - clear - F1 Hn. induction F1 as [|n m ns nodes H _ IH]; [constructor|]. constructor; [apply H, Hn; simpl; auto|apply IH; intros x Hx; apply Hn; simpl; auto].
  - clear - F2 He. induction F2 as [|n m ns nodes H _ IH]; [constructor|]. constructor; [apply H, He; simpl; auto|apply IH; intros x Hx; apply He; simpl; auto].
Qed.

(** ** Identifiers *)
Definition text_before (a b : str) : Prop := exists p c d s t, (a = p /\ b = p ++ d :: t) \/ (a = p ++ c :: s /\ b = p ++ d :: t /\ (N_of_ascii c < N_of_ascii d)%N).
Lemma before_spec a b : before a b <-> text_before a b.
Proof.
  unfold before. split.
  - revert b. induction a as [|c a IH]; intros [|d b]; cbn [str_ltb]; try discriminate.
    + intros _. exists [], d, d, [], b. left. auto.
    + destruct (N.ltb_spec (N_of_ascii c) (N_of_ascii d)) as [L|L]; [intros _; exists [], c, d, a, b; right; auto|]. destruct (N.ltb_spec (N_of_ascii d) (N_of_ascii c)) as [L'|L']; [discriminate|]. intro H. apply IH in H. assert (c = d) by (apply N_of_ascii_inj; lia). subst d. destruct H as (p & x & y & s & t & [(-> & ->)|(-> & -> & H)]).
      * exists (c :: p), x, y, s, t. left. auto.
      * exists (c :: p), x, y, s, t. right. auto.
  - intros (p & c & d & s & t & [(-> & ->)|(-> & -> & H)]).
    + induction p as [|x p IH]; [reflexivity|]. cbn [app str_ltb]. rewrite N.ltb_irrefl. exact IH.
    + induction p as [|x p IH]; cbn [app str_ltb]; [apply N.ltb_lt in H; rewrite H; reflexivity|]. rewrite N.ltb_irrefl. exact IH.
Qed.
Lemma sset_insert_In k l x : In x (sset_insert k l) <-> x = k \/ In x l.
Proof.
  induction l as [|k' l IH]; cbn [sset_insert]; [simpl; intuition|]. destruct (str_eqb k k') eqn:E; [apply str_eqb_spec in E; subst; simpl; intuition|]. destruct (str_ltb k k'); cbn [In]; [intuition|]. rewrite IH. intuition.
Qed.
Lemma sset_insert_sorted k l : StronglySorted before l -> StronglySorted before (sset_insert k l).
Proof.
  induction 1 as [|k' l H IH F]; cbn [sset_insert]; [repeat constructor|]. destruct (str_eqb k k') eqn:E; [constructor; assumption|]. destruct (str_ltb k k') eqn:L.
  - constructor; [constructor; assumption|]. constructor; [exact L|]. eapply Forall_impl; [|exact F]. intros x Hx. exact (str_ltb_trans _ _ _ L Hx).
  - constructor; [exact IH|]. apply Forall_forall. intros x Hx. apply sset_insert_In in Hx. destruct Hx as [->|Hx]; [|rewrite Forall_forall in F; apply F; exact Hx].
    unfold before. destruct (str_ltb k' k) eqn:L'; [reflexivity|]. rewrite (str_ltb_total _ _ L L'), eqb_refl in E. discriminate.
Qed.
Lemma before_irrefl a : ~ before a a.
Proof. unfold before. rewrite str_ltb_irrefl. discriminate. Qed.
Lemma sorted_NoDup l : StronglySorted before l -> NoDup l.
Proof. induction 1 as [|a l _ IH F]; constructor; [|exact IH]. intro H. rewrite Forall_forall in F. exact (before_irrefl a (F a H)). Qed.
Lemma srank_spec id l smaller : StronglySorted before l -> In id l -> NoDup smaller -> (forall x, In x smaller <-> In x l /\ before x id) -> srank id l = length smaller.
Proof.
  intros Hs Hin Hn H. assert (E : srank id l = length (filter (fun x => str_ltb x id) l)).
  { clear - Hs Hin. induction Hs as [|a l Hs IH F]; [destruct Hin|]. cbn [srank filter]. destruct (str_eqb id a) eqn:E.
    - apply str_eqb_spec in E. subst a. rewrite str_ltb_irrefl. replace (filter (fun x => str_ltb x id) l) with (@nil str); [reflexivity|]. symmetry. clear - F. induction F as [|x l Hx _ IH]; [reflexivity|]. cbn [filter]. destruct (str_ltb x id) eqn:L; [|exact IH]. exfalso. apply (before_irrefl id). exact (str_ltb_trans _ _ _ Hx L).
    - destruct Hin as [->|Hin]; [rewrite eqb_refl in E; discriminate|]. rewrite Forall_forall in F. rewrite (F id Hin). cbn [length]. rewrite IH by exact Hin. reflexivity. }
  rewrite E. apply Permutation_length. apply NoDup_Permutation; [apply NoDup_filter, sorted_NoDup; exact Hs|exact Hn|]. intro x. rewrite filter_In, H. reflexivity.
Qed.
Lemma leading_numeral d n rest : numeral d n -> stops a_digit rest -> leading_digits (d ++ rest) = Some n.
Proof.
  intros H Hs. destruct (numeral_digits d n H) as (H1 & H2 & H3). destruct d as [|c t]; [contradiction|]. inversion H2 as [|? ? [x Hx] _]; subst. cbn [app leading_digits]. rewrite (proj2 (digit_iff c x) Hx). f_equal.
  change (c :: t ++ rest) with ((c :: t) ++ rest). rewrite H3, N.mul_0_l, N.add_0_l. destruct rest as [|y r]; [reflexivity|]. cbn [digits]. destruct (digit y) eqn:E; [|reflexivity]. exfalso. apply (Hs y r eq_refl). apply isdigit_spec. unfold isdigit. rewrite E. reflexivity.
Qed.
(** the vertex of an identifier: its number if it starts with digits, or its position among all identifiers *)
Definition vertex_id (ids : list str) (id : str) (v : nat) : Prop :=
  (exists d rest, id = d ++ rest /\ numeral d (N.of_nat v) /\ stops a_digit rest /\ (N.of_nat v < 2 ^ 32)%N) \/
  (stops a_digit id /\ In id ids /\ exists smaller, NoDup smaller /\ (forall x, In x smaller <-> In x ids /\ text_before x id) /\ v = length smaller).
Lemma getID_spec ids l id v : StronglySorted before l -> (forall x, In x l <-> In x ids) -> vertex_id ids id v -> getID l id = Ok v.
Proof.
  intros Hs Hl [(d & rest & -> & Hn & Hst & Hlt)|(Hst & Hin & smaller & Hnd & Hsm & ->)]; unfold getID.
  - rewrite (leading_numeral _ _ _ Hn Hst). replace (N.of_nat v <? 2 ^ 63)%N with true by (symmetry; apply N.ltb_lt; eapply N.lt_trans; [exact Hlt|reflexivity]). rewrite vertex_of_small by exact Hlt. reflexivity.
  - assert (E : leading_digits id = None). { destruct id as [|c t]; [reflexivity|]. cbn [leading_digits]. destruct (digit c) eqn:E; [|reflexivity]. exfalso. apply (Hst c t eq_refl). apply isdigit_spec. unfold isdigit. rewrite E. reflexivity. } rewrite E. f_equal. apply srank_spec; [exact Hs|apply Hl; exact Hin|exact Hnd|]. intro x. rewrite Hsm, Hl, before_spec. reflexivity.
Qed.
Lemma node_ids_run nodes : NoDup (map n_id nodes) -> exists l, node_ids nodes = Ok l /\ StronglySorted before l /\ forall x, In x l <-> In x (map n_id nodes).
Proof.
  intro H. unfold node_ids.
  assert (G : forall acc, StronglySorted before acc -> (forall n, In n nodes -> ~ In (n_id n) acc) -> exists l, foldM (fun ids n => if existsb (str_eqb (n_id n)) ids then Throw RuntimeError else Ok (sset_insert (n_id n) ids)) nodes acc = Ok l /\ StronglySorted before l /\ forall x, In x l <-> In x acc \/ In x (map n_id nodes)).
  { induction nodes as [|n nodes IH]; intros acc Hs Hd; cbn [foldM map].
    - exists acc. refine (conj eq_refl (conj Hs _)). simpl. tauto.
    - cbn [map] in H. inversion H as [|? ? Hni Hnd]; subst. assert (E : existsb (str_eqb (n_id n)) acc = false). { destruct (existsb (str_eqb (n_id n)) acc) eqn:E; [|reflexivity]. apply existsb_exists in E. destruct E as (x & Hx & Ex). apply str_eqb_spec in Ex. subst x. exfalso. apply (Hd n); simpl; auto. }
      rewrite E. cbn [bind]. destruct (IH Hnd (sset_insert (n_id n) acc)) as (l & E' & S' & I').
      + apply sset_insert_sorted. exact Hs.
      + intros m Hm X. apply sset_insert_In in X. destruct X as [X|X]; [apply Hni; rewrite <- X; apply in_map; exact Hm|apply (Hd m); simpl; auto].
      + exists l. refine (conj E' (conj S' _)). intro x. rewrite I', sset_insert_In. simpl. intuition. }
  destruct (G [] (SSorted_nil _) (fun _ _ X => X)) as (l & E & S & I). exists l. refine (conj E (conj S _)). intro x. rewrite I. simpl. tauto.
Qed.

(** ** Specification: simplices *)
(** the data of a node or an edge: its weight, or its value *)
Definition entry_data (conv : str -> Z) (es : list entry) (d : Z) : Prop :=
  (exists w, value_of (chars "weight") es w /\ d = conv w) \/ (no_value (chars "weight") es /\ exists w, value_of (chars "value") es w /\ d = conv w).
Definition no_data (es : list entry) : Prop := no_value (chars "weight") es /\ no_value (chars "value") es.
Definition node_simplex (conv : str -> Z) (ids : list str) (es : list entry) (s : simplex) : Prop :=
  exists id v, value_of (chars "id") es id /\ vertex_id ids id v /\ verts s = [v] /\ (entry_data conv es (data s) \/ no_data es /\ data s = 0%Z).
Definition edge_simplex (conv : str -> Z) (f : Z -> Z -> Z) (ids : list str) (V : list simplex) (es : list entry) (s : simplex) : Prop :=
  exists source target u v, value_of (chars "source") es source /\ value_of (chars "target") es target /\ vertex_id ids source u /\ vertex_id ids target v /\
    s = simplex_of [u; v] (data s) /\
    (entry_data conv es (data s) \/ no_data es /\ exists x y, In (Simplex [u] x) V /\ In (Simplex [v] y) V /\ data s = f x y).

Lemma NoDup_map_same {X Y} (h : X -> Y) l x y : NoDup (map h l) -> In x l -> In y l -> h x = h y -> x = y.
Proof.
  induction l as [|a l IH]; [intros _ []|]. cbn [map]. intro H. inversion H as [|? ? Hn Hd]; subst. intros [->|Hx] [->|Hy] E; [reflexivity| | |auto]; exfalso; apply Hn; [rewrite E|rewrite <- E]; apply in_map; assumption.
Qed.
Section Build.
Variable conv : str -> Z.
Variable f : Z -> Z -> Z.
Lemma value_unique k es v w : value_of k es v -> value_of k es w -> v = w.
Proof.
  intros (a & b & E & H) (a' & b' & E' & H'). subst es. assert (L : length b = length b').
  { destruct (Nat.lt_trichotomy (length b) (length b')) as [X|[X|X]]; [|exact X|]; exfalso.
    - apply H'. assert (In (k, v) b'); [|apply (in_map fst) in H0; exact H0]. assert (length a' < length a). { apply (f_equal (@length _)) in E'. rewrite !app_length in E'. cbn [length] in E'. lia. }
      assert (N : nth_error (a ++ (k, v) :: b) (length a) = Some (k, v)) by (rewrite nth_error_app2, Nat.sub_diag by lia; reflexivity). rewrite E', nth_error_app2 in N by lia. destruct (length a - length a') as [|m] eqn:Em; [lia|]. cbn [nth_error] in N. eapply nth_error_In; exact N.
    - apply H. assert (In (k, w) b); [|apply (in_map fst) in H0; exact H0]. assert (length a < length a'). { apply (f_equal (@length _)) in E'. rewrite !app_length in E'. cbn [length] in E'. lia. }
      assert (N : nth_error (a' ++ (k, w) :: b') (length a') = Some (k, w)) by (rewrite nth_error_app2, Nat.sub_diag by lia; reflexivity). rewrite <- E', nth_error_app2 in N by lia. destruct (length a' - length a) as [|m] eqn:Em; [lia|]. cbn [nth_error] in N. eapply nth_error_In; exact N. }
  apply (f_equal (@rev _)) in E'. rewrite !rev_app_distr in E'. cbn [rev] in E'. rewrite <- !app_assoc in E'. assert (Er : rev b = rev b'). { assert (F1 := f_equal (firstn (length b)) E'). rewrite !firstn_app, !rev_length, L, Nat.sub_diag in F1. rewrite <- L in F1 at 1. rewrite <- (rev_length b), firstn_all in F1. rewrite <- (rev_length b') in F1 at 1. rewrite firstn_all in F1. cbn [firstn] in F1. rewrite !app_nil_r in F1. exact F1. }
  rewrite Er in E'. apply app_inv_head in E'. injection E' as E' _. exact E'.
Qed.
Lemma not_ignored_weight : ~ ignored (chars "weight") /\ ~ ignored (chars "value").
Proof. split; intros [X|[X|[X|[]]]]; discriminate. Qed.
Lemma dict_data es m d : dict_spec es m -> entry_data conv es d -> exists w, (smap_find (chars "weight") m = Some w \/ (smap_find (chars "weight") m = None /\ smap_find (chars "value") m = Some w)) /\ d = conv w.
Proof.
  destruct not_ignored_weight as [I1 I2]. intros [H1 H2] [(w & Hw & ->)|(Hn & w & Hw & ->)]; exists w; split; try reflexivity; [left; apply H1; assumption|right; split; [apply H2; auto|apply H1; assumption]].
Qed.
Lemma dict_no_data es m : dict_spec es m -> no_data es -> smap_find (chars "weight") m = None /\ smap_find (chars "value") m = None.
Proof. intros [_ H] [N1 N2]. split; apply H; auto. Qed.

Lemma nodes_build l ids ns nodes V : StronglySorted before l -> (forall x, In x l <-> In x ids) -> Forall2 node_spec ns nodes -> Forall2 (node_simplex conv ids) ns V ->
  forall acc m, exists m', foldM (gml_node conv l) nodes (acc, m) = Ok (acc ++ V, m') /\ (forall v s, find (fun p => fst p =? v) m' = Some (v, s) -> verts s = [v] /\ In s V \/ find (fun p => fst p =? v) m = Some (v, s)) /\ (forall s v, In s V -> verts s = [v] -> exists s', find (fun p => fst p =? v) m' = Some (v, s')).
Proof.
  intros Hs Hl Hn. revert V. induction Hn as [|n node ns nodes Hnode _ IH]; intros V HV acc m; inversion HV as [|? s ? V' Hsim HV']; subst; cbn [foldM].
  - exists m. rewrite app_nil_r. refine (conj eq_refl (conj _ _)); [auto|intros s v []].
  - destruct Hsim as (id & v & Hid & Hv & Ev & Hd). destruct Hnode as [N1 N2]. unfold gml_node at 1. rewrite (N1 id Hid), (getID_spec ids l id v Hs Hl Hv). cbn [bind].
    assert (Es : simplex_vertex v (node_data conv node) = s).
    { unfold node_data, simplex_vertex. destruct s as [sv sd]. cbn [verts data] in *. subst sv. f_equal. destruct Hd as [Hd|[Hd ->]].
      - destruct (dict_data n (n_dict node) sd N2 Hd) as (w & [E|[E1 E2]] & ->); [rewrite E; reflexivity|rewrite E1, E2; reflexivity].
      - destruct (dict_no_data n (n_dict node) N2 Hd) as [E1 E2]. rewrite E1, E2. reflexivity. }
    rewrite Es. cbn [fst snd]. destruct (IH V' HV' (acc ++ [s]) ((v, s) :: m)) as (m' & E & M1 & M2). rewrite <- app_assoc in E. exists m'. refine (conj E (conj _ _)).
    + intros x t Hx. apply M1 in Hx. destruct Hx as [[X1 X2]|X]; [left; split; [exact X1|right; exact X2]|]. cbn [find fst] in X. destruct (Nat.eqb_spec v x) as [->|N]; [injection X as <-; left; split; [exact Ev|left; reflexivity]|right; exact X].
    + intros t x [<-|Ht] Ex; [|apply (M2 t x Ht Ex)]. rewrite Ev in Ex. injection Ex as <-. destruct (find (fun p => fst p =? v) m') as [[y t]|] eqn:F; [pose proof (find_some _ _ F) as [_ G]; apply Nat.eqb_eq in G; cbn [fst] in G; subst y; eauto|]. exfalso. clear - E F IH.
      assert (G : forall nodes acc m acc' m', foldM (gml_node conv l) nodes (acc, m) = Ok (acc', m') -> incl m m').
      { clear. induction nodes as [|n nodes IH]; intros acc m acc' m' H; cbn [foldM] in H; [injection H as <- <-; apply incl_refl|]. unfold gml_node at 1 in H. destruct (getID l (n_id n)); try discriminate. cbn [bind fst snd] in H. apply IH in H. intros y Hy. apply H. right. exact Hy. }
      assert (In (v, s) m') by (eapply G; [exact E|left; reflexivity]). apply (find_none _ _ F) in H. cbn [fst] in H. rewrite Nat.eqb_refl in H. discriminate.
Qed.
Lemma edges_build l ids V m es edges E : StronglySorted before l -> (forall x, In x l <-> In x ids) -> NoDup (map verts V) ->
  (forall v s, find (fun p => fst p =? v) m = Some (v, s) -> verts s = [v] /\ In s V) -> (forall s v, In s V -> verts s = [v] -> exists s', find (fun p => fst p =? v) m = Some (v, s')) ->
  Forall2 edge_spec es edges -> Forall2 (edge_simplex conv f ids V) es E ->
  forall acc, foldM (gml_edge conv f l m) edges acc = Ok (acc ++ E).
Proof.
  intros Hs Hl Hnd M1 M2 He. revert E. induction He as [|e edge es edges Hedge _ IH]; intros E HE acc; inversion HE as [|? s ? E' Hsim HE']; subst; cbn [foldM]; [rewrite app_nil_r; reflexivity|].
  destruct Hsim as (so & ta & u & v & S1 & S2 & U & W & Es & Hd). destruct Hedge as (N1 & N2 & N3). unfold gml_edge at 1. rewrite (N1 so S1), (N2 ta S2), (getID_spec ids l so u Hs Hl U). cbn [bind]. rewrite (getID_spec ids l ta v Hs Hl W). cbn [bind].
  assert (F : forall w x, In (Simplex [w] x) V -> id_to_simplex m w = Ok (Simplex [w] x)).
  { intros w x Hw. destruct (M2 _ w Hw eq_refl) as (s' & Ef). destruct (M1 _ _ Ef) as [Ev Hin]. unfold id_to_simplex. rewrite Ef. f_equal. eapply (NoDup_map_same verts V); [exact Hnd|exact Hin|exact Hw|exact Ev]. }
  destruct Hd as [Hd|[Hd (x & y & Hx & Hy & Ed)]].
  - destruct (dict_data e (e_dict edge) _ N3 Hd) as (w & Hw & Ew). destruct Hw as [E1|[E1 E2]]; rewrite ?E1, ?E2; cbn [bind]; rewrite <- Ew, <- Es, (IH _ HE'); rewrite <- app_assoc; reflexivity.
  - destruct (dict_no_data e (e_dict edge) N3 Hd) as [E1 E2]. rewrite E1, E2, (F u x Hx), (F v y Hy). cbn [bind data]. rewrite <- Ed, <- Es, (IH _ HE'). rewrite <- app_assoc. reflexivity.
Qed.
End Build.

Lemma edge_good (s : simplex) u v : s = simplex_of [u; v] (data s) -> good s.
Proof. intros ->. split; [apply simplex_of_wf|]. intro H. assert (In u (verts (simplex_of [u; v] (data s)))) by (apply simplex_of_In; simpl; auto). rewrite H in H0. destruct H0. Qed.
Lemma value_no_value k es v : value_of k es v -> no_value k es -> False.
Proof. intros (a & b & -> & _) H. apply H. rewrite map_app. apply in_or_app. right. left. reflexivity. Qed.

(** ** Files are read as the complex they describe *)
(** Let the nodes and edges of a file have the entries [ns] and [es], in the order in which they appear.  Let the
    identifiers of the nodes be distinct.  If [V] and [E] are the vertices and edges described by them, and no two of
    them are the same simplex, the complex consists of the vertices and then the edges, in the order of the file, and
    the nodes and edges that are stored have the entries of the file. *)
Theorem C131_read conv f (ns es : list (list entry)) (ls : list str) (ids : list str) (V E : list simplex) :
  (forall l, In l ls -> ~ In newline l) -> gml_file ns es ls ->
  Forall2 (fun n id => value_of (chars "id") n id) ns ids -> NoDup ids ->
  Forall2 (node_simplex conv ids) ns V -> Forall2 (edge_simplex conv f ids V) es E -> NoDup (map verts (V ++ E)) ->
  exists K nodes edges, readGML conv f (text_of ls []) = Ok (K, nodes, edges) /\ by_index K = V ++ E /\
    Forall2 node_spec ns nodes /\ Forall2 edge_spec es edges.
Proof.
  intros Hnl Hf Hids Hnd HV HE Hd.
  destruct (parse_file ns es ls Hnl Hf) as (nodes & edges & Ep & F1 & F2).
  { intros n Hn. clear - Hids Hn. induction Hids as [|a b l l' H _ IH]; [destruct Hn|]. destruct Hn as [<-|Hn]; eauto. }
  { intros e He. clear - HE He. induction HE as [|a b l l' H _ IH]; [destruct He|]. destruct He as [<-|He]; [|auto]. destruct H as (so & _ & _ & _ & H & _). eauto. }
  assert (Ei : map n_id nodes = ids).
  { clear - F1 Hids. revert ids Hids. induction F1 as [|a b l l' H _ IH]; intros ids Hi; inversion Hi as [|? ? ? ? X1 X2]; subst; [reflexivity|]. cbn [map]. f_equal; [apply H; exact X1|apply IH; exact X2]. }
  unfold readGML. rewrite Ep. cbn [bind]. destruct (node_ids_run nodes) as (l & El & Sl & Il); [rewrite Ei; exact Hnd|]. rewrite El. cbn [bind]. rewrite Ei in Il.
  destruct (nodes_build conv l ids ns nodes V Sl Il F1 HV [] []) as (m & Em & M1 & M2). rewrite Em. cbn [bind fst snd app].
  rewrite (edges_build conv f l ids V m es edges E Sl Il) with (acc := V); [|rewrite map_app in Hd; exact (EnumerateFacts.NoDup_app_l _ _ Hd)|intros v s Hv; destruct (M1 v s Hv) as [X|X]; [exact X|discriminate]|exact M2|exact F2|exact HE].
  cbn [bind]. destruct (of_range_new (V ++ E)) as (K & EK & _ & HK); [|exact Hd|].
  - apply Forall_forall, Forall_app. split.
    + clear - HV. induction HV as [|a b l l' H _ IH]; constructor; [|exact IH]. destruct H as (id & v & _ & _ & H & _). unfold good, wf. rewrite H. split; [repeat constructor|discriminate].
    + clear - HE. induction HE as [|a b l l' H _ IH]; constructor; [|exact IH]. destruct H as (so & ta & u & v & _ & _ & _ & _ & H & _). eapply edge_good. exact H.
  - rewrite EK. cbn [bind]. exists K, nodes, edges. auto.
Qed.

(** ** Attributes *)
Lemma smap_find_In m k : In k (map fst m) <-> exists v, smap_find k m = Some v.
Proof.
  induction m as [|[k' v'] m IH]; cbn [map fst smap_find In]; [split; [intros []|intros [v X]; discriminate]|]. destruct (str_eqb k k') eqn:E.
  - apply str_eqb_spec in E. subst. split; [eauto|auto].
  - rewrite <- IH. split; [intros [->|H]; [rewrite eqb_refl in E; discriminate|exact H]|auto].
Qed.
Lemma value_or_none k es : (exists v, value_of k es v) \/ no_value k es.
Proof.
  induction es as [|[k' v'] es IH] using rev_ind; [right; intros []|]. destruct (list_eq_dec ascii_dec k' k) as [->|N].
  - left. exists v', es, []. split; [reflexivity|intros []].
  - destruct IH as [[v (a & b & -> & H)]|H].
    + left. exists v, a, (b ++ [(k', v')]). split; [rewrite <- app_assoc; reflexivity|]. rewrite map_app. intro X. apply in_app_or in X. destruct X as [X|[X|[]]]; [exact (H X)|exact (N X)].
    + right. apply no_value_snoc. split; assumption.
Qed.
Lemma names_fold dicts : forall acc, StronglySorted before acc -> let l := fold_left (fun l (m : smap) => fold_left (fun l p => sset_insert (fst p) l) m l) dicts acc in
  StronglySorted before l /\ forall k, In k l <-> In k acc \/ exists m, In m dicts /\ In k (map fst m).
Proof.
  induction dicts as [|m dicts IH]; intros acc Hs; cbn [fold_left]; [split; [exact Hs|]; intro k; split; [auto|intros [H|(x & [] & _)]; exact H]|].
  assert (G : forall (m : smap) acc, StronglySorted before acc -> StronglySorted before (fold_left (fun l p => sset_insert (fst p) l) m acc) /\ forall k, In k (fold_left (fun l p => sset_insert (fst p) l) m acc) <-> In k acc \/ In k (map fst m)).
  { clear. induction m as [|p m IH]; intros acc Hs; cbn [fold_left map]; [split; [exact Hs|simpl; tauto]|]. destruct (IH _ (sset_insert_sorted (fst p) acc Hs)) as [S I]. split; [exact S|]. intro k. rewrite I, sset_insert_In. simpl. intuition. }
  destruct (G m acc Hs) as [S I]. destruct (IH _ S) as [S' I']. split; [exact S'|]. intro k. rewrite I', I. split.
  - intros [[H|H]|(x & Hx & H)]; [auto|right; exists m; simpl; auto|right; exists x; simpl; auto].
  - intros [H|(x & [<-|Hx] & H)]; [auto|auto|right; eauto].
Qed.
Lemma dict_names es m k : dict_spec es m -> (In k (map fst m) <-> In k (map fst es) /\ ~ ignored k).
Proof.
  intros [H1 H2]. rewrite smap_find_In. destruct (ignored_dec k) as [I|I]; [rewrite (H2 k (or_intror I)); split; [intros [v X]; discriminate|intros [_ X]; contradiction]|].
  destruct (value_or_none k es) as [[v Hv]|Hn].
  - rewrite (H1 k v Hv I). split; [|eauto]. intros _. split; [|exact I]. destruct Hv as (a & b & -> & _). rewrite map_app. apply in_or_app. right. left. reflexivity.
  - rewrite (H2 k (or_introl Hn)). split; [intros [v X]; discriminate|intros [X _]; contradiction].
Qed.
Lemma text_sorted l : StronglySorted before l -> StronglySorted text_before l.
Proof. induction 1 as [|a l _ IH F]; constructor; [exact IH|]. eapply Forall_impl; [|exact F]. intros x. apply before_spec. Qed.
(** the names of the attributes, in their order and each of them once *)
Definition names_of (rs : list (list entry)) (names : list str) : Prop :=
  StronglySorted text_before names /\ forall k, In k names <-> exists r, In r rs /\ In k (map fst r) /\ ~ In k [chars "id"; chars "source"; chars "target"].
(** the value of an attribute of a record, or the empty string *)
Definition value_or_empty (k : str) (es : list entry) (v : str) : Prop := value_of k es v \/ no_value k es /\ v = [].
Lemma dict_value es m k v : dict_spec es m -> ~ ignored k -> value_or_empty k es v -> match smap_find k m with Some v => v | None => [] end = v.
Proof. intros [H1 H2] I [H|[H ->]]; [rewrite (H1 k v H I)|rewrite (H2 k (or_introl H))]; reflexivity. Qed.
Lemma names_spec (A : Type) (dict : A -> smap) rs recs : Forall2 (fun r a => dict_spec r (dict a)) rs recs -> names_of rs (attribute_names (map dict recs)).
Proof.
  intro H. destruct (names_fold (map dict recs) [] (SSorted_nil _)) as [S I]. split; [apply text_sorted; exact S|]. intro k. unfold attribute_names. rewrite I. split.
  - intros [[]|(m & Hm & Hk)]. apply in_map_iff in Hm. destruct Hm as (a & <- & Ha). clear - H Ha Hk. induction H as [|r b rs recs Hr _ IH]; [destruct Ha|]. destruct Ha as [->|Ha]; [exists r; split; [left; reflexivity|apply (dict_names r (dict a)); assumption]|]. destruct (IH Ha) as (x & Hx & X). exists x. split; [right; exact Hx|exact X].
  - intros (r & Hr & Hk). right. clear - H Hr Hk. induction H as [|x b rs recs Hx _ IH]; [destruct Hr|]. destruct Hr as [->|Hr]; [exists (dict b); split; [left; reflexivity|apply (dict_names r); assumption]|]. destruct (IH Hr) as (m & Hm & X). exists m. split; [right; exact Hm|exact X].
Qed.
Lemma attribute_fold a nodes : forall m, StronglySorted before (map fst m) -> let g := fold_left (fun m n => smap_set (n_id n) (match smap_find a (n_dict n) with Some v => v | None => [] end) m) nodes m in
  StronglySorted before (map fst g) /\ (forall k, In k (map fst g) <-> In k (map fst m) \/ In k (map n_id nodes)) /\
  (forall k, ~ In k (map n_id nodes) -> smap_find k g = smap_find k m) /\
  (NoDup (map n_id nodes) -> forall n, In n nodes -> smap_find (n_id n) g = Some (match smap_find a (n_dict n) with Some v => v | None => [] end)).
Proof.
  induction nodes as [|n nodes IH]; intros m Hs; cbn [fold_left map].
  - refine (conj Hs (conj _ (conj _ _))); [simpl; tauto|auto|intros _ n []].
  - destruct (IH _ (smap_set_sorted (n_id n) (match smap_find a (n_dict n) with Some v => v | None => [] end) m Hs)) as (S & I & O & F). refine (conj S (conj _ (conj _ _))).
    + intro k. rewrite I, !smap_find_In. setoid_rewrite smap_find_set. destruct (str_eqb k (n_id n)) eqn:E; [apply str_eqb_spec in E; subst k; split; [simpl; auto|left; eauto]|]. cbn [In]. split; [intros [H|H]; auto|intros [H|[H|H]]; auto]. subst k. rewrite eqb_refl in E. discriminate.
    + intros k Hk. rewrite O by (intro X; apply Hk; right; exact X). rewrite smap_find_set, eqb_false; [reflexivity|]. intro X. apply Hk. left. auto.
    + intro Hn. inversion Hn as [|? ? Hni Hnd]; subst. intros x [<-|Hx]; [rewrite O by exact Hni; rewrite smap_find_set, eqb_refl; reflexivity|apply F; assumption].
Qed.
Lemma Forall2_In_l {A B} (R : A -> B -> Prop) l l' i a b : Forall2 R l l' -> nth_error l i = Some a -> nth_error l' i = Some b -> R a b.
Proof. intro H. revert i. induction H as [|x y l l' Hxy _ IH]; intros [|i] Ha Hb; cbn [nth_error] in *; try discriminate; [injection Ha as <-; injection Hb as <-; exact Hxy|eauto]. Qed.
Lemma Forall2_nth_r {A B} (R : A -> B -> Prop) l l' i b : Forall2 R l l' -> nth_error l' i = Some b -> exists a, nth_error l i = Some a /\ R a b.
Proof. intro H. revert i. induction H as [|x y l l' Hxy _ IH]; intros [|i] Hb; cbn [nth_error] in *; try discriminate; [injection Hb as <-; eauto|eauto]. Qed.
Lemma Forall2_nth_l {A B} (R : A -> B -> Prop) l l' i a : Forall2 R l l' -> nth_error l i = Some a -> exists b, nth_error l' i = Some b /\ R a b.
Proof. intro H. revert i. induction H as [|x y l l' Hxy _ IH]; intros [|i] Hb; cbn [nth_error] in *; try discriminate; [injection Hb as <-; eauto|eauto]. Qed.

(** Let the stored nodes and edges have the entries [ns] and [es], and let the identifiers be distinct.
    - The names of the attributes are the names that appear in the file except for [id], [source] and [target].
    - An attribute of the nodes is a map of which the keys are the identifiers, in their order, and that assigns to every
      identifier the last value of the attribute, or the empty string.
    - An attribute of an edge is that of the first edge with the given source and target. *)
Theorem C131_attributes ns es ids nodes edges :
  Forall2 node_spec ns nodes -> Forall2 edge_spec es edges -> Forall2 (fun n id => value_of (chars "id") n id) ns ids -> NoDup ids ->
  names_of ns (getNodeAttributeNames nodes) /\ names_of es (getEdgeAttributeNames edges) /\
  (forall k, ~ In k [chars "id"; chars "source"; chars "target"] ->
     StronglySorted text_before (map fst (getNodeAttribute nodes k)) /\ (forall id, In id (map fst (getNodeAttribute nodes k)) <-> In id ids) /\
     forall i n id v, nth_error ns i = Some n -> nth_error ids i = Some id -> value_or_empty k n v -> smap_find id (getNodeAttribute nodes k) = Some v) /\
  (forall k source target pre e post v, ~ In k [chars "id"; chars "source"; chars "target"] -> es = pre ++ e :: post ->
     (forall x, In x es -> (exists s, value_of (chars "source") x s) /\ exists t, value_of (chars "target") x t) ->
     value_of (chars "source") e source -> value_of (chars "target") e target ->
     (forall x, In x pre -> ~ (value_of (chars "source") x source /\ value_of (chars "target") x target)) -> value_or_empty k e v ->
     getEdgeAttribute edges source target k = v).
Proof.
  intros H1 H2 H3 Hnd. refine (conj _ (conj _ (conj _ _))).
  - apply (names_spec gnode n_dict). clear - H1. induction H1 as [|x y l l' H _ IH]; constructor; [apply H|exact IH].
  - apply (names_spec gedge e_dict). clear - H2. induction H2 as [|x y l l' H _ IH]; constructor; [apply H|exact IH].
  - intros k Hk. assert (Ei : map n_id nodes = ids).
    { clear - H1 H3. revert ids H3. induction H1 as [|a b l l' H _ IH]; intros ids Hi; inversion Hi as [|? ? ? ? X1 X2]; subst; [reflexivity|]. cbn [map]. f_equal; [apply H; exact X1|apply IH; exact X2]. }
    destruct (attribute_fold k nodes [] (SSorted_nil _)) as (S & I & _ & F). refine (conj (text_sorted _ S) (conj _ _)).
    + intro id. unfold getNodeAttribute. rewrite I, Ei. simpl. tauto.
    + intros i n id v Hn Hid Hv. destruct (Forall2_nth_l _ _ _ _ _ H1 Hn) as (node & Hnode & Hsp). assert (Eid : n_id node = id). { rewrite <- Ei in Hid. rewrite nth_error_map, Hnode in Hid. injection Hid as <-. reflexivity. }
      unfold getNodeAttribute. rewrite <- Eid, F; [|rewrite Ei; exact Hnd|eapply nth_error_In; exact Hnode]. f_equal. apply (dict_value n); [apply Hsp|exact Hk|exact Hv].
  - intros k source target pre e post v Hk -> Hall Hs Ht Hpre Hv. unfold getEdgeAttribute. assert (Fd : exists ed, find (fun e => str_eqb (e_source e) source && str_eqb (e_target e) target) edges = Some ed /\ edge_spec e ed).
    { clear H1 H3 Hnd Hv. revert edges H2. induction pre as [|x pre IH]; intros edges H2; cbn [app] in H2; inversion H2 as [|? ed ? edges' Hed H2']; subst; cbn [find].
      - exists ed. destruct Hed as (S1 & S2 & S3). rewrite (S1 source Hs), (S2 target Ht), !eqb_refl. cbn [andb]. refine (conj eq_refl (conj S1 (conj S2 S3))).
      - destruct Hed as (S1 & S2 & S3). destruct (Hall x (or_introl eq_refl)) as [[s X1] [t X2]]. rewrite (S1 s X1), (S2 t X2). destruct (str_eqb s source && str_eqb t target) eqn:E; [|apply IH; [intros y Hy; apply Hall; right; exact Hy|intros y Hy; apply Hpre; right; exact Hy|exact H2']]. exfalso. apply andb_prop in E. destruct E as [E1 E2]. apply str_eqb_spec in E1, E2. subst. apply (Hpre x (or_introl eq_refl)). auto. }
    destruct Fd as (ed & -> & S1 & S2 & S3). apply (dict_value e); assumption.
Qed.

(** ** Labels *)
Lemma ids_fold nodes : forall acc, StronglySorted before acc -> let l := fold_left (fun l n => sset_insert (n_id n) l) nodes acc in StronglySorted before l /\ forall x, In x l <-> In x acc \/ In x (map n_id nodes).
Proof.
  induction nodes as [|n nodes IH]; intros acc Hs; cbn [fold_left map]; [split; [exact Hs|simpl; tauto]|]. destruct (IH _ (sset_insert_sorted (n_id n) acc Hs)) as [S I]. split; [exact S|]. intro x. rewrite I, sset_insert_In. simpl. intuition.
Qed.
Lemma srank_nth l i x : StronglySorted before l -> nth_error l i = Some x -> srank x l = i.
Proof.
  intro H. revert i. induction H as [|a l Hs IH F]; intros [|i] E; cbn [nth_error srank] in *; try discriminate; [injection E as ->; rewrite eqb_refl; reflexivity|].
  rewrite eqb_false, (IH i E); [reflexivity|]. intros ->. rewrite Forall_forall in F. apply (before_irrefl a), F. eapply nth_error_In; exact E.
Qed.
Lemma sorted_ext l m : StronglySorted before l -> StronglySorted before m -> (forall x, In x l <-> In x m) -> l = m.
Proof.
  intros H. revert m. induction H as [|a l Hs IH F]; intros m Hm E; [destruct m as [|b m]; [reflexivity|destruct (proj2 (E b) (or_introl eq_refl))]|].
  destruct Hm as [|b m Hm Fm]; [destruct (proj1 (E a) (or_introl eq_refl))|]. rewrite Forall_forall in F, Fm. assert (a = b).
  { destruct (proj1 (E a) (or_introl eq_refl)) as [X|X]; [auto|]. destruct (proj2 (E b) (or_introl eq_refl)) as [Y|Y]; [auto|]. exfalso. apply (before_irrefl a). exact (str_ltb_trans _ _ _ (F b Y) (Fm a X)). } subst b. f_equal. apply IH; [exact Hm|]. intro x. split; intro X.
  - destruct (proj1 (E x) (or_intror X)) as [Y|Y]; [|exact Y]. subst x. destruct (before_irrefl a (F a X)).
  - destruct (proj2 (E x) (or_intror X)) as [Y|Y]; [|exact Y]. subst x. destruct (before_irrefl a (Fm a X)).
Qed.
Lemma smap_find_nth m i k v : StronglySorted before (map fst m) -> nth_error m i = Some (k, v) -> smap_find k m = Some v.
Proof.
  revert i. induction m as [|[k' v'] m IH]; intros [|i] Hs E; cbn [nth_error smap_find map fst] in *; try discriminate; [injection E as -> ->; rewrite eqb_refl; reflexivity|]. inversion Hs as [|? ? Hs' F]; subst. rewrite eqb_false; [apply (IH i); assumption|]. intros ->. rewrite Forall_forall in F. apply (before_irrefl k'), F. apply (in_map fst) with (x := (k', v)). eapply nth_error_In; exact E.
Qed.
Lemma labels_fold (m : smap) (idx : str -> option nat) : forall suf pre, m = pre ++ suf -> (forall i k v, nth_error m i = Some (k, v) -> idx k = Some i) ->
  forall labels, labels = map snd pre ++ repeat [] (length suf) ->
  foldM (fun labels p => match snd p with [] => Ok labels | l => match idx (fst p) with None => Throw OutOfRange | Some i => let* _ := at_ labels i in Ok (upd labels i l) end end) suf labels = Ok (map snd m).
Proof.
  induction suf as [|[k v] suf IH]; intros pre -> Hi labels ->; cbn [foldM length repeat].
  - rewrite !app_nil_r. reflexivity.
  - assert (N : nth_error (pre ++ (k, v) :: suf) (length pre) = Some (k, v)) by (rewrite nth_error_app2, Nat.sub_diag by lia; reflexivity). pose proof (Hi _ _ _ N) as Ik. cbn [snd fst].
    assert (G : match v with [] => Ok (map snd pre ++ [] :: repeat [] (length suf)) | l => match idx k with None => Throw OutOfRange | Some i => let* _ := at_ (map snd pre ++ [] :: repeat [] (length suf)) i in Ok (upd (map snd pre ++ [] :: repeat [] (length suf)) i l) end end = Ok (map snd (pre ++ [(k, v)]) ++ repeat [] (length suf))).
    { destruct v as [|c v]; [rewrite map_app, <- app_assoc; reflexivity|]. rewrite Ik. unfold at_. rewrite nth_error_app2 by (rewrite map_length; lia). rewrite map_length, Nat.sub_diag. cbn [nth_error bind]. f_equal. rewrite map_app, <- app_assoc. cbn [map snd app]. rewrite <- (map_length snd pre). generalize (map snd pre) as p. clear. induction p as [|x p IH]; [reflexivity|]. cbn [app length upd]. rewrite IH. reflexivity. }
    match goal with |- bind ?m ?h = _ => assert (Em : m = Ok (map snd (pre ++ [(k, v)]) ++ repeat [] (length suf))) by (etransitivity; [|exact G]; destruct v; reflexivity); rewrite Em end.
    cbn [bind]. specialize (IH (pre ++ [(k, v)])). rewrite <- app_assoc in IH. cbn [app] in IH. apply (IH eq_refl Hi). reflexivity.
Qed.
(** the labels of the reader: one for every node, in the order of the identifiers *)
Theorem C131_labels ns ids nodes k :
  Forall2 node_spec ns nodes -> Forall2 (fun n id => value_of (chars "id") n id) ns ids -> NoDup ids -> ~ In k [chars "id"; chars "source"; chars "target"] ->
  exists labels, gml_labels nodes k = Ok labels /\ length labels = length ns /\
    forall i n id v smaller, nth_error ns i = Some n -> nth_error ids i = Some id -> value_or_empty k n v ->
      NoDup smaller -> (forall x, In x smaller <-> In x ids /\ text_before x id) -> nth_error labels (length smaller) = Some v.
Proof.
  intros H1 H3 Hnd Hk. assert (Ei : map n_id nodes = ids).
  { clear - H1 H3. revert ids H3. induction H1 as [|a b l l' H _ IH]; intros ids Hi; inversion Hi as [|? ? ? ? X1 X2]; subst; [reflexivity|]. cbn [map]. f_equal; [apply H; exact X1|apply IH; exact X2]. }
  destruct (attribute_fold k nodes [] (SSorted_nil _)) as (S & I & _ & F). fold (getNodeAttribute nodes k) in S, I, F. set (m := getNodeAttribute nodes k) in *.
  destruct (ids_fold nodes [] (SSorted_nil _)) as [S' I']. assert (El : fold_left (fun l n => sset_insert (n_id n) l) nodes [] = map fst m). { apply sorted_ext; [exact S'|exact S|]. intro x. rewrite I', I. simpl. tauto. }
  assert (Hix : forall i k v, nth_error m i = Some (k, v) -> id_to_index nodes k = Some i).
  { intros i k' v E. unfold id_to_index. rewrite El. assert (X : nth_error (map fst m) i = Some k') by (rewrite nth_error_map, E; reflexivity). replace (existsb (fun n => str_eqb (n_id n) k') nodes) with true; [f_equal; apply srank_nth; assumption|]. symmetry. apply existsb_exists. apply nth_error_In, I in X. destruct X as [[]|X]. apply in_map_iff in X. destruct X as (n & <- & Hn). exists n. split; [exact Hn|apply eqb_refl]. }
  exists (map snd m). assert (Lm : length m = length ns).
  { rewrite <- (map_length fst m). transitivity (length ids); [|clear - H3; induction H3; simpl; auto]. apply Permutation_length, NoDup_Permutation; [apply sorted_NoDup; exact S|exact Hnd|]. intro x. rewrite I, Ei. simpl. tauto. }
  refine (conj _ (conj _ _)).
  - unfold gml_labels. fold m. destruct m as [|p m'] eqn:Em; [reflexivity|]. exact (labels_fold (p :: m') (id_to_index nodes) (p :: m') [] eq_refl Hix _ eq_refl).
  - rewrite map_length. exact Lm.
  - intros i n id v smaller Hn Hid Hv Hsn Hsm. destruct (Forall2_nth_l _ _ _ _ _ H1 Hn) as (node & Hnode & Hsp). assert (Eid : n_id node = id). { rewrite <- Ei in Hid. rewrite nth_error_map, Hnode in Hid. injection Hid as <-. reflexivity. }
    assert (Hin : In id (map fst m)) by (apply I; right; rewrite Ei; eapply nth_error_In; exact Hid). destruct (In_nth_error _ _ Hin) as [j Hj]. assert (Er : srank id (map fst m) = length smaller). { apply srank_spec; [exact S|exact Hin|exact Hsn|]. intro x. rewrite Hsm, I, Ei, before_spec. simpl. tauto. }
    rewrite (srank_nth _ _ _ S Hj) in Er. subst j. rewrite nth_error_map in Hj |- *. destruct (nth_error m (length smaller)) as [[k' v']|] eqn:Ej; [|discriminate]. cbn [option_map fst snd] in *. injection Hj as ->. f_equal.
    apply smap_find_nth in Ej; [|exact S]. rewrite <- Eid in Ej. rewrite F in Ej; [|rewrite Ei; exact Hnd|eapply nth_error_In; exact Hnode]. injection Ej as <-. apply (dict_value n); [apply Hsp|exact Hk|exact Hv].
Qed.

(** ** Writing *)
Definition of_dimension (d : nat) (l : list simplex) : list simplex := filter (fun s => length (verts s) =? S d) l.
(** the entries of a vertex: its number, its label if there are labels, and its data if this is requested *)
Definition node_entries (show : Z -> str) (labels : list str) (withData : bool) (s : simplex) (es : list entry) : Prop :=
  exists v d lab dat, verts s = [v] /\ numeral d (N.of_nat v) /\ es = (chars "id", d) :: lab ++ dat /\
    (labels = [] /\ lab = [] \/ labels <> [] /\ exists i l, v = S i /\ nth_error labels i = Some l /\ lab = [(chars "label", l)]) /\
    (withData = false /\ dat = [] \/ withData = true /\ dat = [(chars "data", show (data s))]).
(** the entries of an edge: its larger vertex, its smaller vertex and its data *)
Definition edge_entries (show : Z -> str) (s : simplex) (es : list entry) : Prop :=
  exists u v a b, verts s = [u; v] /\ numeral a (N.of_nat u) /\ numeral b (N.of_nat v) /\
    es = [(chars "source", a); (chars "target", b); (chars "weight", show (data s))].
Definition good_labels (labels : list str) : Prop := Forall (fun l => l <> [] /\ Forall (fun c => label_char c /\ on_line c) l) labels.

Lemma blank_space : SpecText.blank " "%char.
Proof. apply isspace_spec. reflexivity. Qed.
Lemma spaces_blank n : Forall SpecText.blank (repeat " "%char n).
Proof. apply Forall_forall. intros c H. apply repeat_spec in H. subst. apply blank_space. Qed.
Lemma numeral_value_char d n : numeral d n -> some value_char d.
Proof.
  intro H. destruct (numeral_a_digit _ _ H) as [H1 H2]. split; [exact H1|]. eapply Forall_impl; [|exact H2]. intros c Hc. apply isvalue_spec. unfold isvalue. rewrite (proj2 (isdigit_spec c) Hc). destruct (isalpha c); reflexivity.
Qed.
Lemma last_not_blank (core : str) (P : ascii -> Prop) a v : (forall c, P c -> ~ SpecText.blank c) -> core = a ++ v -> some P v -> forall c t, core = t ++ [c] -> ~ SpecText.blank c.
Proof.
  intros HP -> [Hn Hv] c t E. destruct (exists_last Hn) as (v' & x & ->). rewrite app_assoc in E. apply app_inj_tail in E. destruct E as [_ <-]. apply HP. apply Forall_app in Hv. destruct Hv as [_ Hv]. inversion Hv; assumption.
Qed.
Lemma value_line k v n : some name_char k -> some value_char v -> k <> chars "label" -> ~ In k [chars "comment"; chars "Creator"] -> entry_line (k, v) (repeat " "%char n ++ k ++ " "%char :: v).
Proof.
  intros Hk Hv Hl Hc. exists (k ++ " "%char :: v). refine (conj _ (conj Hc (or_intror (conj Hl _)))).
  - exists (repeat " "%char n), []. rewrite app_nil_r. refine (conj eq_refl (conj (spaces_blank n) (conj (Forall_nil _) (conj _ _)))).
    + intros c t E. destruct Hk as [Hk1 Hk2]. destruct k as [|x k]; [contradiction|]. injection E as <- _. inversion Hk2; subst. apply name_not_space. assumption.
    + apply (last_not_blank _ value_char (k ++ [" "%char]) v value_not_space); [rewrite <- app_assoc; reflexivity|exact Hv].
  - exists [" "%char]. refine (conj eq_refl (conj Hk (conj _ Hv))). split; [discriminate|]. constructor; [apply blank_space|constructor].
Qed.
Lemma label_line l n : l <> [] -> Forall (fun c => label_char c /\ on_line c) l -> entry_line (chars "label", l) (repeat " "%char n ++ chars "label " ++ quote :: l ++ [quote]).
Proof.
  intros Hl H. exists (chars "label " ++ quote :: l ++ [quote]). refine (conj _ (conj _ (or_introl (conj eq_refl (conj _ _))))).
  - exists (repeat " "%char n), []. rewrite app_nil_r. refine (conj eq_refl (conj (spaces_blank n) (conj (Forall_nil _) (conj _ _)))).
    + intros c t E. injection E as <- _. intro X. apply isspace_spec in X. discriminate.
    + apply (last_not_blank _ (fun c => c = quote) (chars "label " ++ quote :: l) [quote]); [intros c -> X; apply isspace_spec in X; discriminate|rewrite <- app_assoc; reflexivity|]. split; [discriminate|repeat constructor].
  - cbn [fst]. intros [X|[X|[]]]; discriminate.
  - exists [" "%char]. cbn [snd]. refine (conj eq_refl (conj _ _)); [split; [discriminate|constructor; [apply blank_space|constructor]]|]. split; [exact Hl|]. eapply Forall_impl; [|exact H]. intros c [X _]. exact X.
  - eapply Forall_impl; [|exact H]. intros c [_ X]. exact X.
Qed.
Lemma name_of_chars k : forallb isname k = true -> k <> [] -> some name_char k.
Proof. intros H N. split; [exact N|]. apply Forall_forall. intros c Hc. apply isname_spec. rewrite forallb_forall in H. apply H. exact Hc. Qed.
Lemma level_opens level n : In level [chars "graph"; chars "node"; chars "edge"] -> opens level [repeat " "%char n ++ level ++ chars " ["].
Proof.
  intro H. left. exists (repeat " "%char n ++ level ++ chars " ["), [" "%char]. refine (conj eq_refl (conj _ _)).
  - exists (repeat " "%char n), []. rewrite app_nil_r. refine (conj eq_refl (conj (spaces_blank n) (conj (Forall_nil _) (conj _ _)))).
    + intros c t E. destruct H as [<-|[<-|[<-|[]]]]; injection E as <- _; intro X; apply isspace_spec in X; discriminate.
    + apply (last_not_blank _ (fun c => c = "["%char) (level ++ [" "%char]) ["["%char]); [intros c -> X; apply isspace_spec in X; discriminate|rewrite <- app_assoc; reflexivity|]. split; [discriminate|repeat constructor].
  - split; [discriminate|]. constructor; [apply blank_space|constructor].
Qed.
Lemma bracket_closes n : closes (repeat " "%char n ++ ["]"%char]).
Proof.
  exists (repeat " "%char n), []. rewrite app_nil_r. refine (conj eq_refl (conj (spaces_blank n) (conj (Forall_nil _) (conj _ _)))).
  - intros c t E. injection E as <- _. intro X. apply isspace_spec in X. discriminate.
  - apply (last_not_blank _ (fun c => c = "]"%char) [] ["]"%char]); [intros c -> X; apply isspace_spec in X; discriminate|reflexivity|]. split; [discriminate|repeat constructor].
Qed.

Section Write.
Variable show : Z -> str.
Lemma write_node_spec labels withData s v : some value_char (show (data s)) -> good_labels labels -> verts s = [v] -> (labels = [] \/ 1 <= v <= length labels) ->
  exists ls es, write_node show labels withData s = Ok ls /\ node_entries show labels withData s es /\ record (chars "node") es ls /\ Forall (fun l => ~ In newline l) ls.
Proof.
  intros Hshow Hl Ev Hv. unfold write_node, s_nth. rewrite Ev. cbn [at_ nth_error bind].
  assert (G : exists lab labl, match labels with [] => Ok [] | _ => match v with 0 => Throw OutOfRange | S i => let* l := at_ labels i in Ok [chars "    label " ++ quote :: l ++ [quote]] end end = Ok labl /\
    (labels = [] /\ lab = [] \/ labels <> [] /\ exists i l, v = S i /\ nth_error labels i = Some l /\ lab = [(chars "label", l)]) /\ entries lab labl /\ Forall (fun l => ~ In newline l) labl).
  { destruct labels as [|l0 labels]; [exists [], []; refine (conj eq_refl (conj (or_introl (conj eq_refl eq_refl)) (conj entries_nil (Forall_nil _))))|]. destruct Hv as [X|Hv]; [discriminate|]. destruct v as [|i]; [lia|]. destruct (nth_error (l0 :: labels) i) as [l|] eqn:El; [|apply nth_error_None in El; lia].
    assert (L : l <> [] /\ Forall (fun c => label_char c /\ on_line c) l) by (unfold good_labels in Hl; rewrite Forall_forall in Hl; apply Hl; eapply nth_error_In; exact El). exists [(chars "label", l)], [chars "    label " ++ quote :: l ++ [quote]]. unfold at_. rewrite El. cbn [bind].
    refine (conj eq_refl (conj (or_intror (conj _ _)) (conj _ _))); [discriminate|exists i, l; auto| |].
    - apply entries_entry; [|constructor]. apply (label_line l 4); apply L.
    - constructor; [|constructor]. intro X. apply in_app_or in X. destruct X as [X|[X|X]]; [cbn in X; intuition discriminate|discriminate|]. apply in_app_or in X. destruct X as [X|[X|[]]]; [|discriminate]. destruct L as [_ L]. rewrite Forall_forall in L. destruct (L _ X) as [_ [Y _]]. apply Y. reflexivity. }
  destruct G as (lab & labl & -> & G1 & G2 & G3). cbn [bind].
  assert (D : exists dat datl, (if withData then [chars "    data " ++ show (data s)] else []) = datl /\ (withData = false /\ dat = [] \/ withData = true /\ dat = [(chars "data", show (data s))]) /\ entries dat datl /\ Forall (fun l => ~ In newline l) datl).
  { destruct withData.
    - exists [(chars "data", show (data s))]. eexists. refine (conj eq_refl (conj (or_intror (conj eq_refl eq_refl)) (conj _ _))).
      + apply entries_entry; [|constructor]. apply (value_line (chars "data") (show (data s)) 4); [apply name_of_chars; [reflexivity|discriminate]|exact Hshow|discriminate|intros [X|[X|[]]]; discriminate].
      + constructor; [|constructor]. intro X. apply in_app_or in X. destruct X as [X|X]; [cbn in X; intuition discriminate|]. destruct Hshow as [_ F]. rewrite Forall_forall in F. apply F in X. apply isvalue_spec in X. discriminate.
    - exists [], []. refine (conj eq_refl (conj (or_introl (conj eq_refl eq_refl)) (conj entries_nil (Forall_nil _)))). }
  destruct D as (dat & datl & -> & D1 & D2 & D3).
  eexists. exists ((chars "id", print_nat v) :: lab ++ dat). refine (conj eq_refl (conj _ (conj _ _))).
  - exists v, (print_nat v), lab, dat. refine (conj Ev (conj (print_nat_numeral v) (conj eq_refl (conj G1 D1)))).
  - exists [chars "  node ["], ((chars "    id " ++ print_nat v) :: labl ++ datl), (chars "  ]"). refine (conj _ (conj _ (conj _ _))).
    + cbn [app]. rewrite <- app_assoc. reflexivity.
    + apply (level_opens (chars "node") 2). simpl. auto.
    + apply entries_entry; [apply (value_line (chars "id") (print_nat v) 4); [apply name_of_chars; [reflexivity|discriminate]|eapply numeral_value_char, print_nat_numeral|discriminate|intros [X|[X|[]]]; discriminate]|].
      clear - G2 D2. induction G2 as [|l es ls H _ IH|e l es ls H _ IH]; [exact D2|apply entries_remark; assumption|apply entries_entry; assumption].
    + apply (bracket_closes 2).
  - constructor; [cbn; intuition discriminate|]. constructor; [|apply Forall_app; split; [exact G3|apply Forall_app; split; [exact D3|constructor; [cbn; intuition discriminate|constructor]]]].
    intro X. apply in_app_or in X. destruct X as [X|X]; [cbn in X; intuition discriminate|]. destruct (numeral_value_char _ _ (print_nat_numeral v)) as [_ F]. rewrite Forall_forall in F. apply F in X. apply isvalue_spec in X. discriminate.
Qed.
Lemma value_no_newline (p v : str) : ~ In newline p -> some value_char v -> ~ In newline (p ++ v).
Proof. intros Hp [_ F] X. apply in_app_or in X. destruct X as [X|X]; [exact (Hp X)|]. rewrite Forall_forall in F. apply F, isvalue_spec in X. discriminate. Qed.
Lemma write_edge_spec s u v : some value_char (show (data s)) -> verts s = [u; v] -> exists ls es, write_edge show s = Ok ls /\ edge_entries show s es /\ record (chars "edge") es ls /\ Forall (fun l => ~ In newline l) ls.
Proof.
  intros Hshow Ev. unfold write_edge, s_nth. rewrite Ev. cbn [at_ nth_error bind]. eexists. exists [(chars "source", print_nat u); (chars "target", print_nat v); (chars "weight", show (data s))].
  pose proof (numeral_value_char _ _ (print_nat_numeral u)) as Hu. pose proof (numeral_value_char _ _ (print_nat_numeral v)) as Hv. refine (conj eq_refl (conj _ (conj _ _))).
  - exists u, v, (print_nat u), (print_nat v). refine (conj Ev (conj (print_nat_numeral u) (conj (print_nat_numeral v) eq_refl))).
  - exists [chars "  edge ["], [chars "    source " ++ print_nat u; chars "    target " ++ print_nat v; chars "    weight " ++ show (data s)], (chars "  ]"). refine (conj eq_refl (conj _ (conj _ _))).
    + apply (level_opens (chars "edge") 2). simpl. auto.
    + apply entries_entry; [apply (value_line (chars "source") (print_nat u) 4)|apply entries_entry; [apply (value_line (chars "target") (print_nat v) 4)|apply entries_entry; [apply (value_line (chars "weight") (show (data s)) 4)|constructor]]];
        first [apply name_of_chars; [reflexivity|discriminate]|assumption|exact Hshow|discriminate|intros [X|[X|[]]]; discriminate].
    + apply (bracket_closes 2).
  - repeat (constructor; [first [apply value_no_newline; [|first [assumption|exact Hshow]]; cbn; intuition discriminate|cbn; intuition discriminate]|]). constructor.
Qed.
(** a record and what is written for it *)
Definition written (level : str) (P : simplex -> list entry -> Prop) (S : list simplex) (rs : list (list entry)) (ls : list str) : Prop :=
  exists parts, ls = concat parts /\ Forall2 P S rs /\ Forall2 (record level) rs parts /\ Forall (fun l => ~ In newline l) ls.
Lemma written_snoc level P S rs ls s r l : written level P S rs ls -> P s r -> record level r l -> Forall (fun l => ~ In newline l) l -> written level P (S ++ [s]) (rs ++ [r]) (ls ++ l).
Proof.
  intros (parts & -> & H1 & H2 & H3) Hp Hr Hl. exists (parts ++ [l]). refine (conj _ (conj _ (conj _ _))).
  - rewrite concat_app. cbn [concat]. rewrite app_nil_r. reflexivity.
  - apply Forall2_app; [exact H1|repeat constructor; exact Hp].
  - apply Forall2_app; [exact H2|repeat constructor; exact Hr].
  - apply Forall_app. split; assumption.
Qed.
Lemma write_fold labels withData l : good_labels labels -> (forall s, In s l -> some value_char (show (data s))) -> (forall s, In s l -> good s) -> (forall s v, In s l -> verts s = [v] -> labels = [] \/ 1 <= v <= length labels) ->
  forall V E ns es nl el, written (chars "node") (node_entries show labels withData) V ns nl -> written (chars "edge") (edge_entries show) E es el ->
  exists ns' es' nl' el', foldM (write_simplex show labels withData) l (nl, el) = Ok (nl', el') /\
    written (chars "node") (node_entries show labels withData) (V ++ of_dimension 0 l) ns' nl' /\ written (chars "edge") (edge_entries show) (E ++ of_dimension 1 l) es' el'.
Proof.
  intros Hlab. induction l as [|s l IH]; intros Hsh Hg Hv V E ns es nl el HV HE; cbn [foldM].
  - exists ns, es, nl, el. cbn [of_dimension filter]. rewrite !app_nil_r. auto.
  - unfold write_simplex at 1. rewrite (good_dimension s) by (apply Hg; left; reflexivity). cbn [bind]. unfold of_dimension. cbn [filter]. unfold sdim. destruct (Hg s (or_introl eq_refl)) as [_ Hne].
    destruct (verts s) as [|a [|b [|c t]]] eqn:Evs; [contradiction| | |]; cbn [length Nat.sub Nat.eqb].
    + destruct (write_node_spec labels withData s a (Hsh s (or_introl eq_refl)) Hlab Evs (Hv s a (or_introl eq_refl) Evs)) as (ls & e & Ew & N & R & F). rewrite Ew. cbn [bind fst snd].
      destruct (IH (fun s X => Hsh s (or_intror X)) (fun s X => Hg s (or_intror X)) (fun s v X => Hv s v (or_intror X)) _ _ _ _ _ _ (written_snoc _ _ _ _ _ _ _ _ HV N R F) HE) as (ns' & es' & nl' & el' & E' & W1 & W2). rewrite <- app_assoc in W1. exists ns', es', nl', el'. auto.
    + destruct (write_edge_spec s a b (Hsh s (or_introl eq_refl)) Evs) as (ls & e & Ew & N & R & F). rewrite Ew. cbn [bind fst snd].
      destruct (IH (fun s X => Hsh s (or_intror X)) (fun s X => Hg s (or_intror X)) (fun s v X => Hv s v (or_intror X)) _ _ _ _ _ _ HV (written_snoc _ _ _ _ _ _ _ _ HE N R F)) as (ns' & es' & nl' & el' & E' & W1 & W2). rewrite <- app_assoc in W2. exists ns', es', nl', el'. auto.
    + cbn [bind]. apply (IH (fun s X => Hsh s (or_intror X)) (fun s X => Hg s (or_intror X)) (fun s v X => Hv s v (or_intror X)) _ _ _ _ _ _ HV HE).
Qed.
(** If the vertices have labels, the lines form a file of which the nodes and edges are those of the complex, in their order. *)
Theorem C131_write labels withData K : good_labels labels -> (forall s, In s (by_index K) -> some value_char (show (data s))) -> (forall s, In s (by_index K) -> good s) ->
  (labels = [] \/ forall s v, In s (by_index K) -> verts s = [v] -> 1 <= v <= length labels) ->
  exists ls ns es, writeGML show labels withData K = Ok ls /\ (forall l, In l ls -> ~ In newline l) /\ gml_file ns es ls /\
    Forall2 (node_entries show labels withData) (of_dimension 0 (by_index K)) ns /\ Forall2 (edge_entries show) (of_dimension 1 (by_index K)) es.
Proof.
  intros Hlab Hsh Hg Hv. unfold writeGML. destruct (write_fold labels withData (by_index K) Hlab Hsh Hg) with (V := @nil simplex) (E := @nil simplex) (ns := @nil (list entry)) (es := @nil (list entry)) (nl := @nil str) (el := @nil str) as (ns & es & nl & el & E & (np & -> & N1 & N2 & N3) & (ep & -> & M1 & M2 & M3)).
  - intros s v Hs Ev. destruct Hv as [Hv|Hv]; [auto|right; apply (Hv s v); assumption].
  - exists []. repeat split; constructor.
  - exists []. repeat split; constructor.
  - rewrite E. cbn [bind fst snd]. eexists. exists ns, es. refine (conj eq_refl (conj _ (conj _ (conj N1 M1)))).
    + intros l Hl. assert (Hd : Forall (fun l => ~ In newline l) [chars "graph ["; chars "  directed 0"; []; chars "]"]) by (repeat (constructor; [cbn; intuition discriminate|]); constructor). rewrite Forall_forall in N3, M3, Hd.
      rewrite !in_app_iff in Hl. destruct Hl as [Hl|[Hl|[Hl|[Hl|Hl]]]]; [apply Hd; simpl in *; tauto|apply N3; exact Hl|apply Hd; simpl in *; tauto|apply M3; exact Hl|apply Hd; simpl in *; tauto].
    + exists [], [chars "graph ["], (chars "  directed 0" :: concat np ++ [[]] ++ concat ep ++ [[]]), (chars "]"), []. refine (conj _ (conj (Forall_nil _) (conj _ (conj _ (conj (bracket_closes 0) (Forall_nil _)))))).
      * cbn [app]. rewrite <- !app_assoc. cbn [app]. rewrite <- !app_assoc. reflexivity.
      * apply (level_opens (chars "graph") 0). simpl. auto.
      * apply contents_entry with (e := (chars "directed", chars "0")). { apply (value_line (chars "directed") (chars "0") 2); [apply name_of_chars; [reflexivity|discriminate]| |discriminate|intros [X|[X|[]]]; discriminate]. split; [discriminate|constructor; [|constructor]]. apply isvalue_spec. reflexivity. }
        clear - N2 M2. induction N2 as [|r p ns np Hr _ IH]; cbn [concat].
        -- cbn [app]. apply contents_remark; [right; constructor|]. induction M2 as [|r p es ep Hr _ IH]; cbn [concat app]; [apply contents_remark; [right; constructor|constructor]|]. rewrite <- app_assoc. apply contents_edge; assumption.
        -- rewrite <- app_assoc. apply contents_node; assumption.
Qed.
End Write.

(** ** Round trip *)
Lemma numeral_unique d n m : numeral d n -> numeral d m -> n = m.
Proof.
  intros H1 H2. assert (S : stops a_digit []) by (intros c t X; discriminate). pose proof (leading_numeral d n [] H1 S) as E1. pose proof (leading_numeral d m [] H2 S) as E2. rewrite E1 in E2. injection E2 as ->. reflexivity.
Qed.
Lemma value_first k v rest : ~ In k (map fst rest) -> value_of k ((k, v) :: rest) v.
Proof. intro H. exists [], rest. auto. Qed.
Definition without_data (s : simplex) : simplex := Simplex (verts s) 0.
Theorem C131_roundtrip show conv f labels withData K :
  (forall s, In s (by_index K) -> some value_char (show (data s)) /\ conv (show (data s)) = data s) -> good_labels labels -> kwf K ->
  (forall s v, In s (by_index K) -> In v (verts s) -> (N.of_nat v < 2 ^ 32)%N) ->
  (labels = [] \/ forall s v, In s (by_index K) -> verts s = [v] -> 1 <= v <= length labels) ->
  exists ls K' nodes edges, writeGML show labels withData K = Ok ls /\ readGML conv f (text_of ls []) = Ok (K', nodes, edges) /\
    by_index K' = map without_data (of_dimension 0 (by_index K)) ++ of_dimension 1 (by_index K) /\
    Forall2 (fun s n => exists v, verts s = [v] /\ numeral (n_id n) (N.of_nat v) /\
      forall l, nth_error labels (v - 1) = Some l -> smap_find (chars "label") (n_dict n) = Some l) (of_dimension 0 (by_index K)) nodes.
Proof.
  intros Hconv Hlab Hk Hsm Hv. destruct (C131_write show labels withData K Hlab (fun s Hs => proj1 (Hconv s Hs)) (kwf_good K Hk) Hv) as (ls & ns & es & Ew & Hnl & Hf & Hn & He).
  assert (Hvs : forall s, In s (of_dimension 0 (by_index K)) -> In s (by_index K)) by (intros s X; apply filter_In in X; tauto).
  assert (Hes : forall s, In s (of_dimension 1 (by_index K)) -> In s (by_index K)) by (intros s X; apply filter_In in X; tauto).
  assert (Hnd0 : forall d, NoDup (map verts (of_dimension d (by_index K)))).
  { intro d. pose proof (kwf_nodup K Hk) as N. clear - N. induction (by_index K) as [|s l IH]; [constructor|]. cbn [map] in N. inversion N as [|? ? N1 N2]; subst. unfold of_dimension. cbn [filter]. destruct (length (verts s) =? S d); [|apply IH; exact N2]. cbn [map]. constructor; [|apply IH; exact N2]. intro X. apply N1. apply in_map_iff in X. destruct X as (x & <- & Hx). apply filter_In in Hx. apply in_map. tauto. }
  assert (G : exists ids, Forall2 (fun n id => value_of (chars "id") n id) ns ids /\ Forall2 (fun s id => exists v, verts s = [v] /\ numeral id (N.of_nat v)) (of_dimension 0 (by_index K)) ids).
  { clear - Hn. induction Hn as [|s n S ns H _ (ids & I1 & I2)]; [exists []; split; constructor|]. destruct H as (v & d & lab & dat & Ev & Hd & -> & H1 & H2). exists (d :: ids). split; constructor; [|exact I1|exists v; auto|exact I2]. apply value_first.
    rewrite map_app. intro X. apply in_app_or in X. destruct H1 as [[_ ->]|(_ & i & l & _ & _ & ->)], H2 as [[_ ->]|[_ ->]]; cbn in X; intuition discriminate. }
  destruct G as (ids & I1 & I2).
  destruct (C131_read conv f ns es ls ids (map without_data (of_dimension 0 (by_index K))) (of_dimension 1 (by_index K)) Hnl Hf I1) as (K' & nodes & edges & Er & Ek & F1 & F2).
  - specialize (Hnd0 0). clear - I2 Hnd0. induction I2 as [|s id S ids (v & Ev & Hv) H IH]; [constructor|]. cbn [map] in Hnd0. inversion Hnd0 as [|? ? N1 N2]; subst. constructor; [|apply IH; exact N2]. intro X. apply N1. clear - X H Hv Ev. induction H as [|s' id' S ids (v' & Ev' & Hv') _ IH]; [destruct X|]. destruct X as [->|X]; [|right; apply IH; exact X]. left. rewrite Ev, Ev'. do 2 f_equal. pose proof (numeral_unique _ _ _ Hv Hv'). lia.
  - clear - Hn Hsm Hvs. generalize ids. clear ids. intro ids. induction Hn as [|s n S ns H _ IH]; cbn [map]; [constructor|]. constructor; [|apply IH; intros x Hx; apply Hvs; right; exact Hx]. destruct H as (v & d & lab & dat & Ev & Hd & -> & H1 & H2). exists d, v. cbn [verts data without_data]. refine (conj _ (conj _ (conj Ev (or_intror (conj _ eq_refl))))).
    + apply value_first. rewrite map_app. intro X. apply in_app_or in X. destruct H1 as [[_ ->]|(_ & i & l & _ & _ & ->)], H2 as [[_ ->]|[_ ->]]; cbn in X; intuition discriminate.
    + left. exists d, []. rewrite app_nil_r. refine (conj eq_refl (conj Hd (conj _ _))); [intros c t X; discriminate|]. apply (Hsm s); [apply Hvs; left; reflexivity|rewrite Ev; left; reflexivity].
    + split; intro X; cbn [map fst] in X; destruct X as [X|X]; try discriminate; rewrite map_app in X; apply in_app_or in X; destruct H1 as [[_ ->]|(_ & i & l & _ & _ & ->)], H2 as [[_ ->]|[_ ->]]; cbn in X; intuition discriminate.
  - pose proof (kwf_good K Hk) as Hg. generalize (map without_data (of_dimension 0 (by_index K))) as V. intro V. clear - He Hsm Hes Hg Hconv. induction He as [|s e S es H _ IH]; [constructor|]. constructor; [|apply IH; intros x Hx; apply Hes; right; exact Hx]. destruct H as (u & v & a & b & Ev & Ha & Hb & ->). exists a, b, u, v.
    assert (Hin : In s (by_index K)) by (apply Hes; left; reflexivity). refine (conj _ (conj _ (conj _ (conj _ (conj _ (or_introl _)))))).
    + apply value_first. cbn. intuition discriminate.
    + exists [(chars "source", a)], [(chars "weight", show (data s))]. split; [reflexivity|cbn; intuition discriminate].
    + left. exists a, []. rewrite app_nil_r. refine (conj eq_refl (conj Ha (conj _ _))); [intros c t X; discriminate|]. apply (Hsm s _ Hin). rewrite Ev. left. reflexivity.
    + left. exists b, []. rewrite app_nil_r. refine (conj eq_refl (conj Hb (conj _ _))); [intros c t X; discriminate|]. apply (Hsm s _ Hin). rewrite Ev. right. left. reflexivity.
    + destruct s as [sv sd]. cbn [verts data] in *. subst sv. assert (X : verts (simplex_of [u; v] sd) = [u; v]). { apply (wf_ext (simplex_of [u; v] sd) (Simplex [u; v] sd)); [apply simplex_of_wf|apply (Hg _ Hin)|]. intro x. rewrite simplex_of_In. reflexivity. } unfold simplex_of in *. cbn [verts] in X. rewrite X. reflexivity.
    + left. exists (show (data s)). split; [|symmetry; apply Hconv; exact Hin]. exists [(chars "source", a); (chars "target", b)], []. split; [reflexivity|intros []].
  - rewrite map_app. apply NoDup_app_disjoint; [|apply Hnd0|].
    + rewrite map_map. cbn [without_data verts]. apply Hnd0.
    + intros x Hx Hy. rewrite map_map in Hx. apply in_map_iff in Hx, Hy. destruct Hx as (s & <- & Hs), Hy as (t & Et & Ht). apply filter_In in Hs, Ht. destruct Hs as [_ Hs], Ht as [_ Ht]. apply Nat.eqb_eq in Hs, Ht. cbn [without_data verts] in Et. rewrite Et in Ht. lia.
  - exists ls, K', nodes, edges. refine (conj Ew (conj Er (conj Ek _))). clear - Hn F1. revert nodes F1. induction Hn as [|s n S ns H _ IH]; intros nodes F1; inversion F1 as [|? node ? nodes' Hnode F1']; subst; constructor; [|apply IH; exact F1']. destruct Hnode as [N1 [N2 _]]. destruct H as (v & d & lab & dat & Ev & Hd & -> & H1 & H2). exists v. refine (conj Ev (conj _ _)).
    + rewrite (N1 d); [exact Hd|]. apply value_first. rewrite map_app. intro X. apply in_app_or in X. destruct H1 as [[_ ->]|(_ & i & l & _ & _ & ->)], H2 as [[_ ->]|[_ ->]]; cbn in X; intuition discriminate.
    + intros l Hl. apply N2; [|intros [X|[X|[X|[]]]]; discriminate]. destruct H1 as [[-> ->]|(_ & i & l' & -> & El & ->)]; [destruct (v - 1); discriminate|]. cbn [Nat.sub] in Hl. rewrite Nat.sub_0_r, El in Hl. injection Hl as <-. exists [(chars "id", d)], dat. split; [reflexivity|]. destruct H2 as [[_ ->]|[_ ->]]; cbn; intuition discriminate.
Qed.

(** ** Errors *)
Lemma node_ids_duplicate nodes : ~ NoDup (map n_id nodes) -> node_ids nodes = Throw RuntimeError.
Proof.
  unfold node_ids. intro H.
  assert (G : forall acc, (~ NoDup (map n_id nodes) \/ exists n, In n nodes /\ In (n_id n) acc) -> foldM (fun ids n => if existsb (str_eqb (n_id n)) ids then Throw RuntimeError else Ok (sset_insert (n_id n) ids)) nodes acc = Throw RuntimeError).
  { clear. induction nodes as [|n nodes IH]; intros acc H; [destruct H as [H|(n & [] & _)]; exfalso; apply H; constructor|]. cbn [foldM]. destruct (existsb (str_eqb (n_id n)) acc) eqn:E; [reflexivity|]. cbn [bind]. apply IH.
    assert (Hn : ~ In (n_id n) acc). { intro X. assert (Y : existsb (str_eqb (n_id n)) acc = true); [|rewrite E in Y; discriminate]. apply existsb_exists. exists (n_id n). split; [exact X|apply eqb_refl]. }
    destruct H as [H|(x & [<-|Hx] & Y)]; [|contradiction|right; exists x; split; [exact Hx|apply sset_insert_In; right; exact Y]].
    destruct (in_dec (list_eq_dec ascii_dec) (n_id n) (map n_id nodes)) as [I|I].
    - right. apply in_map_iff in I. destruct I as (x & Ex & Hx). exists x. split; [exact Hx|]. apply sset_insert_In. left. exact Ex.
    - left. intro X. apply H. cbn [map]. constructor; assumption. }
  apply G. left. exact H.
Qed.
(** Two nodes with the same identifier, and a line with an attribute or an empty line before the graph, are errors. *)
Theorem C131_errors :
  (forall conv f ns es ls ids, (forall l, In l ls -> ~ In newline l) -> gml_file ns es ls -> Forall2 (fun n id => value_of (chars "id") n id) ns ids ->
     (forall e, In e es -> exists v, value_of (chars "source") e v) -> ~ NoDup ids -> readGML conv f (text_of ls []) = Throw RuntimeError) /\
  (forall conv f remarks l rest, (forall l', In l' (remarks ++ l :: rest) -> ~ In newline l') -> Forall remark remarks -> (white l \/ exists e, entry_line e l /\ ~ In (fst e) [chars "graph"; chars "node"; chars "edge"]) ->
     readGML conv f (text_of (remarks ++ l :: rest) []) = Throw RuntimeError).
Proof.
  split.
  - intros conv f ns es ls ids Hnl Hf Hids He Hn. destruct (parse_file ns es ls Hnl Hf) as (nodes & edges & Ep & F1 & F2); [|exact He|].
    { intros n X. clear - Hids X. induction Hids as [|a b l l' H _ IH]; [destruct X|]. destruct X as [<-|X]; eauto. }
    assert (Ei : map n_id nodes = ids).
    { clear - F1 Hids. revert ids Hids. induction F1 as [|a b l l' H _ IH]; intros ids Hi; inversion Hi as [|? ? ? ? X1 X2]; subst; [reflexivity|]. cbn [map]. f_equal; [apply H; exact X1|apply IH; exact X2]. }
    unfold readGML. rewrite Ep. cbn [bind]. rewrite node_ids_duplicate by (rewrite Ei; exact Hn). reflexivity.
  - intros conv f remarks l rest Hnl Hr Hl. unfold readGML, gml_parse. rewrite lines_text by exact Hnl. rewrite foldM_app, remarks_run by exact Hr. cbn [bind foldM].
    match goal with |- context [gml_line ?st l] => assert (E : gml_line st l = Throw RuntimeError) end; [|rewrite E; reflexivity].
    unfold gml_line. destruct Hl as [Hw|(e & (core & Hp & Hc & He) & Hlev)].
    + replace (trim l) with (@nil ascii); [reflexivity|]. symmetry. rewrite <- (padded_trim [] l); [reflexivity|]. exists l, []. rewrite app_nil_r. refine (conj eq_refl (conj Hw (conj (Forall_nil _) (conj _ _)))); [discriminate|intros c t X; destruct t; discriminate].
    + rewrite (padded_trim core l Hp).
      assert (Hcore : exists sp v, core = fst e ++ sp ++ v /\ some SpecText.blank sp /\ word isspace (fst e) /\ fst e <> [] /\ v <> [] /\ ~ SpecText.blank (hd " "%char v) /\ hd " "%char v <> "["%char).
      { destruct He as [(E1 & (sp & E2 & Hsp & Hl) & _)|(_ & sp & E2 & Hn & Hsp & Hv)].
        - exists sp, (quote :: snd e ++ [quote]). rewrite E1. refine (conj E2 (conj Hsp (conj _ (conj _ (conj _ (conj _ _)))))); [apply word_blank; repeat constructor; intro X; apply isspace_spec in X; discriminate|discriminate|discriminate|intro X; apply isspace_spec in X; discriminate|discriminate].
        - exists sp, (snd e). destruct Hn as [Hn1 Hn2], Hv as [Hv1 Hv2]. refine (conj E2 (conj Hsp (conj (name_word _ Hn2) (conj Hn1 (conj Hv1 (conj _ _)))))); destruct (snd e) as [|c v]; try contradiction; cbn [hd]; inversion Hv2; subst; [apply value_not_space; assumption|]. intros ->. apply isvalue_spec in H1. discriminate. }
      destruct Hcore as (sp & v & -> & Hsp & Hw & Hne & Hv & Hb & Hbr). destruct Hsp as [Hsp1 Hsp2]. destruct sp as [|b sp]; [contradiction|]. inversion Hsp2 as [|? ? Hbb Hsp2']; subst.
      cbn [app]. rewrite (split_first (fst e) b (sp ++ v) Hw Hbb).
      assert (T : str_eqb (fst e) (chars "comment") || str_eqb (fst e) (chars "Creator") = false). { rewrite !eqb_false; [reflexivity| |]; intro X; apply Hc; rewrite X; simpl; auto. } rewrite T.
      assert (Hblank : forall p q, word isspace p -> p <> fst e ++ b :: q). { intros p q Hp' X. subst p. apply Forall_app in Hp'. destruct Hp' as [_ Hp']. inversion Hp' as [|? ? Y _]; subst. apply isspace_spec in Hbb. rewrite Hbb in Y. discriminate. }
      assert (I1 : isLevel (fst e ++ b :: sp ++ v) = false). { unfold isLevel. cbn [map existsb]. rewrite !eqb_false; [reflexivity| | |]; intro X; symmetry in X; refine (Hblank _ _ _ X); apply word_blank; repeat constructor; intro Y; apply isspace_spec in Y; discriminate. } rewrite I1.
      assert (I2 : isLevel (fst e) = false). { unfold isLevel. cbn [map existsb]. rewrite !eqb_false; [reflexivity| | |]; intro X; apply Hlev; rewrite X; simpl; auto. }
      assert (I3 : match fst e :: split_run isspace (sp ++ v) with [t; b0] => str_eqb b0 ["["%char] && isLevel t | _ => false end = false). { destruct (split_run isspace (sp ++ v)) as [|x [|y r]]; try reflexivity. rewrite I2. apply andb_false_r. } rewrite I3. cbn [orb].
      rewrite (eqb_false _ ["["%char]) by (intro X; symmetry in X; refine (Hblank _ _ _ X); apply word_blank; repeat constructor; intro Y; apply isspace_spec in Y; discriminate).
      rewrite (eqb_false _ ["]"%char]) by (intro X; symmetry in X; refine (Hblank _ _ _ X); apply word_blank; repeat constructor; intro Y; apply isspace_spec in Y; discriminate). reflexivity.
Qed.

(** ** Examples *)
Definition gl (s : string) : str := map (fun c => if Ascii.eqb c "'"%char then quote else c) (chars s).
Definition small_file : list str :=
  map gl ["Creator nobody"; "graph"; "["; "  directed 0"; "  node"; "  ["; "    id 10"; "    label 'A b'"; "    value 7"; "  ]"; "  node ["; "    id 2"; "    x 3"; "    label 'B'"; "  ]"; "  comment [";
          "  node ["; "    id n1"; "    weight 5"; "  ]"; "  edge ["; "    source 2"; "    target 10"; "    weight 23"; "  ]"; ""; "  edge ["; "    target n1"; "    source 10"; "  ]"; "]"]%string.
Definition simplices_of {A B} (r : outcome (complex * A * B)) : outcome (list (list nat * Z)) := let* x := r in Ok (map (fun s => (verts s, data s)) (by_index (fst (fst x)))).
Definition nodes_of {A B} (r : outcome (complex * A * B)) : outcome A := let* x := r in Ok (snd (fst x)).
Definition labels_of {A} (r : outcome (complex * list gnode * A)) : outcome (list str) := let* n := nodes_of r in gml_labels n (chars "label").
Definition file (l : list string) : str := text_of (map gl l) [].
Example C131_example :
  let r := readGML int_conv Z.max (text_of small_file []) in
  simplices_of r = Ok [([10], 7%Z); ([2], 0%Z); ([10; 2], 23%Z)] /\ labels_of r = Ok [chars "A b"; chars "B"; []] /\
  (let* n := nodes_of r in Ok (getNodeAttributeNames n, getNodeAttribute n (chars "x"))) =
    Ok ([chars "label"; chars "value"; chars "weight"; chars "x"], [(chars "10", []); (chars "2", chars "3"); (chars "n1", [])]) /\
  simplices_of (readGML int_conv Z.max (file ["graph ["; "node ["; "id b"; "weight 4"; "]"; "node ["; "id c"; "]"; "node ["; "id a"; "value 9"; "]"; "edge ["; "source a"; "target b"; "]"; "edge ["; "source c"; "target b"; "weight 2"; "]"; "]"]%string)) =
    Ok [([1], 4%Z); ([2], 0%Z); ([0], 9%Z); ([1; 0], 9%Z); ([2; 1], 2%Z)].
Proof. vm_compute. repeat split; reflexivity. Qed.
(** Two names of levels without a bracket between them are an error. *)
Theorem C131_levels : forall conv f remarks a b l1 l2 rest,
  (forall l, In l (remarks ++ l1 :: l2 :: rest) -> ~ In newline l) -> Forall remark remarks ->
  In a [chars "graph"; chars "node"; chars "edge"] -> In b [chars "graph"; chars "node"; chars "edge"] -> padded a l1 -> padded b l2 ->
  readGML conv f (text_of (remarks ++ l1 :: l2 :: rest) []) = Throw RuntimeError.
Proof.
  intros conv f remarks a b l1 l2 rest Hnl Hr Ha Hb H1 H2. unfold readGML, gml_parse. rewrite lines_text by exact Hnl.
  rewrite foldM_app, remarks_run by exact Hr. cbn [bind foldM]. unfold gml_line at 1. rewrite (padded_trim a l1 H1).
  destruct Ha as [<-|[<-|[<-|[]]]]; cbn -[trim foldM gml_line]; unfold gml_line at 1; rewrite (padded_trim b l2 H2);
    destruct Hb as [<-|[<-|[<-|[]]]]; reflexivity.
Qed.
Example C131_errors_example :
  readGML int_conv Z.max (file ["graph ["; "node ["; "id 1"; "]"; "node ["; "id 1"; "]"; "]"]%string) = Throw RuntimeError /\
  readGML int_conv Z.max (file ["comment here"; "Version 1"; "graph ["; "]"]%string) = Throw RuntimeError /\
  readGML int_conv Z.max (file [""; "graph ["; "]"]%string) = Throw RuntimeError /\
  readGML int_conv Z.max (file ["graph"; "node"]%string) = Throw RuntimeError.
Proof. vm_compute. repeat split; reflexivity. Qed.
Definition triangle_with (d : Z) : outcome complex :=
  k_of_range [simplex_of [1] 4; simplex_of [2] 5; simplex_of [3] 6; simplex_of [2; 1] d; simplex_of [3; 1] 8; simplex_of [3; 2] 9; simplex_of [3; 2; 1] 10].
Definition written_and_read (labels : list str) (withData : bool) (K : outcome complex) : outcome (list (list nat * Z) * list str) :=
  let* K := K in let* ls := writeGML print_Z labels withData K in
  let r := readGML int_conv Z.max (text_of ls []) in let* s := simplices_of r in let* l := labels_of r in Ok (s, l).
Example C131_write_example :
  written_and_read [gl "a"; gl "b c"; gl "d"] true (triangle_with 7) =
  Ok ([([1], 0%Z); ([2], 0%Z); ([3], 0%Z); ([2; 1], 7%Z); ([3; 1], 8%Z); ([3; 2], 9%Z)], [gl "a"; gl "b c"; gl "d"]) /\
  (let* K := k_of_range [simplex_of [1] 4; simplex_of [2] 5; simplex_of [2; 1] 6] in writeGML print_Z [] true K) =
  Ok (map gl ["graph ["; "  directed 0"; "  node ["; "    id 1"; "    data 4"; "  ]"; "  node ["; "    id 2"; "    data 5"; "  ]"; "";
              "  edge ["; "    source 2"; "    target 1"; "    weight 6"; "  ]"; ""; "]"]%string).
Proof. vm_compute. repeat split; reflexivity. Qed.

(** ** What does not hold *)
(** a negative weight does not match the expression of a value and is read as 0, hence it does not survive a round trip *)
Theorem C131_negative_refuted : exists K, triangle_with (-7) = Ok K /\ In (simplex_of [2; 1] (-7)) (by_index K) /\
  written_and_read [] false (Ok K) = Ok ([([1], 0%Z); ([2], 0%Z); ([3], 0%Z); ([2; 1], 0%Z); ([3; 1], 8%Z); ([3; 2], 9%Z)], [[]; []; []]).
Proof. destruct (triangle_with (-7)) as [K| | |] eqn:E; try discriminate E. exists K. split; [reflexivity|]. vm_compute in E. injection E as <-. vm_compute. split; [right; right; right; left; reflexivity|reflexivity]. Qed.
(** the data of vertices are not read, although they can be written *)
Theorem C131_vertex_data_refuted : exists K, triangle_with 7 = Ok K /\ In (simplex_of [1] 4) (by_index K) /\
  exists s l, written_and_read [] true (Ok K) = Ok (s, l) /\ In ([1], 0%Z) s /\ ~ In ([1], 4%Z) s.
Proof.
  destruct (triangle_with 7) as [K| | |] eqn:E; try discriminate E. exists K. split; [reflexivity|]. vm_compute in E. injection E as <-. split; [left; reflexivity|]. eexists. eexists. split; [vm_compute; reflexivity|]. split; [left; reflexivity|].
  intros X. do 6 (destruct X as [X|X]; [discriminate|]). destruct X.
Qed.
(** labels cannot be written for a complex with a vertex 0 *)
Theorem C131_vertex_zero_refuted show labels withData K s : labels <> [] -> hd_error (by_index K) = Some s -> verts s = [0] -> writeGML show labels withData K = Throw OutOfRange.
Proof.
  intros Hl Hs Ev. unfold writeGML. destruct (by_index K) as [|s' l]; [discriminate|]. injection Hs as ->. cbn [foldM]. unfold write_simplex at 1, s_dimension. rewrite Ev. cbn [length bind]. unfold write_node, s_nth. rewrite Ev. cbn [at_ nth_error bind]. destruct labels; [contradiction|]. reflexivity.
Qed.
(** a nested record that is not known closes the record around it, and the last bracket takes an element from an empty stack *)
Theorem C131_nested_refuted :
  readGML int_conv Z.max (file ["graph ["; "node ["; "id 1"; "graphics ["; "x 1"; "]"; "]"; "]"]%string) = UB.
Proof. vm_compute. reflexivity. Qed.
(** distinct identifiers may give the same vertex *)
Theorem C131_distinct_refuted :
  simplices_of (readGML int_conv Z.max (file ["graph ["; "node ["; "id 1"; "]"; "node ["; "id 1.5"; "]"; "]"]%string)) = Ok [([1], 0%Z)] /\
  simplices_of (readGML int_conv Z.max (file ["graph ["; "node ["; "id 1"; "]"; "node ["; "id a"; "]"; "]"]%string)) = Ok [([1], 0%Z)].
Proof. vm_compute. split; reflexivity. Qed.
(** the labels follow the order of the identifiers as text and not that of the vertices *)
Theorem C131_label_order_refuted :
  let r := readGML int_conv Z.max (file ["graph ["; "node ["; "id 2"; "label 'two'"; "]"; "node ["; "id 10"; "label 'ten'"; "]"; "]"]%string) in
  simplices_of r = Ok [([2], 0%Z); ([10], 0%Z)] /\ labels_of r = Ok [chars "ten"; chars "two"].
Proof. vm_compute. split; reflexivity. Qed.
(** an edge to an identifier that does not exist is accepted if it has a weight; it may lead to a vertex that is not in the complex *)
Theorem C131_unknown_refuted :
  simplices_of (readGML int_conv Z.max (file ["graph ["; "node ["; "id a"; "]"; "edge ["; "source a"; "target b"; "weight 2"; "]"; "]"]%string)) = Ok [([0], 0%Z); ([1; 0], 2%Z)].
Proof. vm_compute. reflexivity. Qed.

Print Assumptions C131_expressions.
Print Assumptions C131_read.
Print Assumptions C131_attributes.
Print Assumptions C131_labels.
Print Assumptions C131_roundtrip.
Print Assumptions C131_errors.
Print Assumptions C131_levels.
Print Assumptions C131_negative_refuted.
Print Assumptions C131_distinct_refuted.
