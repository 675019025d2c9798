(** * Triangulated surfaces in PLY files (C133) *)
From Coq Require Import String Ascii List Arith Bool NArith ZArith Lia Permutation Sorted.
From Verif Require Import Base BaseFacts SpecText LoadMatrix LoadFacts StringUtilities PropertiesString Simplex SimplexFacts SpecComplex Complex ComplexFacts ClosureFacts WeightFacts FiltrationFacts RipsFacts EnumerateFacts BarycentricFacts DiagramIO PropertiesJSON Pajek PropertiesPajek PropertiesSparseAdjacency Vtk PropertiesVtk Ply.
Import ListNotations.
Local Open Scope list_scope.
Local Open Scope nat_scope.

(** ** Words *)
Lemma tokens_blank a s : Forall SpecText.blank a -> tokens [] (a ++ s) = tokens [] s.
Proof. induction 1 as [|c a H F IH]; [reflexivity|]. cbn [app tokens]. rewrite (proj2 (isspace_spec c) H). exact IH. Qed.
Lemma tokens_visible t s cur : Forall visible t -> tokens cur (t ++ s) = tokens (cur ++ t) s.
Proof.
  intro F. revert cur. induction F as [|c t H F IH]; intro cur; [cbn [app]; rewrite app_nil_r; reflexivity|]. cbn [app tokens]. rewrite (visible_space c H), IH, <- app_assoc. reflexivity.
Qed.
Lemma words_tokens l ts : words l ts -> tokens [] l = ts.
Proof.
  induction 1 as [b Hb|a t s ts Ha [Ht1 Ht2] Hs W IH]; [rewrite <- (app_nil_r b), tokens_blank by exact Hb; reflexivity|].
  rewrite tokens_blank by exact Ha. rewrite tokens_visible by exact Ht2. cbn [app]. destruct s as [|c s]; cbn [tokens].
  - destruct t; [contradiction|]. cbn [tokens] in IH. subst. reflexivity.
  - assert (Hc : isspace c = true) by (apply isspace_spec; apply (Hs c s eq_refl)). rewrite Hc. cbn [tokens] in IH. rewrite Hc in IH. destruct t; [contradiction|]. rewrite IH. reflexivity.
Qed.
Lemma blank_visible c : SpecText.blank c \/ visible c.
Proof. destruct (isspace c) eqn:E; [left; apply isspace_spec; exact E|right; intro X; apply isspace_spec in X; congruence]. Qed.
Lemma tokens_words l : words l (tokens [] l).
Proof.
  enough (G : forall n l, length l <= n -> words l (tokens [] l)) by apply (G (length l) l (le_n _)). clear l. induction n as [|n IH]; intros l Hl; [destruct l; [constructor; constructor|cbn [length] in Hl; lia]|].
  destruct l as [|c l]; [constructor; constructor|]. cbn [length] in Hl. destruct (blank_visible c) as [Hc|Hc].
  - change (c :: l) with ([c] ++ l). rewrite tokens_blank by (constructor; [exact Hc|constructor]). specialize (IH l ltac:(lia)). destruct IH as [b Hb|a t s ts Ha Ht Hs W]; [constructor; constructor; assumption|]. change ([c] ++ a ++ t ++ s) with ((c :: a) ++ t ++ s). constructor; auto.
  - pose proof (span_spec (fun c => negb (isspace c)) visible (fun c => conj (fun E X => eq_ind true (fun b => if negb b then False else True) I false (eq_trans (eq_sym (proj2 (isspace_spec c) X)) (proj1 (negb_true_iff _) E))) (fun X => proj2 (negb_true_iff _) (visible_space c X))) (c :: l)) as S.
    destruct (span (fun c => negb (isspace c)) (c :: l)) as [t s]. destruct S as (E & Ht & Hs). rewrite E. rewrite tokens_visible by exact Ht. cbn [app].
    assert (Nt : t <> []). { intros ->. cbn [app] in E. apply (Hs c l (eq_sym E)). exact Hc. }
    assert (Et : tokens t s = t :: tokens [] s). { destruct s as [|d s]; cbn [tokens]; [destruct t; [contradiction|reflexivity]|]. destruct (blank_visible d) as [Hd|Hd]; [rewrite (proj2 (isspace_spec d) Hd); destruct t; [contradiction|reflexivity]|destruct (Hs d s eq_refl Hd)]. }
    rewrite Et. apply (words_word [] t s); [constructor|split; [exact Nt|exact Ht]| |].
    + intros d r ->. destruct (blank_visible d) as [Hd|Hd]; [exact Hd|destruct (Hs d r eq_refl Hd)].
    + apply IH. assert (L : length (c :: l) = length (t ++ s)) by (rewrite E; reflexivity). cbn [length] in L. rewrite app_length in L. destruct t; [contradiction|]. cbn [length] in L. lia.
Qed.
Lemma words_iff l ts : words l ts <-> tokens [] l = ts.
Proof. split; [apply words_tokens|intros <-; apply tokens_words]. Qed.
Lemma words_blank_r l b ts : words l ts -> Forall SpecText.blank b -> words (l ++ b) ts.
Proof.
  induction 1 as [b' Hb|a t s ts Ha Ht Hs W IH]; intro F; [constructor; apply Forall_app; auto|]. rewrite <- !app_assoc. constructor; auto. intros c r E. destruct s as [|d s]; [cbn [app] in E; subst; inversion F; assumption|]. injection E as <- _. apply (Hs d s eq_refl).
Qed.
Lemma words_trim l ts : words l ts <-> words (trim l) ts.
Proof.
  destruct (padded_of l) as (a & b & E & Ha & Hb & _). rewrite !words_iff. enough (X : tokens [] l = tokens [] (trim l)) by (rewrite X; reflexivity). rewrite E at 1. rewrite tokens_blank by exact Ha. apply words_tokens. apply words_blank_r; [apply tokens_words|exact Hb].
Qed.
(** the first word of a trimmed line *)
Lemma trim_first l t ts : words l (t :: ts) -> exists rest, trim l = t ++ rest /\ words rest ts /\ some visible t /\ (forall c r, rest = c :: r -> SpecText.blank c).
Proof.
  intro W. apply words_trim in W. destruct (padded_of l) as (_ & _ & _ & _ & _ & H1 & _). inversion W as [|a t' s ts' Ha Ht Hs W' E1 E2]; subst. exists s. refine (conj _ (conj W' (conj Ht Hs))). destruct a as [|c a]; [reflexivity|]. exfalso. inversion Ha; subst. apply (H1 c (a ++ t ++ s)); [symmetry; exact E1|assumption].
Qed.
Lemma ltrim_blank a s : Forall SpecText.blank a -> (forall c r, s = c :: r -> visible c) -> ltrim (a ++ s) = s.
Proof.
  induction 1 as [|c a H F IH]; intro Hs; cbn [app ltrim].
  - destruct s as [|c s]; [reflexivity|]. cbn [ltrim]. rewrite (visible_space c (Hs c s eq_refl)). reflexivity.
  - rewrite (proj2 (isspace_spec c) H). apply IH. exact Hs.
Qed.
Lemma read_word_words l t ts : words l (t :: ts) -> exists rest, read_word l = (t, rest) /\ words rest ts.
Proof.
  intro W. inversion W as [|a t' s ts' Ha [Ht1 Ht2] Hs W' E1 E2]; subst. exists s. split; [|exact W']. unfold read_word. rewrite ltrim_blank; [|exact Ha|intros c r E; destruct t; [contradiction|]; injection E as <- _; inversion Ht2; assumption].
  clear - Ht2 Hs. induction Ht2 as [|c t H F IH]; cbn [app].
  - destruct s as [|c s]; [reflexivity|]. cbn [span]. rewrite (proj2 (isspace_spec c) (Hs c s eq_refl)). reflexivity.
  - cbn [span]. rewrite (visible_space c H). cbn [negb]. rewrite IH. reflexivity.
Qed.
Lemma read_word_none l : words l [] -> read_word l = ([], []).
Proof. intro W. inversion W as [b Hb|]; subst. unfold read_word. rewrite <- (app_nil_r l), ltrim_blank by (auto; intros c r E; discriminate). reflexivity. Qed.
Lemma digit_sign c : a_digit c -> Ascii.eqb c "-" = false /\ Ascii.eqb c "+" = false.
Proof. intro H. split; apply Ascii.eqb_neq; intros ->; apply isdigit_spec in H; discriminate. Qed.
Lemma read_unsigned_words bits l t ts v : words l (t :: ts) -> numeral t v -> (v < 2 ^ bits)%N -> exists rest, read_unsigned bits l = Some (v, rest) /\ words rest ts.
Proof.
  intros W N L. inversion W as [|a t' s ts' Ha [Ht1 Ht2] Hs W' E1 E2]; subst. exists s. split; [|exact W']. unfold read_unsigned. rewrite ltrim_blank; [|exact Ha|intros c r E; destruct t; [contradiction|]; injection E as <- _; inversion Ht2; assumption].
  assert (D : Forall a_digit t) by (apply (numeral_a_digit t v N)). destruct (numeral_digits t v N) as (_ & _ & D3). specialize (D3 [] 0%N). rewrite app_nil_r in D3. cbn [digits] in D3. destruct t as [|c t]; [contradiction|]. cbn [app]. inversion D as [|? ? Dc _]; subst. destruct (digit_sign c Dc) as [-> ->].
  change (c :: t ++ s) with ((c :: t) ++ s). rewrite (span_app isdigit a_digit isdigit_spec (c :: t) s D) by (intros d r E X; exact (space_not_digit d (Hs d r E) X)). rewrite D3. replace (0 * 10 ^ N.of_nat (length (c :: t)) + v)%N with v by lia. rewrite (proj2 (N.ltb_lt _ _) L). reflexivity.
Qed.

(** ** Specification: header *)
(** types of properties *)
Definition ply_types : list string := ["double"; "float"; "int"; "int32"; "uint"; "uint32"; "short"; "ushort"; "char"; "uchar"; "uint8"]%string.
Inductive entry := Vertices (n : N) | Faces (n : N) | Property (name : str) | List (name : str) | Comment.
Inductive entry_line : entry -> str -> Prop :=
| line_vertices t n l : words l [chars "element"; chars "vertex"; t] -> numeral t n -> (n < 2 ^ 64)%N -> entry_line (Vertices n) l
| line_faces t n l : words l [chars "element"; chars "face"; t] -> numeral t n -> (n < 2 ^ 64)%N -> entry_line (Faces n) l
| line_property t name l : words l [chars "property"; chars t; name] -> In t ply_types -> entry_line (Property name) l
| line_list t u name l : words l [chars "property"; chars "list"; chars t; chars u; name] -> In t ply_types -> In u ply_types -> entry_line (List name) l
| line_comment rest l : padded (chars "comment" ++ rest) l -> entry_line Comment l.
Definition is_comment (e : entry) : bool := match e with Comment => true | _ => false end.
Definition property_names (es : list entry) : list str := flat_map (fun e => match e with Property n | List n => [n] | _ => [] end) es.
(** magic number, format, and the declarations of vertices with their properties, and of faces, with comments in between *)
Definition ply_header (n m : N) (names more : list str) (lines : list str) : Prop :=
  exists l1 l2 es ls le, lines = l1 :: l2 :: ls ++ [le] /\ padded (chars "ply") l1 /\ (exists b, some SpecText.blank b /\ padded (chars "format" ++ b ++ chars "ascii 1.0") l2) /\ padded (chars "end_header") le /\
    Forall2 entry_line es ls /\ exists tail, filter (fun e => negb (is_comment e)) es = Vertices n :: map Property names ++ Faces m :: tail /\ (forall e, In e tail -> exists name, e = Property name \/ e = List name) /\ more = property_names tail.

(** ** Header *)
Lemma ply_type t : In t ply_types -> exists k, type_bytes (chars t) = Ok k /\ str_eqb (chars t) (chars "list") = false.
Proof. unfold ply_types. simpl. intro H. do 11 (destruct H as [<-|H]; [eexists; split; reflexivity|]). destruct H. Qed.
Definition scalar (p : descriptor) : bool := match pd_list p with None => true | Some _ => false end.
Definition apply_entry (e : entry) (h : header) (h' : header) : Prop :=
  h_vertices h' = match e with Vertices n => n | _ => h_vertices h end /\ h_faces h' = match e with Faces n => n | _ => h_faces h end /\
  map pd_name (h_properties h') = map pd_name (h_properties h) ++ property_names [e] /\
  existsb scalar (h_properties h') = existsb scalar (h_properties h) || match e with Property _ => true | _ => false end.
Lemma word_some t : some visible t -> match t with [] => False | _ => True end.
Proof. intros [H _]. destruct t; [contradiction|exact I]. Qed.
Lemma words_head l t ts : words l (t :: ts) -> some visible t.
Proof. intro W. inversion W; assumption. Qed.
Lemma header_step e l lines h : entry_line e l -> exists h', parse_header (l :: lines) h = parse_header lines h' /\ apply_entry e h h'.
Proof.
  intros [t n l' W Nt Lt|t n l' W Nt Lt|t name l' W Ht|t u name l' W Ht Hu|rest l' P]; cbn [parse_header].
  - destruct (trim_first _ _ _ W) as (rest & -> & W1 & _). apply words_trim in W1. destruct (read_word_words _ _ _ W1) as (r1 & E1 & W2). destruct (read_unsigned_words 64 _ _ _ _ W2 Nt Lt) as (r2 & E2 & _).
    exists (Header n (h_faces h) (h_properties h) (h_offset h)). split; [|refine (conj eq_refl (conj eq_refl (conj _ _))); cbn [h_properties property_names flat_map]; [rewrite app_nil_r; reflexivity|rewrite orb_false_r; reflexivity]].
    change (starts "comment" (chars "element" ++ rest)) with false. change (starts "element" (chars "element" ++ rest)) with true. cbv iota. unfold parse_element. change (skipn 7 (chars "element" ++ rest)) with rest. rewrite E1, E2. reflexivity.
  - destruct (trim_first _ _ _ W) as (rest & -> & W1 & _). apply words_trim in W1. destruct (read_word_words _ _ _ W1) as (r1 & E1 & W2). destruct (read_unsigned_words 64 _ _ _ _ W2 Nt Lt) as (r2 & E2 & _).
    exists (Header (h_vertices h) n (h_properties h) (h_offset h)). split; [|refine (conj eq_refl (conj eq_refl (conj _ _))); cbn [h_properties property_names flat_map]; [rewrite app_nil_r; reflexivity|rewrite orb_false_r; reflexivity]].
    change (starts "comment" (chars "element" ++ rest)) with false. change (starts "element" (chars "element" ++ rest)) with true. cbv iota. unfold parse_element. change (skipn 7 (chars "element" ++ rest)) with rest. rewrite E1, E2. reflexivity.
  - destruct (trim_first _ _ _ W) as (rest & -> & W1 & _). apply words_trim in W1. destruct (read_word_words _ _ _ W1) as (r1 & E1 & W2). destruct (read_word_words _ _ _ W2) as (r2 & E2 & _). pose proof (word_some _ (words_head _ _ _ W2)) as Hname.
    destruct (ply_type t Ht) as (k & Ek & El). exists (Header (h_vertices h) (h_faces h) (h_properties h ++ [Descriptor name (Some k) (Some (h_offset h)) None]) (plus (h_offset h) (Some k))). split; [|refine (conj eq_refl (conj eq_refl (conj _ _))); cbn [h_properties property_names flat_map]; [rewrite map_app; reflexivity|rewrite existsb_app; reflexivity]].
    change (starts "comment" (chars "property" ++ rest)) with false. change (starts "element" (chars "property" ++ rest)) with false. change (starts "property" (chars "property" ++ rest)) with true. cbv iota. unfold parse_property. change (skipn 8 (chars "property" ++ rest)) with rest. rewrite E1, E2, El, Ek. cbn [bind pd_name pd_bytes]. destruct name; [destruct Hname|]. reflexivity.
  - destruct (trim_first _ _ _ W) as (rest & -> & W1 & _). apply words_trim in W1. destruct (read_word_words _ _ _ W1) as (r1 & E1 & W2). destruct (read_word_words _ _ _ W2) as (r2 & E2 & W3). destruct (read_word_words _ _ _ W3) as (r3 & E3 & W4). destruct (read_word_words _ _ _ W4) as (r4 & E4 & _). pose proof (word_some _ (words_head _ _ _ W4)) as Hname.
    destruct (ply_type t Ht) as (k & Ek & _). destruct (ply_type u Hu) as (k' & Ek' & _). exists (Header (h_vertices h) (h_faces h) (h_properties h ++ [Descriptor name None None (Some (k, k'))]) (plus (h_offset h) None)). split; [|refine (conj eq_refl (conj eq_refl (conj _ _))); cbn [h_properties property_names flat_map]; [rewrite map_app; reflexivity|rewrite existsb_app; reflexivity]].
    change (starts "comment" (chars "property" ++ rest)) with false. change (starts "element" (chars "property" ++ rest)) with false. change (starts "property" (chars "property" ++ rest)) with true. cbv iota. unfold parse_property. change (skipn 8 (chars "property" ++ rest)) with rest. rewrite E1, E2, str_eqb_refl, E3, E4, Ek. cbn [bind]. rewrite Ek'. cbn [bind pd_name pd_bytes]. destruct name; [destruct Hname|]. reflexivity.
  - exists h. rewrite (padded_trim _ _ P). split; [reflexivity|]. refine (conj eq_refl (conj eq_refl (conj _ _))); cbn [property_names flat_map]; [rewrite app_nil_r; reflexivity|rewrite orb_false_r; reflexivity].
Qed.
Definition last_vertices (es : list entry) (n : N) : N := fold_left (fun n e => match e with Vertices k => k | _ => n end) es n.
Definition last_faces (es : list entry) (n : N) : N := fold_left (fun n e => match e with Faces k => k | _ => n end) es n.
Lemma entries_run es ls rest : Forall2 entry_line es ls -> forall h, exists h', parse_header (ls ++ rest) h = parse_header rest h' /\
  h_vertices h' = last_vertices es (h_vertices h) /\ h_faces h' = last_faces es (h_faces h) /\ map pd_name (h_properties h') = map pd_name (h_properties h) ++ property_names es.
Proof.
  induction 1 as [|e l es ls H F IH]; intro h; cbn [app].
  - exists h. refine (conj eq_refl (conj eq_refl (conj eq_refl _))). cbn [property_names flat_map]. rewrite app_nil_r. reflexivity.
  - destruct (header_step e l (ls ++ rest) h H) as (h1 & E1 & A1 & A2 & A3 & _). destruct (IH h1) as (h2 & E2 & B1 & B2 & B3). exists h2. rewrite E1, E2. refine (conj eq_refl (conj _ (conj _ _))).
    + rewrite B1, A1. reflexivity.
    + rewrite B2, A2. reflexivity.
    + rewrite B3, A3, <- app_assoc. f_equal. unfold property_names. cbn [flat_map]. rewrite app_nil_r. reflexivity.
Qed.
Lemma filter_fold {A} (g : A -> entry -> A) es : (forall a, g a Comment = a) -> forall a, fold_left g (filter (fun e => negb (is_comment e)) es) a = fold_left g es a.
Proof. intro H. induction es as [|e es IH]; intro a; [reflexivity|]. cbn [filter]. destruct e; cbn [is_comment negb fold_left]; try apply IH. rewrite H. apply IH. Qed.
Lemma filter_names es : property_names (filter (fun e => negb (is_comment e)) es) = property_names es.
Proof. induction es as [|e es IH]; [reflexivity|]. cbn [filter]. destruct e; cbn [is_comment negb property_names flat_map]; unfold property_names in IH; rewrite ?IH; reflexivity. Qed.
Lemma fold_idle {A} (g : A -> entry -> A) es a : (forall e, In e es -> forall a, g a e = a) -> fold_left g es a = a.
Proof. induction es as [|e es IH]; intro H; [reflexivity|]. cbn [fold_left]. rewrite H by (left; reflexivity). apply IH. intros x Hx. apply H. right. exact Hx. Qed.
Lemma names_map names : property_names (map Property names) = names.
Proof. induction names as [|a l IH]; [reflexivity|]. cbn [map property_names flat_map]. unfold property_names in IH. rewrite IH. reflexivity. Qed.
Lemma end_run le rest h : padded (chars "end_header") le -> parse_header (le :: rest) h = Ok (h, rest).
Proof. intro H. cbn [parse_header]. rewrite (padded_trim _ _ H). reflexivity. Qed.
Lemma header_run n m names more l1 l2 ls le rest : ply_header n m names more (l1 :: l2 :: ls ++ [le]) ->
  exists h, parse_header ((ls ++ [le]) ++ rest) (Header 0 0 [] (Some 0)) = Ok (h, rest) /\ h_vertices h = n /\ h_faces h = m /\ map pd_name (h_properties h) = names ++ more /\
    trim l1 = chars "ply" /\ starts "format" (trim l2) = true /\ trim (skipn 6 (trim l2)) = chars "ascii 1.0".
Proof.
  intros (l1' & l2' & es & ls' & le' & E & H1 & (b & Hb & H2) & He & F & tail & Ef & Ht & ->). injection E as <- <- E. apply app_inj_tail in E. destruct E as [<- <-].
  destruct (entries_run es ls (le :: rest) F (Header 0 0 [] (Some 0))) as (h & Eh & A1 & A2 & A3). exists h. rewrite <- app_assoc. cbn [app]. rewrite Eh, (end_run _ _ _ He). refine (conj eq_refl (conj _ (conj _ (conj _ (conj (padded_trim _ _ H1) _))))).
  - rewrite A1. unfold last_vertices. rewrite <- (filter_fold (fun n e => match e with Vertices k => k | _ => n end)) by reflexivity. rewrite Ef. cbn [fold_left h_vertices]. rewrite fold_left_app. cbn [fold_left].
    rewrite (fold_idle _ tail); [|intros e X a; destruct (Ht e X) as (name & [->| ->]); reflexivity]. apply fold_idle. intros e X a. apply in_map_iff in X. destruct X as (x & <- & _). reflexivity.
  - rewrite A2. unfold last_faces. rewrite <- (filter_fold (fun n e => match e with Faces k => k | _ => n end)) by reflexivity. rewrite Ef. cbn [fold_left h_vertices]. rewrite fold_left_app. cbn [fold_left].
    apply fold_idle. intros e X a; destruct (Ht e X) as (name & [->| ->]); reflexivity.
  - rewrite A3, <- filter_names, Ef. cbn [h_properties map app property_names flat_map]. change (property_names (map Property names ++ Faces m :: tail) = names ++ property_names tail). unfold property_names at 1. rewrite flat_map_app. cbn [flat_map app]. change (property_names (map Property names) ++ property_names tail = names ++ property_names tail). rewrite names_map. reflexivity.
  - rewrite (padded_trim _ _ H2). split; [reflexivity|]. change (skipn 6 (chars "format" ++ b ++ chars "ascii 1.0")) with (b ++ chars "ascii 1.0"). apply padded_trim. exists b, []. rewrite app_nil_r. refine (conj eq_refl (conj (proj2 Hb) (conj (Forall_nil _) (conj _ _)))).
    + intros c t X Y. injection X as <- _. apply isspace_spec in Y. discriminate.
    + intros c t X Y. change (chars "ascii 1.0") with (chars "ascii 1." ++ ["0"%char]) in X. apply app_inj_tail in X. destruct X as [_ <-]. apply isspace_spec in Y. discriminate.
Qed.

(** ** Specification: vertices and faces *)
Section Rows.
Variable conv : str -> Z.
Variable stod : str -> outcome Z.
Variable property : str.
(** a value for each property of vertices; the data are the value of the chosen property, or 0 if there is none *)
Definition vertex_row (names more : list str) (w : Z) (l : str) : Prop :=
  exists ts, words l ts /\ length ts = length names /\
    (forall p, In p ["x"; "y"; "z"]%string -> exists k t v, nth_error names k = Some (chars p) /\ nth_error ts k = Some t /\ stod t = Ok v) /\
    ((property <> [] /\ exists k t, nth_error names k = Some property /\ nth_error ts k = Some t /\ w = conv t) \/
     ((property = [] \/ ~ In property (names ++ more)) /\ w = 0%Z)).
Definition face_row (T : nat * nat * nat) (l : str) : Prop :=
  let '(a, b, c) := T in exists t ta tb tc ts, words l (t :: ta :: tb :: tc :: ts) /\ numeral t 3 /\
    numeral ta (N.of_nat a) /\ numeral tb (N.of_nat b) /\ numeral tc (N.of_nat c) /\ (N.of_nat a < 2 ^ 32)%N /\ (N.of_nat b < 2 ^ 32)%N /\ (N.of_nat c < 2 ^ 32)%N.

Lemma property_index_found k names more ps : map pd_name ps = names ++ more -> NoDup names -> forall i j, nth_error names j = Some k -> property_index i k ps = Some (i + j).
Proof.
  revert names. induction ps as [|p ps IH]; intros names E N i j Hj; [destruct names; [destruct j; discriminate|discriminate]|].
  destruct names as [|x names]; [destruct j; discriminate|]. cbn [map app] in E. injection E as Ex E. cbn [property_index]. destruct j as [|j]; cbn [nth_error] in Hj.
  - injection Hj as ->. rewrite Ex, str_eqb_refl. f_equal. lia.
  - destruct (str_eqb (pd_name p) k) eqn:Ek.
    + exfalso. apply str_eqb_spec in Ek. inversion N as [|? ? N1 N2]; subst. apply N1. apply nth_error_In in Hj. exact Hj.
    + inversion N as [|? ? N1 N2]; subst. rewrite (IH names E N2 (S i) j Hj). f_equal. lia.
Qed.
Lemma property_index_none k ps i : ~ In k (map pd_name ps) -> property_index i k ps = None.
Proof.
  revert i. induction ps as [|p ps IH]; intros i H; [reflexivity|]. cbn [property_index]. destruct (str_eqb (pd_name p) k) eqn:E; [exfalso; apply H; left; apply str_eqb_spec; exact E|]. apply IH. intro X. apply H. right. exact X.
Qed.
Lemma vertex_step ends ps names more w l lines line coords simplices index : map pd_name ps = names ++ more -> NoDup names -> vertex_row names more w l ->
  exists line' coords', parse_vertex conv stod property ends ps (l :: lines, line, coords, simplices) index = Ok (lines, line', coords', simplices ++ [simplex_vertex index w]).
Proof.
  intros Ep Hn (ts & W & Hl & Hc & Hw). unfold parse_vertex. cbn [next_line].
  destruct (Hc "x"%string) as (kx & tx & vx & X1 & X2 & X3); [simpl; auto|]. destruct (Hc "y"%string) as (ky & ty & vy & Y1 & Y2 & Y3); [simpl; auto|]. destruct (Hc "z"%string) as (kz & tz & vz & Z1 & Z2 & Z3); [simpl; auto|].
  assert (Nts : ts <> []) by (intros ->; destruct kx; discriminate). rewrite (words_split _ _ W Nts).
  rewrite (property_index_found _ _ _ _ Ep Hn 0 _ X1), (property_index_found _ _ _ _ Ep Hn 0 _ Y1), (property_index_found _ _ _ _ Ep Hn 0 _ Z1). cbn [token_at Nat.add]. unfold at_. rewrite X2, Y2, Z2. cbn [bind]. rewrite X3. cbn [bind]. rewrite Y3. cbn [bind]. rewrite Z3. cbn [bind].
  destruct Hw as [(Np & k & t & K1 & K2 & ->)|([->|Np] & ->)].
  - rewrite (property_index_found _ _ _ _ Ep Hn 0 _ K1). cbn [Nat.add]. rewrite K2. destruct property; [contradiction|]. cbn [bind]. eauto.
  - cbn [bind]. eauto.
  - rewrite (property_index_none property ps 0) by (rewrite Ep; exact Np). destruct property; cbn [bind]; eauto.
Qed.
Lemma vertices_run ends ps names more : map pd_name ps = names ++ more -> NoDup names -> forall ws ls, Forall2 (vertex_row names more) ws ls -> forall i lines line coords simplices,
  exists line' coords', foldM (parse_vertex conv stod property ends ps) (seq i (length ws)) (ls ++ lines, line, coords, simplices) =
    Ok (lines, line', coords', simplices ++ map (fun p => simplex_vertex (fst p) (snd p)) (combine (seq i (length ws)) ws)).
Proof.
  intros Ep Hn ws ls F. induction F as [|w l ws ls H F IH]; intros i lines line coords simplices; cbn [length seq foldM app combine map].
  - rewrite app_nil_r. eauto.
  - destruct (vertex_step ends ps names more w l (ls ++ lines) line coords simplices i Ep Hn H) as (line1 & coords1 & ->). cbn [bind]. destruct (IH (S i) lines line1 coords1 (simplices ++ [simplex_vertex i w])) as (line2 & coords2 & ->). cbn [fst snd]. rewrite <- app_assoc. eauto.
Qed.
End Rows.

(** ** Complexes with repetitions *)
Lemma of_range_functional l : (forall s, In s l -> good s) -> (forall s t, In s l -> In t l -> verts s = verts t -> s = t) ->
  exists K, k_of_range l = Ok K /\ kwf K /\ forall s, In s (by_index K) <-> In s l.
Proof.
  intros Hg Hf. assert (G : forall l K, kwf K -> (forall s, In s l -> good s) -> (forall s t, In s (by_index K ++ l) -> In t (by_index K ++ l) -> verts s = verts t -> s = t) ->
     exists K', k_insert K l = (K', Ok tt) /\ kwf K' /\ forall s, In s (by_index K') <-> In s (by_index K ++ l)).
  { clear. induction l as [|s l IH]; intros K HK Hg Hf; cbn [k_insert].
    - exists K. rewrite app_nil_r. refine (conj eq_refl (conj HK (fun s => iff_refl _))).
    - destruct (k_contains K s) eqn:Ec.
      + rewrite push_back_dup by exact Ec. destruct (IH K HK) as (K' & E & H1 & H2).
        * intros t Ht. apply Hg. right. exact Ht.
        * intros x y Hx Hy. apply Hf; rewrite in_app_iff in *; simpl; tauto.
        * exists K'. refine (conj E (conj H1 _)). intro t. rewrite H2, !in_app_iff. cbn [In]. split; [tauto|]. intros [X|[<-|X]]; auto.
          left. apply contains_In in Ec. apply in_map_iff in Ec. destruct Ec as (y & Ey & Hy). replace s with y; [exact Hy|]. apply Hf; [apply in_or_app; left; exact Hy|apply in_or_app; right; left; reflexivity|exact Ey].
      + destruct (push_back_new K s HK (Hg s (or_introl eq_refl)) Ec) as [-> HK']. destruct (IH _ HK') as (K' & E & H1 & H2).
        * intros t Ht. apply Hg. right. exact Ht.
        * cbn [by_index]. rewrite <- app_assoc. exact Hf.
        * exists K'. refine (conj E (conj H1 _)). intro t. rewrite H2. cbn [by_index]. rewrite <- app_assoc. reflexivity. }
  destruct (G l k_empty empty_kwf Hg Hf) as (K & E & H1 & H2). exists K. unfold k_of_range. rewrite E. auto.
Qed.

(** ** Faces *)
Definition tri (T : nat * nat * nat) : list nat := let '(a, b, c) := T in [a; b; c].
Definition proper (n : nat) (T : nat * nat * nat) : Prop := NoDup (tri T) /\ forall v, In v (tri T) -> v < n.
Definition known (edges : list (nat * nat)) (acc : list simplex) : Prop := forall u v, In (u, v) edges <-> In (Simplex [u; v] 0) acc.
Lemma simplex_ext s t : verts s = verts t -> data s = data t -> s = t.
Proof. destruct s, t. cbn. intros -> ->. reflexivity. Qed.
Lemma edges_step V fs : (forall f, In f fs -> wf f /\ length (verts f) = 2) -> forall edges acc, known edges acc ->
  exists edges' acc', foldM parse_edge fs (edges, V ++ acc) = Ok (edges', V ++ acc') /\ known edges' acc' /\ forall s, In s acc' <-> In s acc \/ exists f, In f fs /\ s = Simplex (verts f) 0.
Proof.
  induction fs as [|f fs IH]; intros Hf edges acc Hk; cbn [foldM].
  - exists edges, acc. refine (conj eq_refl (conj Hk _)). intro s. split; [auto|]. intros [X|(f & [] & _)]. exact X.
  - destruct (Hf f (or_introl eq_refl)) as [Wf Lf]. assert (Hid : verts (simplex_of (verts f) 0) = verts f) by (apply simplex_of_id; exact Wf).
    destruct (verts f) as [|u [|v [|? ?]]] eqn:Ev; cbn [length] in Lf; try lia. assert (L : v < u) by (unfold wf in Wf; rewrite Ev in Wf; inversion Wf as [|? ? _ F]; subst; inversion F; assumption).
    assert (Hs : simplex_of [u; v] 0 = Simplex [u; v] 0) by (apply simplex_ext; [exact Hid|reflexivity]).
    unfold parse_edge at 1. rewrite Ev. cbn [get_ nth_error bind]. rewrite (proj2 (Nat.ltb_ge u v)) by lia. cbn [fst snd].
    destruct (existsb (fun q => (fst q =? u) && (snd q =? v)) edges) eqn:Ex; cbn [bind].
    + apply existsb_exists in Ex. destruct Ex as ([x y] & Hx & E). cbn [fst snd] in E. apply andb_true_iff in E. destruct E as [E1 E2]. apply Nat.eqb_eq in E1, E2. subst x y. apply Hk in Hx.
      destruct (IH (fun g Hg => Hf g (or_intror Hg)) edges acc Hk) as (edges' & acc' & -> & Hk' & HI). exists edges', acc'. refine (conj eq_refl (conj Hk' _)). intro s. rewrite HI. split.
      * intros [X|(g & Hg & ->)]; [auto|]. right. exists g. auto using in_cons.
      * intros [X|(g & [<-|Hg] & ->)]; [auto|left; rewrite Ev; exact Hx|right; eauto].
    + rewrite Hs, <- app_assoc. destruct (IH (fun g Hg => Hf g (or_intror Hg)) ((u, v) :: edges) (acc ++ [Simplex [u; v] 0])) as (edges' & acc' & -> & Hk' & HI).
      * intros x y. rewrite in_app_iff. cbn [In]. rewrite (Hk x y). split; [intros [E|E]; [injection E as <- <-|]; auto|intros [E|[E|[]]]; [auto|injection E as <- <-; auto]].
      * exists edges', acc'. refine (conj eq_refl (conj Hk' _)). intro s. rewrite HI, in_app_iff. cbn [In]. split.
        -- intros [[X|[<-|[]]]|(g & Hg & ->)]; [auto|right; exists f; rewrite Ev; auto|right; exists g; auto].
        -- intros [X|(g & [<-|Hg] & ->)]; [auto|rewrite Ev; auto|right; eauto].
Qed.
(** the simplices of the faces that have been read *)
Definition faces_read (ts : list (nat * nat * nat)) (acc : list simplex) : Prop :=
  forall s, In s acc <-> data s = 0%Z /\ wf s /\ 2 <= length (verts s) /\ exists T, In T ts /\ subset (verts s) (tri T).
Lemma wf_NoDup s : wf s -> NoDup (verts s).
Proof. unfold wf. induction 1 as [|a l H IH F]; constructor; [|exact IH]. intro X. rewrite Forall_forall in F. specialize (F a X). lia. Qed.
Lemma triangle_length T d : NoDup (tri T) -> length (verts (simplex_of (tri T) d)) = 3.
Proof.
  intro N. replace 3 with (length (tri T)) by (destruct T as [[a b] c]; reflexivity). apply Nat.le_antisymm; apply NoDup_incl_length.
  - apply wf_NoDup. apply simplex_of_wf.
  - intros v Hv. apply simplex_of_In in Hv. exact Hv.
  - exact N.
  - intros v Hv. apply simplex_of_In. exact Hv.
Qed.
Lemma triangle_faces T s : NoDup (tri T) -> wf s -> data s = 0%Z -> (2 <= length (verts s) /\ subset (verts s) (tri T) <-> s = simplex_of (tri T) 0 \/ exists f, In f (boundary (simplex_of (tri T) 0)) /\ s = Simplex (verts f) 0).
Proof.
  intros N W D. set (t := simplex_of (tri T) 0). assert (Wt : wf t) by apply simplex_of_wf. assert (Lt : length (verts t) = 3) by (apply triangle_length; exact N). assert (It : forall v, In v (verts t) <-> In v (tri T)) by (intro v; apply simplex_of_In). split.
  - intros [L S]. assert (S' : incl (verts s) (verts t)) by (intros v Hv; apply It; apply S; exact Hv). assert (Ls : length (verts s) <= 3) by (rewrite <- Lt; apply NoDup_incl_length; [apply wf_NoDup; exact W|exact S']).
    destruct (Nat.eq_dec (length (verts s)) 3) as [E|E].
    + left. apply simplex_ext; [|exact D]. apply wf_ext; [exact W|exact Wt|]. intro v. split; [apply S'|]. apply (NoDup_length_incl (wf_NoDup s W)); [lia|exact S'].
    + right. assert (X : In (verts s) (map verts (boundary t))).
      { apply (in_boundary_iff_set t s Wt W); [unfold s_size; lia|]. assert (M : exists v, In v (verts t) /\ ~ In v (verts s)).
        { destruct (Forall_Exists_dec (fun v => In v (verts s)) (fun v => in_dec Nat.eq_dec v (verts s)) (verts t)) as [F|F].
          - exfalso. rewrite Forall_forall in F. pose proof (NoDup_incl_length (wf_NoDup t Wt) F). lia.
          - apply Exists_exists in F. exact F. }
        destruct M as (v & Hv & Nv). exists v. split; [exact Hv|]. intro u. split; [intro Hu; split; [apply S'; exact Hu|intros ->; contradiction]|]. intros [Hu Nu]. destruct (in_dec Nat.eq_dec u (verts s)) as [X|X]; [exact X|exfalso].
        assert (I : incl (u :: v :: verts s) (verts t)) by (intros x [<-|[<-|Hx]]; auto). assert (ND : NoDup (u :: v :: verts s)) by (constructor; [intros [Y|Y]; [congruence|contradiction]|constructor; [exact Nv|apply wf_NoDup; exact W]]). pose proof (NoDup_incl_length ND I) as Y. cbn [length] in Y. lia. }
      apply in_map_iff in X. destruct X as (f & Ef & Hf). exists f. split; [exact Hf|]. apply simplex_ext; [symmetry; exact Ef|exact D].
  - intros [->|(f & Hf & ->)].
    + split; [lia|]. intros v Hv. apply It. exact Hv.
    + cbn [verts]. pose proof (boundary_size t f Wt Hf) as X. unfold s_size in X. split; [lia|]. intros v Hv. apply It. apply (boundary_incl t f v Hf Hv).
Qed.
Lemma face_step ends ts T l lines line V edges acc : face_row T l -> NoDup (tri T) -> known edges acc -> faces_read ts acc ->
  forall i, exists line' edges' acc', parse_face ends (l :: lines, line, edges, V ++ acc) i = Ok (lines, line', edges', V ++ acc') /\ known edges' acc' /\ faces_read (ts ++ [T]) acc'.
Proof.
  intros H N Hk Hr i. unfold parse_face. cbn [next_line]. destruct T as [[a b] c]. destruct H as (t & ta & tb & tc & more & W & N3 & Na & Nb & Nc & La & Lb & Lc).
  destruct (read_unsigned_words 32 _ _ _ _ W N3 ltac:(reflexivity)) as (r0 & E0 & W0). destruct (read_unsigned_words 32 _ _ _ _ W0 Na La) as (r1 & E1 & W1). destruct (read_unsigned_words 32 _ _ _ _ W1 Nb Lb) as (r2 & E2 & W2). destruct (read_unsigned_words 32 _ _ _ _ W2 Nc Lc) as (r3 & E3 & _).
  rewrite E0. change (N.eqb 3 3) with true. cbv iota. rewrite E1, E2, E3. cbn [map]. rewrite !Nat2N.id. set (T := (a, b, c)) in *. change [a; b; c] with (tri T). set (s := simplex_of (tri T) 0).
  destruct (edges_step V (boundary s)) with (edges := edges) (acc := acc) as (edges' & acc' & E & Hk' & HI).
  - intros f Hf. split; [apply (boundary_wf s f Hf)|]. pose proof (boundary_size s f (simplex_of_wf _ _) Hf) as X. unfold s_size in X. pose proof (triangle_length T 0 N) as Y. fold s in Y. lia.
  - exact Hk.
  - rewrite E. cbn [bind fst snd]. exists l, edges', (acc' ++ [s]). rewrite <- app_assoc. refine (conj eq_refl (conj _ _)).
    + intros u v. rewrite in_app_iff. rewrite (Hk' u v). split; [auto|]. intros [X|[X|[]]]; [exact X|]. exfalso. pose proof (triangle_length T 0 N) as L. fold s in L. rewrite X in L. discriminate.
    + intro x. rewrite in_app_iff, HI. cbn [In]. rewrite (Hr x). split.
      * intros [[(D & Wx & L & T' & HT & S)|(f & Hf & ->)]|[<-|[]]].
        -- refine (conj D (conj Wx (conj L _))). exists T'. split; [apply in_or_app; left; exact HT|exact S].
        -- assert (Wf : wf (Simplex (verts f) 0)) by (apply (boundary_wf s f Hf)). destruct (proj2 (triangle_faces T (Simplex (verts f) 0) N Wf eq_refl)) as [L S]; [right; eauto|]. refine (conj eq_refl (conj Wf (conj L _))). exists T. split; [apply in_or_app; right; left; reflexivity|exact S].
        -- assert (Ws : wf s) by apply simplex_of_wf. destruct (proj2 (triangle_faces T s N Ws eq_refl)) as [L S]; [left; reflexivity|]. refine (conj eq_refl (conj Ws (conj L _))). exists T. split; [apply in_or_app; right; left; reflexivity|exact S].
      * intros (D & Wx & L & T' & HT & S). apply in_app_or in HT. destruct HT as [HT|[<-|[]]]; [left; left; refine (conj D (conj Wx (conj L (ex_intro _ T' (conj HT S)))))|]. destruct (proj1 (triangle_faces T x N Wx D) (conj L S)) as [X|X]; [right; left; symmetry; exact X|left; right; exact X].
Qed.
Lemma faces_run ends V : forall ts ls, Forall2 face_row ts ls -> Forall (fun T => NoDup (tri T)) ts -> forall done i lines line edges acc, known edges acc -> faces_read done acc ->
  exists line' edges' acc', foldM (parse_face ends) (seq i (length ts)) (ls ++ lines, line, edges, V ++ acc) = Ok (lines, line', edges', V ++ acc') /\ faces_read (done ++ ts) acc'.
Proof.
  intros ts ls F. induction F as [|T l ts ls H F IH]; intros N done i lines line edges acc Hk Hr; cbn [length seq foldM app].
  - exists line, edges, acc. rewrite app_nil_r. auto.
  - inversion N as [|? ? N1 N2]; subst. destruct (face_step ends done T l (ls ++ lines) line V edges acc H N1 Hk Hr i) as (line1 & edges1 & acc1 & -> & Hk1 & Hr1). cbn [bind]. destruct (IH N2 (done ++ [T]) (S i) lines line1 edges1 acc1 Hk1 Hr1) as (line2 & edges2 & acc2 & E2 & Hr2). exists line2, edges2, acc2. split; [exact E2|]. rewrite <- app_assoc in Hr2. exact Hr2.
Qed.

(** ** Specification: meshes *)
(** vertices, faces and their edges, with the maximum of the values of vertices as data, ordered by data and dimension *)
Definition mesh_complex (ws : list Z) (ts : list (nat * nat * nat)) (L : list simplex) : Prop :=
  (forall s, In s L <-> wf s /\ ((exists v, verts s = [v] /\ v < length ws) \/ (verts s <> [] /\ exists T, In T ts /\ subset (verts s) (tri T))) /\ is_max_over (fun v => nth v ws 0%Z) (verts s) (data s)) /\
  NoDup (map verts L) /\ filtration_order L /\ StronglySorted (fun s t => (data s < data t)%Z \/ data s = data t /\ length (verts s) <= length (verts t)) L.
Lemma vertex_In ws s : In s (map (fun p => simplex_vertex (fst p) (snd p)) (combine (seq 0 (length ws)) ws)) <-> exists v, v < length ws /\ s = Simplex [v] (nth v ws 0%Z).
Proof.
  rewrite in_map_iff. split.
  - intros ([i w] & <- & H). apply combine_seq_In in H. destruct H as [_ H]. rewrite Nat.sub_0_r in H. exists i. assert (L : i < length ws) by (apply nth_error_Some; rewrite H; discriminate). split; [exact L|]. cbn [fst snd]. rewrite (nth_error_nth _ _ _ H). reflexivity.
  - intros (v & L & ->). exists (v, nth v ws 0%Z). split; [reflexivity|]. apply combine_seq_In. split; [lia|]. rewrite Nat.sub_0_r. apply nth_error_nth'. exact L.
Qed.
Lemma max_unique f vs a b : is_max_over f vs a -> is_max_over f vs b -> a = b.
Proof. intros [(x & Hx & <-) A] [(y & Hy & <-) B]. specialize (A y Hy). specialize (B x Hx). lia. Qed.
Lemma mesh_run lowest highest ws ts acc : (forall w, In w ws -> (lowest <= w)%Z) -> Forall (proper (length ws)) ts -> faces_read ts acc ->
  exists K, k_of_range (map (fun p => simplex_vertex (fst p) (snd p)) (combine (seq 0 (length ws)) ws) ++ acc) = Ok K /\ mesh_complex ws ts (by_index (k_sort data_cmp (recalculateWeights lowest highest true false K))).
Proof.
  intros Hlow Hts Hacc. set (V := map (fun p => simplex_vertex (fst p) (snd p)) (combine (seq 0 (length ws)) ws)).
  assert (Hv : forall T v, In T ts -> In v (tri T) -> v < length ws) by (intros T v HT; rewrite Forall_forall in Hts; apply (Hts T HT)).
  assert (HV : forall s, In s V <-> exists v, v < length ws /\ s = Simplex [v] (nth v ws 0%Z)) by apply vertex_In.
  destruct (of_range_functional (V ++ acc)) as (K & EK & HK & HI).
  - intros s Hs. apply in_app_or in Hs. destruct Hs as [Hs|Hs].
    + apply HV in Hs. destruct Hs as (v & _ & ->). split; [repeat constructor|discriminate].
    + apply Hacc in Hs. destruct Hs as (_ & W & L & _). split; [exact W|]. intro E. rewrite E in L. cbn [length] in L. lia.
  - intros s t Hs Ht E. apply in_app_or in Hs, Ht. destruct Hs as [Hs|Hs], Ht as [Ht|Ht].
    + apply HV in Hs, Ht. destruct Hs as (v & _ & ->), Ht as (u & _ & ->). cbn [verts] in E. injection E as ->. reflexivity.
    + exfalso. apply HV in Hs. apply Hacc in Ht. destruct Hs as (v & _ & ->), Ht as (_ & _ & L & _). rewrite <- E in L. cbn [verts length] in L. lia.
    + exfalso. apply HV in Ht. apply Hacc in Hs. destruct Ht as (v & _ & ->), Hs as (_ & _ & L & _). rewrite E in L. cbn [verts length] in L. lia.
    + apply Hacc in Hs, Ht. apply simplex_ext; [exact E|]. destruct Hs as (-> & _), Ht as (-> & _). reflexivity.
  - exists K. split; [exact EK|].
    assert (Cell : forall vs, wf (Simplex vs 0) -> ((exists v, vs = [v] /\ v < length ws) \/ (vs <> [] /\ exists T, In T ts /\ subset vs (tri T)) <-> exists d, In (Simplex vs d) (by_index K))).
    { intros vs W. split.
      - intros [(v & -> & L)|(Nv & T & HT & S)]; [exists (nth v ws 0%Z); apply HI; apply in_or_app; left; apply HV; eauto|].
        destruct vs as [|v [|u vs]]; [contradiction| |].
        + exists (nth v ws 0%Z). apply HI. apply in_or_app. left. apply HV. exists v. split; [apply (Hv T); [exact HT|apply S; left; reflexivity]|reflexivity].
        + exists 0%Z. apply HI. apply in_or_app. right. apply Hacc. cbn [data verts length]. refine (conj eq_refl (conj W (conj _ (ex_intro _ T (conj HT S))))). lia.
      - intros (d & H). apply HI in H. apply in_app_or in H. destruct H as [H|H].
        + apply HV in H. destruct H as (v & L & E). injection E as -> _. left. eauto.
        + apply Hacc in H. destruct H as (_ & _ & L & T & HT & S). cbn [verts] in *. right. split; [intros ->; cbn [length] in L; lia|eauto]. }
    assert (HC : closed (by_index K)).
    { intros s vs Hs Nv S. set (t := simplex_of vs 0). assert (Wt : wf t) by apply simplex_of_wf. assert (It : forall v, In v (verts t) <-> In v vs) by (intro v; apply simplex_of_In).
      assert (Nt : verts t <> []) by (intro E; destruct vs as [|v vs]; [contradiction|]; specialize (It v); rewrite E in It; apply It; left; reflexivity).
      assert (X : exists d, In (Simplex (verts t) d) (by_index K)).
      { apply (Cell (verts t) Wt). pose proof (kwf_good K HK s Hs) as [Ws _]. destruct (proj2 (Cell (verts s) Ws)) as [(v & E & L)|(Ns & T & HT & S')]; [exists (data s); destruct s; exact Hs| |].
        - left. exists v. split; [|exact L]. destruct (verts t) as [|x l] eqn:Et; [contradiction|]. assert (A : forall y, In y (x :: l) -> y = v) by (intros y Hy; apply It in Hy; apply S in Hy; rewrite E in Hy; destruct Hy as [<-|[]]; reflexivity). rewrite (A x) by (left; reflexivity).
          destruct l as [|y l]; [reflexivity|]. exfalso. unfold wf in Wt. rewrite Et in Wt. inversion Wt as [|? ? _ F]; subst. inversion F; subst. rewrite (A x), (A y) in * by (simpl; auto). lia.
        - right. split; [exact Nt|]. exists T. split; [exact HT|]. intros y Hy. apply S'. apply S. apply It. exact Hy. }
      destruct X as (d & X). exists (Simplex (verts t) d). split; [exact X|]. intro v. apply It. }
    destruct (recalculate_extremum lowest highest true false K HK HC) as (g & Eg & _ & G).
    { intros s Hs Ed. unfold lez, startz. apply HI in Hs. apply in_app_or in Hs. destruct Hs as [Hs|Hs].
      - apply HV in Hs. destruct Hs as (v & L & ->). cbn [data]. apply Hlow. apply nth_In. exact L.
      - exfalso. apply Hacc in Hs. destruct Hs as (_ & _ & L & _). unfold sdim, base in Ed. lia. }
    rewrite Eg. set (K1 := redata g K).
    assert (HK1 : kwf K1) by (apply redata_kwf; exact HK).
    assert (Hmax : forall s, In s (by_index K) -> is_max_over (fun v => nth v ws 0%Z) (verts s) (g (verts s))).
    { intros s Hs. destruct (G s Hs) as [(t & Ht & S & L & E) U]; [unfold base; lia|].
      assert (Single : forall t, In t (by_index K) -> length (verts t) = 1 -> exists v, v < length ws /\ t = Simplex [v] (nth v ws 0%Z)).
      { intros x Hx Lx. apply HI in Hx. apply in_app_or in Hx. destruct Hx as [Hx|Hx]; [apply HV; exact Hx|]. exfalso. apply Hacc in Hx. destruct Hx as (_ & _ & Lx' & _). lia. }
      split.
      - destruct (Single t Ht L) as (v & Lv & ->). exists v. split; [apply S; left; reflexivity|exact E].
      - intros v Hvs. assert (X : In (Simplex [v] (nth v ws 0%Z)) (by_index K)).
        { apply HI. apply in_or_app. left. apply HV. exists v. split; [|reflexivity]. pose proof (kwf_good K HK s Hs) as [Ws _]. destruct (proj2 (Cell (verts s) Ws)) as [(u & Eu & Lu)|(_ & T & HT & S')]; [exists (data s); destruct s; exact Hs|rewrite Eu in Hvs; destruct Hvs as [<-|[]]; exact Lu|]. apply (Hv T); [exact HT|apply S'; exact Hvs]. }
        specialize (U _ X). unfold lez in U. cbn [verts length data] in U. apply U; [|reflexivity]. intros x [<-|[]]. exact Hvs. }
    assert (In1 : forall s, In s (by_index K1) <-> exists t, In t (by_index K) /\ s = Simplex (verts t) (g (verts t))).
    { intro s. unfold K1, redata. cbn [by_index]. rewrite in_map_iff. split; intros (t & A & B); exists t; [split; [exact B|symmetry; exact A]|split; [symmetry; exact B|exact A]]. }
    assert (HM : monotone (by_index K1)).
    { intros s t Hs Ht S. apply In1 in Hs, Ht. destruct Hs as (s' & Hs & ->), Ht as (t' & Ht & ->). cbn [verts data] in *. destruct (Hmax s' Hs) as [_ U]. destruct (Hmax t' Ht) as [(v & Hvt & <-) _]. apply U. apply S. exact Hvt. }
    refine (conj _ (conj _ (conj (filtration_data K1 HK1 HM) _))).
    + intro s. unfold k_sort. cbn [by_index]. rewrite cpp_sort_In, In1. split.
      * intros (t & Ht & ->). cbn [verts data]. pose proof (kwf_good K HK t Ht) as [Wt _]. refine (conj Wt (conj _ (Hmax t Ht))). apply (Cell (verts t) Wt). exists (data t). destruct t; exact Ht.
      * intros (W & C & M). apply (Cell (verts s) W) in C. destruct C as (d & C). exists (Simplex (verts s) d). split; [exact C|]. apply simplex_ext; [reflexivity|]. apply (max_unique _ _ _ _ M). exact (Hmax _ C).
    + apply kwf_nodup. apply sort_kwf. exact HK1.
    + unfold k_sort. cbn [by_index]. pose proof (cpp_sort_sorted data_cmp (by_index K1) data_cmp_swo) as S.
      assert (Len : forall s, In s (cpp_sort data_cmp (by_index K1)) -> verts s <> []) by (intros s Hs; apply cpp_sort_In in Hs; apply (kwf_good K1 HK1 s Hs)).
      induction S as [|a l S IH F]; constructor; [apply IH; intros s Hs; apply Len; right; exact Hs|]. rewrite Forall_forall in F |- *. intros t Ht. specialize (F t Ht). cbv beta in F. unfold data_cmp in F. pose proof (Len a (or_introl eq_refl)) as La. pose proof (Len t (or_intror Ht)) as Lt.
      assert (sdim t = length (verts t) - 1 /\ sdim a = length (verts a) - 1) as [Dt Da] by (split; reflexivity). destruct (verts a) as [|? ?]; [contradiction|]. destruct (verts t) as [|? ?]; [contradiction|]. cbn [length] in *.
      destruct (Z.eqb_spec (data t) (data a)) as [E|E]; [right; split; [lia|]|left; apply Z.ltb_ge in F; lia]. destruct (Nat.eqb_spec (sdim t) (sdim a)) as [E'|E']; [lia|]. apply Nat.ltb_ge in F. lia.
Qed.

(** A file of this form yields the mesh. *)
Theorem C133_read conv stod lowest highest property n m names more header vertices faces ws ts rest :
  let lines := header ++ vertices ++ faces ++ rest in
  (forall l, In l lines -> ~ In newline l) ->
  ply_header n m names more header -> NoDup names -> Forall2 (vertex_row conv stod property names more) ws vertices -> Forall2 face_row ts faces ->
  n = N.of_nat (length ws) -> m = N.of_nat (length ts) -> ws <> [] -> ts <> [] -> (forall w, In w ws -> (lowest <= w)%Z) -> Forall (proper (length ws)) ts ->
  exists K, readPLY conv stod lowest highest property (text_of lines []) = Ok K /\ mesh_complex ws ts (by_index K).
Proof.
  intros lines Hnl Hh Hn Hv Hf En Em Nw Nt Hlow Hts. unfold readPLY. rewrite (lines_text lines Hnl). destruct Hh as (l1 & l2 & es & ls & le & -> & Hh). destruct (header_run n m names more l1 l2 ls le (vertices ++ faces ++ rest)) as (h & Eh & A1 & A2 & A3 & B1 & B2 & B3).
  { exists l1, l2, es, ls, le. split; [reflexivity|exact Hh]. }
  unfold lines. cbn [app]. rewrite B1, B2, B3, !str_eqb_refl. cbn [negb bind].
  match goal with |- context [parse_header ?l ?z] => assert (Eh2 : parse_header l z = Ok (h, vertices ++ faces ++ rest)) by exact Eh; rewrite Eh2; clear Eh2 end. cbn [bind]. rewrite A1, A2, En, Em.
  assert (Z1 : N.eqb (N.of_nat (length ws)) 0 = false) by (apply N.eqb_neq; destruct ws; [contradiction|cbn [length]; lia]). assert (Z2 : N.eqb (N.of_nat (length ts)) 0 = false) by (apply N.eqb_neq; destruct ts; [contradiction|cbn [length]; lia]). rewrite Z1, Z2. cbn [orb].
  unfold parseASCII. rewrite A1, A2, En, Em, !Nat2N.id. set (ends := match rev _ with [] => true | c :: _ => Ascii.eqb c newline end). clearbody ends.
  destruct (vertices_run conv stod property ends (h_properties h) names more A3 Hn ws vertices Hv 0 (faces ++ rest) [] [] []) as (line1 & coords & E1). cbn [app] in E1.
  destruct (faces_run ends (map (fun p => simplex_vertex (fst p) (snd p)) (combine (seq 0 (length ws)) ws)) ts faces Hf) with (done := @nil (nat * nat * nat)) (i := 0) (lines := rest) (line := line1) (edges := @nil (nat * nat)) (acc := @nil simplex) as (line2 & edges & acc & E2 & Hr).
  - eapply Forall_impl; [|exact Hts]. intros T HT. apply HT.
  - intros u v. split; intros [].
  - intro s. split; [intros []|intros (_ & _ & _ & T & [] & _)].
  - rewrite app_nil_r in E2. match goal with |- context [foldM (parse_vertex conv stod property ends (h_properties h)) ?l ?s] => assert (Em' : foldM (parse_vertex conv stod property ends (h_properties h)) l s = Ok (faces ++ rest, line1, coords, map (fun p => simplex_vertex (fst p) (snd p)) (combine (seq 0 (length ws)) ws))) by exact E1; rewrite Em'; clear Em' end.
    cbn [bind]. match goal with |- context [foldM (parse_face ends) ?l ?s] => assert (Em' : foldM (parse_face ends) l s = Ok (rest, line2, edges, map (fun p => simplex_vertex (fst p) (snd p)) (combine (seq 0 (length ws)) ws) ++ acc)) by exact E2; rewrite Em'; clear Em' end.
    cbn [bind snd]. destruct (mesh_run lowest highest ws ts acc Hlow Hts Hr) as (K & -> & HK). cbn [bind]. eauto.
Qed.

(** ** Errors *)
Lemma starts_prefix p s : starts p s = true -> exists r, s = chars p ++ r.
Proof. unfold starts. intro H. apply str_eqb_spec in H. exists (skipn (length (chars p)) s). rewrite <- H at 1. symmetry. apply firstn_skipn. Qed.
Lemma type_unknown t : (forall x, In x ply_types -> t <> chars x) -> type_bytes t = Throw OutOfRange.
Proof.
  intro H. unfold type_bytes. destruct (find _ TypeSizeMap) as [[x n]|] eqn:E; [|reflexivity]. exfalso. apply find_some in E. destruct E as [E1 E2]. cbn [fst] in E2. apply str_eqb_spec in E2. apply (H x); [|exact E2]. unfold TypeSizeMap in E1. unfold ply_types. simpl in *. do 11 (destruct E1 as [E1|E1]; [injection E1 as <- _; tauto|]). destruct E1.
Qed.
Definition ply_start (l1 l2 : str) : Prop := padded (chars "ply") l1 /\ exists b, some SpecText.blank b /\ padded (chars "format" ++ b ++ chars "ascii 1.0") l2.
Lemma start_facts l1 l2 : ply_start l1 l2 -> trim l1 = chars "ply" /\ starts "format" (trim l2) = true /\ trim (skipn 6 (trim l2)) = chars "ascii 1.0".
Proof.
  intros [H1 (b & Hb & H2)]. destruct (header_run 1 1 [] [] l1 l2 [chars "element vertex 1"; chars "element face 1"] (chars "end_header") []) as (_ & _ & _ & _ & _ & X); [|exact X].
  exists l1, l2, [Vertices 1; Faces 1], [chars "element vertex 1"; chars "element face 1"], (chars "end_header"). refine (conj eq_refl (conj H1 (conj (ex_intro _ b (conj Hb H2)) (conj _ (conj _ _))))).
  - exact (padded_of (chars "end_header")).
  - assert (N1 : numeral (chars "1") 1) by exact (print_nat_numeral 1). constructor; [|constructor; [|constructor]].
    + apply (line_vertices (chars "1")); [apply words_iff; vm_compute; reflexivity|exact N1|reflexivity].
    + apply (line_faces (chars "1")); [apply words_iff; vm_compute; reflexivity|exact N1|reflexivity].
  - exists []. refine (conj eq_refl (conj _ eq_refl)). intros e [].
Qed.
(** What does not have this form is an error: other magic numbers and formats, unknown types, missing coordinates and faces that are not triangles. *)
Theorem C133_errors conv stod lowest highest property lines : (forall l, In l lines -> ~ In newline l) ->
  let result := readPLY conv stod lowest highest property (text_of lines []) in
  ((forall l1 rest, lines = l1 :: rest -> ~ padded (chars "ply") l1) -> result = Throw RuntimeError) /\
  ((forall l1 l2 rest, lines = l1 :: l2 :: rest -> ~ exists format, padded (chars "format" ++ format) l2 /\ (padded (chars "ascii 1.0") format \/ padded (chars "binary_little_endian 1.0") format \/ padded (chars "binary_big_endian 1.0") format)) -> result = Throw RuntimeError) /\
  (forall l1 l2 es ls l t ts rest, lines = l1 :: l2 :: ls ++ l :: rest -> ply_start l1 l2 -> Forall2 entry_line es ls -> words l (chars "property" :: t :: ts) -> t <> chars "list" -> (forall x, In x ply_types -> t <> chars x) -> result = Throw OutOfRange) /\
  (forall n m names more header rest c, lines = header ++ rest -> ply_header n m names more header -> (0 < n)%N -> (0 < m)%N -> In c ["x"; "y"; "z"]%string -> ~ In (chars c) (names ++ more) -> (forall K, result <> Ok K) /\ (c = "x"%string -> result = Throw OutOfRange)) /\
  (forall n m names more header vertices faces ws ts l t k us rest, lines = header ++ vertices ++ faces ++ l :: rest ->
     ply_header n m names more header -> NoDup names -> Forall2 (vertex_row conv stod property names more) ws vertices -> Forall2 face_row ts faces -> Forall (proper (length ws)) ts ->
     n = N.of_nat (length ws) -> ws <> [] -> length ts < N.to_nat m -> words l (t :: us) -> numeral t k -> k <> 3%N -> result = Throw RuntimeError).
Proof.
  intros Hnl result. subst result. unfold readPLY. rewrite (lines_text lines Hnl). refine (conj _ (conj _ (conj _ (conj _ _)))).
  - intro H. destruct lines as [|l1 [|l2 lines]]; [reflexivity|reflexivity|]. destruct (str_eqb (trim l1) (chars "ply")) eqn:E; [|reflexivity]. exfalso. apply str_eqb_spec in E. apply (H l1 _ eq_refl). rewrite <- E. apply padded_of.
  - intro H. destruct lines as [|l1 [|l2 lines]]; [reflexivity|reflexivity|]. destruct (str_eqb (trim l1) (chars "ply")); [|reflexivity]. cbn [negb]. destruct (starts "format" (trim l2)) eqn:Es; [|reflexivity]. cbn [negb]. destruct (starts_prefix _ _ Es) as (format & Ef). rewrite Ef. change (skipn 6 (chars "format" ++ format)) with format.
    assert (P : padded (chars "format" ++ format) l2) by (rewrite <- Ef; apply padded_of).
    assert (X : forall x, str_eqb (trim format) (chars x) = true -> padded (chars x) format) by (intros x E; apply str_eqb_spec in E; rewrite <- E; apply padded_of).
    destruct (str_eqb (trim format) (chars "ascii 1.0")) eqn:E1; [exfalso; apply (H _ _ _ eq_refl); exists format; auto|].
    destruct (str_eqb (trim format) (chars "binary_little_endian 1.0")) eqn:E2; [exfalso; apply (H _ _ _ eq_refl); exists format; auto|].
    destruct (str_eqb (trim format) (chars "binary_big_endian 1.0")) eqn:E3; [exfalso; apply (H _ _ _ eq_refl); exists format; auto|]. reflexivity.
  - intros l1 l2 es ls l t ts rest -> Hs F W Nl Nt. destruct (start_facts l1 l2 Hs) as (B1 & B2 & B3). rewrite B1, B2, B3, !str_eqb_refl. cbn [negb bind]. destruct (entries_run es ls (l :: rest) F (Header 0 0 [] (Some 0))) as (h & Eh & _).
    match goal with |- context [parse_header ?ll ?z] => assert (Eh2 : parse_header ll z = Throw OutOfRange); [|rewrite Eh2; reflexivity] end. etransitivity; [exact Eh|]. cbn [parse_header].
    destruct (trim_first _ _ _ W) as (r & -> & W1 & _). apply words_trim in W1. destruct (read_word_words _ _ _ W1) as (r1 & E1 & _). change (starts "comment" (chars "property" ++ r)) with false. change (starts "element" (chars "property" ++ r)) with false. change (starts "property" (chars "property" ++ r)) with true. cbv iota. unfold parse_property. change (skipn 8 (chars "property" ++ r)) with r. rewrite E1. destruct (read_word r1) as [name r2].
    assert (El : str_eqb t (chars "list") = false) by (destruct (str_eqb t (chars "list")) eqn:E; [exfalso; apply Nl; apply str_eqb_spec; exact E|reflexivity]). rewrite El, (type_unknown t Nt). reflexivity.
  - intros n m names more header rest c -> Hh Hn Hm Hxyz Hc. pose proof Hh as Hh'. destruct Hh' as (l1 & l2 & es & ls & le & -> & _). destruct (header_run n m names more l1 l2 ls le rest Hh) as (h & Eh & A1 & A2 & A3 & B1 & B2 & B3). cbn [app]. rewrite B1, B2, B3, !str_eqb_refl. cbn [negb bind].
    match goal with |- context [parse_header ?ll ?z] => assert (Eh2 : parse_header ll z = Ok (h, rest)) by exact Eh; rewrite Eh2; clear Eh2 end. cbn [bind]. rewrite A1, A2. assert (Z1 : N.eqb n 0 = false) by (apply N.eqb_neq; lia). assert (Z2 : N.eqb m 0 = false) by (apply N.eqb_neq; lia). rewrite Z1, Z2. cbn [orb]. unfold parseASCII. rewrite A1. destruct (N.to_nat n) as [|k] eqn:Ek; [lia|]. cbn [seq foldM]. assert (Ec : property_index 0 (chars c) (h_properties h) = None) by (apply property_index_none; rewrite A3; exact Hc). split.
    + intro K. unfold parse_vertex at 1. destruct (next_line _ rest []) as [rest' line']. destruct Hxyz as [<-|[<-|[<-|[]]]]; rewrite Ec; [discriminate| |]; destruct (token_at _ (property_index 0 (chars "x") _)) as [tx|e| |]; try discriminate; cbn [bind]; destruct (stod tx); try discriminate; cbn [bind]; try discriminate. destruct (token_at _ (property_index 0 (chars "y") _)) as [ty|e| |]; try discriminate; cbn [bind]. destruct (stod ty); discriminate.
    + intros ->. unfold parse_vertex at 1. destruct (next_line _ rest []) as [rest' line']. rewrite Ec. reflexivity.
  - intros n m names more header vertices faces ws ts l t k us rest -> Hh Hn Hv Hf Hp En Nw Lm W Nt Nk. pose proof Hh as Hh'. destruct Hh' as (l1 & l2 & es & ls & le & -> & _). destruct (header_run n m names more l1 l2 ls le (vertices ++ faces ++ l :: rest) Hh) as (h & Eh & A1 & A2 & A3 & B1 & B2 & B3). cbn [app]. rewrite B1, B2, B3, !str_eqb_refl. cbn [negb bind].
    match goal with |- context [parse_header ?ll ?z] => assert (Eh2 : parse_header ll z = Ok (h, vertices ++ faces ++ l :: rest)) by exact Eh; rewrite Eh2; clear Eh2 end. cbn [bind]. rewrite A1, A2, En. assert (Z1 : N.eqb (N.of_nat (length ws)) 0 = false) by (apply N.eqb_neq; destruct ws; [contradiction|cbn [length]; lia]). assert (Z2 : N.eqb m 0 = false) by (apply N.eqb_neq; lia). rewrite Z1, Z2. cbn [orb]. unfold parseASCII. rewrite A1, A2, En, Nat2N.id. set (ends := match rev _ with [] => true | c :: _ => Ascii.eqb c newline end). clearbody ends.
    destruct (vertices_run conv stod property ends (h_properties h) names more A3 Hn ws vertices Hv 0 (faces ++ l :: rest) [] [] []) as (line1 & coords & E1). cbn [app] in E1.
    match goal with |- context [foldM (parse_vertex conv stod property ends (h_properties h)) ?ll ?s] => assert (Em' : foldM (parse_vertex conv stod property ends (h_properties h)) ll s = Ok (faces ++ l :: rest, line1, coords, map (fun p => simplex_vertex (fst p) (snd p)) (combine (seq 0 (length ws)) ws))) by exact E1; rewrite Em'; clear Em' end. cbn [bind].
    destruct (faces_run ends (map (fun p => simplex_vertex (fst p) (snd p)) (combine (seq 0 (length ws)) ws)) ts faces Hf) with (done := @nil (nat * nat * nat)) (i := 0) (lines := l :: rest) (line := line1) (edges := @nil (nat * nat)) (acc := @nil simplex) as (line2 & edges & acc & E2 & Hr).
    + eapply Forall_impl; [|exact Hp]. intros T HT. apply HT.
    + intros u v. split; intros [].
    + intro s. split; [intros []|intros (_ & _ & _ & T & [] & _)].
    + rewrite app_nil_r in E2. replace (N.to_nat m) with (length ts + S (N.to_nat m - length ts - 1)) by lia. rewrite seq_app, foldM_app. match goal with |- context [foldM (parse_face ends) (seq 0 (length ts)) ?s] => assert (Em' : foldM (parse_face ends) (seq 0 (length ts)) s = Ok (l :: rest, line2, edges, map (fun p => simplex_vertex (fst p) (snd p)) (combine (seq 0 (length ws)) ws) ++ acc)) by exact E2; rewrite Em'; clear Em' end.
      cbn [bind seq foldM]. unfold parse_face at 1. cbn [next_line].
      assert (Hr3 : (exists r, read_unsigned 32 l = Some (k, r)) \/ read_unsigned 32 l = None).
      { destruct (N.ltb k (2 ^ 32)) eqn:Lk; [left; apply N.ltb_lt in Lk; destruct (read_unsigned_words 32 _ _ _ _ W Nt Lk) as (r & E & _); eauto|right].
        destruct (read_unsigned_words (N.size k) l t us k W Nt (N.size_gt k)) as (r & E & _). unfold read_unsigned in E |- *. destruct (match ltrim l with [] => _ | c :: t0 => _ end) as [neg s] eqn:Em. destruct (span isdigit s) as [[|d ds] r'] eqn:Esp; [discriminate|].
        destruct (N.ltb (digits 0 (d :: ds)) (2 ^ N.size k)) eqn:Ed; [|discriminate]. injection E as E _. destruct (N.ltb (digits 0 (d :: ds)) (2 ^ 32)) eqn:E4; [|reflexivity]. exfalso.
        assert (neg = false). { destruct (trim_first _ _ _ W) as (rr & _ & _ & Hvis & _). inversion W as [|a t' s0 ts' Ha [Ht1 Ht2] Hs W' X1 X2]; subst. rewrite ltrim_blank in Em; [|exact Ha|intros c q Eq; destruct t; [contradiction|]; injection Eq as <- _; inversion Ht2; assumption]. pose proof (numeral_a_digit t _ Nt) as [_ D]. destruct t as [|c t]; [contradiction|]. cbn [app] in Em. inversion D as [|? ? Dc _]; subst. destruct (digit_sign c Dc) as [X Y]. rewrite X, Y in Em. injection Em as <- _. reflexivity. }
        subst neg. assert (E5 : digits 0 (d :: ds) = k) by exact E. rewrite E5 in E4. congruence. }
      destruct Hr3 as [(r & ->)| ->]; [|reflexivity]. assert (X : N.eqb k 3 = false) by (apply N.eqb_neq; exact Nk). rewrite X. reflexivity.
Qed.

(** ** Examples *)
Definition int_stod (s : str) : outcome Z := match s with [] => Throw InvalidArgument | _ => Ok (int_conv s) end.
Definition ply_file (format : string) (body : list string) : list str := map chars (["ply"; "format " ++ format]%string ++ body).
Definition ply_read (property : string) (text : str) : outcome (list (list nat * Z)) :=
  let* K := readPLY int_conv int_stod (-1000) 1000 (chars property) text in Ok (map (fun s => (verts s, data s)) (by_index K)).
Definition surface : list string := ["comment made by hand"; "element vertex 4"; "property float x"; "property float y"; "property float z"; "property int quality"; "element face 2"; "property list uchar int vertex_indices"; "end_header"]%string.
Example C133_read_example :
  ply_read "quality" (text_of (ply_file "ascii 1.0" (surface ++ ["0 0 0 7"; "1 0 0 5"; " 0 1 0  9 "; "1 1 0 5"; "3 0 1 2"; "3 3 1 2"]%string)) []) =
    Ok [([1], 5%Z); ([3], 5%Z); ([3; 1], 5%Z); ([0], 7%Z); ([1; 0], 7%Z); ([2], 9%Z); ([2; 0], 9%Z); ([2; 1], 9%Z); ([3; 2], 9%Z); ([2; 1; 0], 9%Z); ([3; 2; 1], 9%Z)] /\
  ply_read "" (text_of (ply_file "ascii 1.0" (surface ++ ["0 0 0 7"; "1 0 0 5"; " 0 1 0  9 "; "1 1 0 5"; "3 0 1 2"; "3 3 1 2"]%string)) []) =
    Ok [([0], 0%Z); ([1], 0%Z); ([2], 0%Z); ([3], 0%Z); ([1; 0], 0%Z); ([2; 0], 0%Z); ([2; 1], 0%Z); ([3; 1], 0%Z); ([3; 2], 0%Z); ([2; 1; 0], 0%Z); ([3; 2; 1], 0%Z)].
Proof. vm_compute. auto. Qed.
(** the hypotheses of the theorem hold for this file *)
Example C133_hypotheses :
  ply_header 4 2 (map chars ["x"; "y"; "z"; "quality"]%string) [chars "vertex_indices"] (ply_file "ascii 1.0" surface) /\
  Forall2 (vertex_row int_conv int_stod (chars "quality") (map chars ["x"; "y"; "z"; "quality"]%string) [chars "vertex_indices"]) [7; 5; 9; 5]%Z (map chars ["0 0 0 7"; "1 0 0 5"; " 0 1 0  9 "; "1 1 0 5"]%string) /\
  Forall2 face_row [(0, 1, 2); (3, 1, 2)] (map chars ["3 0 1 2"; "3 3 1 2"]%string) /\ Forall (proper 4) [(0, 1, 2); (3, 1, 2)].
Proof.
  refine (conj _ (conj _ (conj _ _))).
  - exists (chars "ply"), (chars "format ascii 1.0"), [Comment; Vertices 4; Property (chars "x"); Property (chars "y"); Property (chars "z"); Property (chars "quality"); Faces 2; List (chars "vertex_indices")], (firstn 8 (map chars surface)), (chars "end_header").
    refine (conj eq_refl (conj (padded_of (chars "ply")) (conj _ (conj (padded_of (chars "end_header")) (conj _ _))))).
    + exists [" "%char]. split; [split; [discriminate|constructor; [apply isspace_spec; reflexivity|constructor]]|exact (padded_of (chars "format ascii 1.0"))].
    + cbn [map surface firstn]. constructor; [apply (line_comment (chars " made by hand")); exact (padded_of (chars "comment made by hand"))|].
      constructor; [apply (line_vertices (chars "4")); [apply words_iff; reflexivity|exact (print_nat_numeral 4)|reflexivity]|].
      constructor; [apply (line_property "float"); [apply words_iff; reflexivity|simpl; tauto]|]. constructor; [apply (line_property "float"); [apply words_iff; reflexivity|simpl; tauto]|]. constructor; [apply (line_property "float"); [apply words_iff; reflexivity|simpl; tauto]|]. constructor; [apply (line_property "int"); [apply words_iff; reflexivity|simpl; tauto]|].
      constructor; [apply (line_faces (chars "2")); [apply words_iff; reflexivity|exact (print_nat_numeral 2)|reflexivity]|]. constructor; [apply (line_list "uchar" "int"); [apply words_iff; reflexivity|simpl; tauto|simpl; tauto]|]. constructor.
    + exists [List (chars "vertex_indices")]. refine (conj eq_refl (conj _ eq_refl)). intros e [<-|[]]. eauto.
  - cbn [map]. repeat (constructor; [eexists; split; [apply words_iff; reflexivity|split; [reflexivity|split; [intros p [<-|[<-|[<-|[]]]]; [exists 0|exists 1|exists 2]; do 2 eexists; repeat split; vm_compute; reflexivity|left; split; [discriminate|exists 3; eexists; split; [reflexivity|split; reflexivity]]]]]|]). constructor.
  - cbn [map]. constructor; [|constructor; [|constructor]].
    + exists (chars "3"), (chars "0"), (chars "1"), (chars "2"), []. refine (conj (proj2 (words_iff _ _) eq_refl) (conj (print_nat_numeral 3) (conj (print_nat_numeral 0) (conj (print_nat_numeral 1) (conj (print_nat_numeral 2) _))))). repeat split; reflexivity.
    + exists (chars "3"), (chars "3"), (chars "1"), (chars "2"), []. refine (conj (proj2 (words_iff _ _) eq_refl) (conj (print_nat_numeral 3) (conj (print_nat_numeral 3) (conj (print_nat_numeral 1) (conj (print_nat_numeral 2) _))))). repeat split; reflexivity.
  - constructor; [|constructor; [|constructor]]; (split; [repeat (constructor; [simpl; lia|]); constructor|simpl; lia]).
Qed.
Example C133_errors_example :
  ply_read "" (text_of (ply_file "ascii 2.0" surface) []) = Throw RuntimeError /\
  ply_read "" (text_of (ply_file "ascii 1.0" ["element vertex 1"; "property float128 x"]%string) []) = Throw OutOfRange /\
  ply_read "" (text_of (ply_file "ascii 1.0" ["element vertex 1"; "element face 1"; "end_header"; "0"; "3 0 0 0"]%string) []) = Throw OutOfRange /\
  ply_read "" (text_of (ply_file "ascii 1.0" (surface ++ ["0 0 0 7"; "1 0 0 5"; "0 1 0  9"; "1 1 0 5"; "4 0 1 3 2"; "3 3 1 2"]%string)) []) = Throw RuntimeError.
Proof. vm_compute. auto. Qed.

(** ** What does not hold *)
(** types with the number of bits in their names are part of the format, but some of them are not known *)
Theorem C133_types_refuted : forall t, In t ["float32"; "float64"; "int8"; "int16"; "uint16"]%string ->
  ply_read "" (text_of (ply_file "ascii 1.0" ["element vertex 3"; "property " ++ t ++ " x"]%string) []) = Throw OutOfRange.
Proof. simpl. intros t [<-|[<-|[<-|[<-|[<-|[]]]]]]; vm_compute; reflexivity. Qed.
(** every binary file whose header has a scalar property leads to undefined behaviour *)
Theorem C133_binary_refuted conv stod lowest highest property l1 l2 ls es le body order : (forall l, In l (l1 :: l2 :: ls ++ le :: body) -> ~ In newline l) ->
  In order ["little"; "big"]%string -> padded (chars "ply") l1 -> padded (chars "format " ++ chars ("binary_" ++ order ++ "_endian 1.0")) l2 -> Forall2 entry_line es ls -> padded (chars "end_header") le ->
  (exists name, In (Property name) es) -> last_vertices es 0 <> 0%N -> last_faces es 0 <> 0%N ->
  readPLY conv stod lowest highest property (text_of (l1 :: l2 :: ls ++ le :: body) []) = UB.
Proof.
  intros Hnl Ho H1 H2 F He (name & Hp) Nv Nf. unfold readPLY. rewrite (lines_text _ Hnl), (padded_trim _ _ H1), (padded_trim _ _ H2).
  assert (P : forall es ls rest h, Forall2 entry_line es ls -> (exists name, In (Property name) es) \/ existsb scalar (h_properties h) = true ->
    exists h', parse_header (ls ++ rest) h = parse_header rest h' /\ h_vertices h' = last_vertices es (h_vertices h) /\ h_faces h' = last_faces es (h_faces h) /\ existsb scalar (h_properties h') = true).
  { clear. intros es ls rest h F. revert h. induction F as [|e l es ls H F IH]; intros h X.
    - exists h. destruct X as [(name & [])|X]. auto.
    - cbn [app]. destruct (header_step e l (ls ++ rest) h H) as (h1 & E1 & A1 & A2 & _ & A4). destruct (IH h1) as (h2 & E2 & B1 & B2 & B3).
      + rewrite A4. destruct X as [(name & [->|X])|X]; [right; apply orb_true_r|left; eauto|right; rewrite X; reflexivity].
      + exists h2. rewrite E1, E2, B1, B2, A1, A2. auto. }
  destruct (P es ls (le :: body) (Header 0 0 [] (Some 0)) F) as (h & Eh & A1 & A2 & A3); [left; eauto|]. cbn [h_vertices h_faces] in A1, A2. pose proof (eq_trans Eh (end_run le body h He)) as Eh'. clear Eh. rename Eh' into Eh.
  assert (S1 : starts "format" (chars "format " ++ chars ("binary_" ++ order ++ "_endian 1.0")) = true) by reflexivity. rewrite S1. change (skipn 6 (chars "format " ++ chars ("binary_" ++ order ++ "_endian 1.0"))) with (" "%char :: chars ("binary_" ++ order ++ "_endian 1.0")). rewrite str_eqb_refl. cbn [negb].
  assert (S2 : (if str_eqb (trim (" "%char :: chars ("binary_" ++ order ++ "_endian 1.0"))) (chars "ascii 1.0") then Ok false else if str_eqb (trim (" "%char :: chars ("binary_" ++ order ++ "_endian 1.0"))) (chars "binary_little_endian 1.0") || str_eqb (trim (" "%char :: chars ("binary_" ++ order ++ "_endian 1.0"))) (chars "binary_big_endian 1.0") then Ok true else Throw RuntimeError) = Ok true) by (destruct Ho as [<-|[<-|[]]]; vm_compute; reflexivity).
  rewrite S2. cbn [bind]. match goal with |- context [parse_header ?ll ?z] => assert (Eh2 : parse_header ll z = Ok (h, body)) by exact Eh; rewrite Eh2; clear Eh2 end. cbn [bind]. rewrite A1, A2. apply N.eqb_neq in Nv, Nf. rewrite Nv, Nf. cbn [orb]. unfold parseBinary. fold scalar.
  match goal with |- context [existsb ?f (h_properties h)] => assert (Ex : existsb f (h_properties h) = true) by exact A3; rewrite Ex end. reflexivity.
Qed.
(** The sizes of the types are those of the format. *)
Theorem C133_sizes : forall t k, type_bytes (chars t) = Ok k <->
  (k = 1 /\ In t ["char"; "uchar"; "uint8"] \/ k = 2 /\ In t ["short"; "ushort"] \/ k = 4 /\ In t ["int"; "int32"; "uint"; "uint32"; "float"] \/ k = 8 /\ t = "double")%string.
Proof.
  intros t k. split.
  - unfold type_bytes. destruct (find _ TypeSizeMap) as [[u n]|] eqn:E; [|discriminate]. intro H. injection H as <-. apply find_some in E. destruct E as [E1 E2]. apply str_eqb_spec in E2. cbn [fst] in E2.
    assert (t = u) as -> by (clear -E2; revert u E2; induction t as [|c t IH]; intros [|d u] E; try discriminate; [reflexivity|]; injection E as <- E; f_equal; apply IH; exact E).
    unfold TypeSizeMap in E1. cbn [In] in E1. do 11 (destruct E1 as [E1|E1]; [injection E1 as <- <-; cbn [In]; tauto|]). destruct E1.
  - cbn [In]. intro H. do 11 (destruct H as [H|H] || idtac). all: intuition (subst; reflexivity).
Qed.
(** FINDING: a negative number of vertices is accepted and wraps around. *)
Theorem C133_negative_refuted : forall l t v lines h, words l [chars "element"; chars "vertex"; ("-"%char :: t)] -> numeral t v -> (0 < v < 2 ^ 64)%N ->
  parse_header (l :: lines) h = parse_header lines (Header (2 ^ 64 - v) (h_faces h) (h_properties h) (h_offset h)).
Proof.
  intros l t v lines h W Nt Lt. cbn [parse_header]. destruct (trim_first _ _ _ W) as (rest & -> & W1 & _). apply words_trim in W1. destruct (read_word_words _ _ _ W1) as (r1 & E1 & W2).
  change (starts "comment" (chars "element" ++ rest)) with false. change (starts "element" (chars "element" ++ rest)) with true. cbv iota. unfold parse_element. change (skipn 7 (chars "element" ++ rest)) with rest. rewrite E1.
  assert (E2 : exists r2, read_unsigned 64 r1 = Some (2 ^ 64 - v, r2)%N).
  { inversion W2 as [|a t' s ts' Ha [Ht1 Ht2] Hs W' Ea Eb]; subst. exists s. unfold read_unsigned. rewrite ltrim_blank; [|exact Ha|intros c r E; injection E as <- _; inversion Ht2; assumption].
    cbn [app]. change (Ascii.eqb "-" "-") with true. cbv iota beta.
    assert (D : Forall a_digit t) by (apply (numeral_a_digit t v Nt)). destruct (numeral_digits t v Nt) as (Hne & _ & D3). specialize (D3 [] 0%N). rewrite app_nil_r in D3. cbn [digits] in D3.
    rewrite (span_app isdigit a_digit isdigit_spec t s D) by (intros d r E X; exact (space_not_digit d (Hs d r E) X)). rewrite D3. replace (0 * 10 ^ N.of_nat (length t) + v)%N with v by lia. rewrite (proj2 (N.ltb_lt _ _) (proj2 Lt)).
    destruct t as [|c t]; [contradiction|]. rewrite N.mod_small by lia. reflexivity. }
  destruct E2 as [r2 ->]. reflexivity.
Qed.
Example C133_negative : parse_header [chars "element vertex -1"; chars "end_header"] (Header 0 0 [] (Some 0)) = parse_header [chars "end_header"] (Header 18446744073709551615 0 [] (Some 0)).
Proof. vm_compute. reflexivity. Qed.
(** properties of faces that are declared first shift the positions of the coordinates *)
Theorem C133_order_refuted :
  ply_read "q" (text_of (ply_file "ascii 1.0" ["element face 1"; "property list uchar int vertex_indices"; "element vertex 3"; "property int q"; "property float x"; "property float y"; "property float z"; "end_header"; "7 0 0 0"; "8 1 0 0"; "9 1 1 0"; "3 0 1 2"]%string) []) = Throw OutOfRange /\
  ply_read "q" (text_of (ply_file "ascii 1.0" ["element face 1"; "property list uchar int vertex_indices"; "element vertex 3"; "property int q"; "property float x"; "property float y"; "property float z"; "property float w"; "end_header"; "7 1 0 0 5"; "8 2 0 0 5"; "9 3 1 0 5"; "3 0 1 2"]%string) []) =
    Ok [([0], 1%Z); ([1], 2%Z); ([1; 0], 2%Z); ([2], 3%Z); ([2; 0], 3%Z); ([2; 1], 3%Z); ([2; 1; 0], 3%Z)].
Proof. vm_compute. auto. Qed.
(** the lines of other elements are not skipped: a material is read as the first vertex *)
Theorem C133_elements_refuted :
  ply_read "" (text_of (ply_file "ascii 1.0" ["element material 1"; "property int red"; "element vertex 3"; "property float x"; "property float y"; "property float z"; "element face 1"; "property list uchar int vertex_indices"; "end_header"; "255"; "0 0 0"; "1 0 0"; "1 1 0"; "3 0 1 2"]%string) []) = Throw OutOfRange /\
  ply_read "red" (text_of (ply_file "ascii 1.0" ["element material 1"; "property int red"; "property int x"; "property int y"; "property int z"; "element vertex 2"; "property float x"; "property float y"; "property float z"; "element face 1"; "property list uchar int vertex_indices"; "end_header"; "255 1 2 3"; "0 0 0 0"; "1 0 0 0"; "3 0 1 2"]%string) []) = Throw RuntimeError.
Proof. vm_compute. auto. Qed.
(** the end of the file is not noticed: the last line is used again if it has no end *)
Theorem C133_truncated_refuted :
  let file := ply_file "ascii 1.0" (surface ++ ["0 0 0 7"; "1 0 0 5"; "0 1 0 9"; "1 1 0 5"]%string) in
  ply_read "" (text_of file (chars "3 0 1 2")) = Ok [([0], 0%Z); ([1], 0%Z); ([2], 0%Z); ([3], 0%Z); ([1; 0], 0%Z); ([2; 0], 0%Z); ([2; 1], 0%Z); ([2; 1; 0], 0%Z)] /\
  ply_read "" (text_of (file ++ [chars "3 0 1 2"]) []) = Throw RuntimeError.
Proof. vm_compute. auto. Qed.
(** a face with repeated vertices reads a vertex of an edge that does not exist; indices are not compared with the number of vertices *)
Theorem C133_face_refuted :
  ply_read "" (text_of (ply_file "ascii 1.0" (surface ++ ["0 0 0 7"; "1 0 0 5"; "0 1 0 9"; "1 1 0 5"; "3 0 0 1"; "3 3 1 2"]%string)) []) = UB /\
  ply_read "" (text_of (ply_file "ascii 1.0" (surface ++ ["0 0 0 7"; "1 0 0 5"; "0 1 0 9"; "1 1 0 5"; "3 0 1 8"; "3 0 1 2"]%string)) []) =
    Ok [([0], 0%Z); ([1], 0%Z); ([2], 0%Z); ([3], 0%Z); ([1; 0], 0%Z); ([2; 0], 0%Z); ([2; 1], 0%Z); ([8; 0], 0%Z); ([8; 1], 0%Z); ([2; 1; 0], 0%Z); ([8; 1; 0], 0%Z)].
Proof. vm_compute. auto. Qed.

Print Assumptions C133_read.
Print Assumptions C133_errors.
Print Assumptions C133_binary_refuted.
