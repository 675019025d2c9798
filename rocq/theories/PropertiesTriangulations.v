(** * C90: lists of triangulations. *)
From Coq Require Import String.
From Coq Require Import List Arith Bool ZArith Ascii Lia Sorted Permutation.
From Verif Require Import Base BaseFacts Simplex SimplexFacts SpecComplex Complex ComplexFacts History
  LoadMatrix SpecText LoadFacts StringUtilities PropertiesString ReadMatrices ReadFacts ReadEdges PropertiesReadEdges PropertiesPointCloud Triangulations.
Import ListNotations.
Local Open Scope nat_scope.

(** ** Specification *)
(** numbers, separated by commas, with white space *)
Inductive comma_numbers (vmax : Z) : str -> list nat -> Prop :=
| numbers_one b v b' : spaces b -> spaces b' -> (Z.of_nat v <= vmax)%Z -> comma_numbers vmax (b ++ print_Z (Z.of_nat v) ++ b') [v]
| numbers_more b v b' t vs : spaces b -> spaces b' -> (Z.of_nat v <= vmax)%Z -> comma_numbers vmax t vs ->
    comma_numbers vmax (b ++ print_Z (Z.of_nat v) ++ b' ++ char_comma :: t) (v :: vs).
(** simplices in brackets, with commas and white space in between, and a closing bracket *)
Definition filler (s : str) : Prop := Forall (fun c => c = char_comma \/ isspace c = true) s.
Inductive list_text (vmax : Z) : str -> list (list nat) -> Prop :=
| list_end b junk : filler b -> list_text vmax (b ++ char_close :: junk) []
| list_more b body vs t L : filler b -> comma_numbers vmax body vs -> list_text vmax t L ->
    list_text vmax (b ++ char_open :: body ++ char_close :: t) (vs :: L).
Definition finished (s : str) : Prop := count_occ ascii_dec s char_open = count_occ ascii_dec s char_close.
Definition block_text (vmax : Z) (block : str) (L : list (list nat)) : Prop :=
  exists pre t, ~ In char_open pre /\ block = pre ++ char_open :: t /\ list_text vmax t L /\ finished block.
(** the complex with these simplices, in this order, without repetitions *)
Definition listed (L : list (list nat)) (K : complex) : Prop :=
  reachable K /\ (forall s, In s (by_index K) -> data s = 0%Z) /\
  exists Ds, Forall2 (fun vs ds => StronglySorted gt ds /\ set_eq ds vs) L Ds /\ first_occurrences Ds (map verts (by_index K)).

(** a line that is ignored *)
Definition ignored_line (line : str) : Prop := spaces line \/ exists b t, spaces b /\ line = b ++ hash :: t.
(** a line that is not ignored, without the white space at its ends *)
Definition content (line part : str) : Prop :=
  exists a b c t, spaces a /\ spaces b /\ line = a ++ part ++ b /\ trimmed part /\ part = c :: t /\ c <> hash.
(** lines that complete a block *)
Inductive continued : str -> list str -> str -> Prop :=
| continued_done block : finished block -> continued block [] block
| continued_ignored block line lines final : ~ finished block -> ignored_line line -> continued block lines final -> continued block (line :: lines) final
| continued_more block line part lines final : ~ finished block -> content line part -> ~ In char_equals part -> continued (block ++ part) lines final ->
    continued block (line :: lines) final.
Inductive triangulations (vmax : Z) : list str -> list (list (list nat)) -> Prop :=
| tri_nil : triangulations vmax [] []
| tri_ignored line lines Ls : ignored_line line -> triangulations vmax lines Ls -> triangulations vmax (line :: lines) Ls
| tri_block line name b part more block L lines Ls :
    content line (name ++ char_equals :: b ++ part) -> ~ In char_equals name -> spaces b -> trimmed part -> part <> [] ->
    continued part more block -> block_text vmax block L -> triangulations vmax lines Ls ->
    triangulations vmax (line :: more ++ lines) (L :: Ls).

(** ** Facts *)
Lemma trimmed_id s : trimmed s -> trim s = s.
Proof. intro H. apply (C84_trim_unique s s [] []); [exact H|constructor|constructor|rewrite app_nil_r; reflexivity]. Qed.
Lemma trimmed_app a b : trimmed a -> trimmed b -> a <> [] -> b <> [] -> trimmed (a ++ b).
Proof.
  intros [A1 A2] [B1 B2] Ha Hb. split.
  - intros c t E. destruct a as [|d a]; [easy|]. injection E as -> _. apply (A1 c a eq_refl).
  - intros c t E. destruct (exists_last Hb) as (b0 & d & Eb). rewrite Eb, app_assoc in E. apply app_inj_tail in E. destruct E as [_ <-]. apply (B2 d b0 Eb).
Qed.
Lemma count_char_occ c s : count_char c s = count_occ ascii_dec s c.
Proof.
  unfold count_char. induction s as [|d s IH]; [reflexivity|]. cbn [filter count_occ]. destruct (Ascii.eqb_spec d c) as [E|N], (ascii_dec d c); try contradiction; cbn [length]; congruence.
Qed.
Lemma finished_iff s : isBlockFinished s = true <-> finished s.
Proof. unfold isBlockFinished, finished. rewrite Nat.eqb_eq, !count_char_occ. reflexivity. Qed.
Lemma find_char_app c a t : ~ In c a -> find_char c (a ++ c :: t) = Some (length a).
Proof.
  induction a as [|d a IH]; intro H; cbn [app find_char length]; [rewrite Ascii.eqb_refl; reflexivity|]. destruct (Ascii.eqb_spec d c) as [-> |N]; [exfalso; apply H; simpl; auto|].
  rewrite IH by (intro; apply H; simpl; auto). reflexivity.
Qed.
Lemma find_char_none c a : ~ In c a -> find_char c a = None.
Proof. induction a as [|d a IH]; intro H; [reflexivity|]. cbn [find_char]. destruct (Ascii.eqb_spec d c) as [-> |N]; [exfalso; apply H; simpl; auto|]. rewrite IH by (intro; apply H; simpl; auto). reflexivity. Qed.

(** *** numbers *)
Lemma print_nat_chars v c : In c (print_Z (Z.of_nat v)) -> exists k, digit c = Some k.
Proof.
  intro H. assert (N := numeric_print (Z.of_nat v) (Nat2Z.is_nonneg v)). unfold numeric in N. rewrite forallb_forall in N. specialize (N c H). destruct (digit c) as [k|]; [eauto|discriminate].
Qed.
Lemma print_last z c t : print_Z z = t ++ [c] -> isspace c = false.
Proof.
  intro E. pose proof (print_word z) as W. rewrite E in W. unfold word in W. rewrite Forall_forall in W. apply W. apply in_or_app. simpl. auto.
Qed.
Lemma comma_chars vmax body vs : comma_numbers vmax body vs -> forall c, In c body -> isspace c = true \/ c = char_comma \/ exists k, digit c = Some k.
Proof.
  induction 1 as [b v b' Hb Hb' _|b v b' t vs Hb Hb' _ _ IH]; intros c Hc; unfold spaces in *; rewrite Forall_forall in Hb, Hb'; rewrite !in_app_iff in Hc.
  - destruct Hc as [Hc|[Hc|Hc]]; [left; auto|right; right; apply (print_nat_chars v); exact Hc|left; auto].
  - destruct Hc as [Hc|[Hc|[Hc|[<-|Hc]]]]; [left; auto|right; right; apply (print_nat_chars v); exact Hc|left; auto|auto|auto].
Qed.
Lemma comma_no_bracket vmax body vs : comma_numbers vmax body vs -> ~ In char_close body /\ ~ In char_open body.
Proof.
  intro H. split; intro X; apply (comma_chars vmax body vs H) in X; destruct X as [X|[X|(k & X)]]; discriminate.
Qed.
Lemma comma_trim vmax body vs : comma_numbers vmax body vs -> exists t, trim body = t /\ comma_numbers vmax t vs.
Proof.
  intro H. assert (G : exists a t z, spaces a /\ spaces z /\ body = a ++ t ++ z /\ trimmed t /\ t <> [] /\ forall a0, spaces a0 -> comma_numbers vmax (a0 ++ t) vs).
  { induction H as [b v b' Hb Hb' Hv|b v b' t vs Hb Hb' Hv _ (a & t' & z & Ha & Hz & -> & [T1 T2] & Hn & Hc)].
    - exists b, (print_Z (Z.of_nat v)), b'. refine (conj Hb (conj Hb' (conj eq_refl (conj _ (conj _ _))))).
      + split; [|intros c s E; apply (print_last _ c s E)]. intros c s E. apply (proj2 (print_first _ c s (Nat2Z.is_nonneg v) E)).
      + intro E. pose proof (print_nonempty (Z.of_nat v)) as L. rewrite E in L. simpl in L. lia.
      + intros a0 Ha0. rewrite <- (app_nil_r (print_Z _)). apply numbers_one; [exact Ha0|constructor|exact Hv].
    - exists b, (print_Z (Z.of_nat v) ++ b' ++ char_comma :: a ++ t'), z. refine (conj Hb (conj Hz (conj _ (conj _ (conj _ _))))).
      + rewrite <- !app_assoc. cbn [app]. rewrite <- !app_assoc. reflexivity.
      + split.
        * intros c s E. destruct (print_Z (Z.of_nat v)) as [|d p] eqn:Ep; [pose proof (print_nonempty (Z.of_nat v)) as L; rewrite Ep in L; simpl in L; lia|]. injection E as <- _. apply (proj2 (print_first _ d p (Nat2Z.is_nonneg v) Ep)).
        * intros c s E. destruct (exists_last Hn) as (t0 & d & Ed). apply (T2 c t0). rewrite Ed in E |- *. f_equal. f_equal.
          replace (print_Z (Z.of_nat v) ++ b' ++ char_comma :: a ++ t0 ++ [d]) with ((print_Z (Z.of_nat v) ++ b' ++ char_comma :: a ++ t0) ++ [d]) in E by (rewrite <- !app_assoc; cbn [app]; rewrite <- !app_assoc; reflexivity).
          apply app_inj_tail in E. apply E.
      + intro E. pose proof (print_nonempty (Z.of_nat v)) as L. destruct (print_Z (Z.of_nat v)); [simpl in L; lia|discriminate].
      + intros a0 Ha0. apply numbers_more; auto. }
  destruct G as (a & t & z & Ha & Hz & E & Ht & _ & Hc). exists t. split; [apply (C84_trim_unique body t a z); auto|]. apply (Hc [] (Forall_nil _)).
Qed.
Lemma split_plain m w s : ~ In char_comma w -> forall cur, split_commas m cur (w ++ s) = split_commas m (cur ++ w) s.
Proof.
  induction w as [|c w IH]; intros H cur; cbn [app]; [rewrite app_nil_r; reflexivity|]. cbn [split_commas]. destruct (Ascii.eqb_spec c char_comma) as [-> |N]; [exfalso; apply H; simpl; auto|].
  rewrite IH by (intro; apply H; simpl; auto). rewrite <- app_assoc. reflexivity.
Qed.
Lemma token_plain b v b' : spaces b -> spaces b' -> ~ In char_comma (b ++ print_Z (Z.of_nat v) ++ b').
Proof.
  intros Hb Hb'. unfold spaces in *. rewrite Forall_forall in Hb, Hb'. rewrite !in_app_iff. intros [X|[X|X]]; [apply Hb in X; discriminate|apply print_nat_chars in X; destruct X as (k & X); discriminate|apply Hb' in X; discriminate].
Qed.
Lemma token_value vmax b v b' : spaces b -> spaces b' -> (Z.of_nat v <= vmax)%Z -> vertex_of vmax (b ++ print_Z (Z.of_nat v) ++ b') = v.
Proof.
  intros Hb Hb' Hv. unfold vertex_of. rewrite extract_print; [|exact Hb|].
  - destruct (Z.ltb_spec (Z.of_nat v) (- vmax)); [lia|]. destruct (Z.ltb_spec vmax (Z.of_nat v)); [lia|]. cbv iota beta. destruct (Z.ltb_spec (Z.of_nat v) 0); [lia|]. apply Nat2Z.id.
  - apply spaced_no_digit. intros c t ->. inversion Hb'; assumption.
Qed.
Lemma split_numbers vmax t vs : comma_numbers vmax t vs -> forall m, map (vertex_of vmax) (split_commas m [] t) = vs.
Proof.
  induction 1 as [b v b' Hb Hb' Hv|b v b' t vs Hb Hb' Hv _ IH]; intro m.
  - rewrite <- (app_nil_r (b ++ _)), split_plain by (apply token_plain; assumption). cbn [app split_commas].
    pose proof (token_value vmax b v b' Hb Hb' Hv) as E. destruct (b ++ print_Z (Z.of_nat v) ++ b') as [|c s] eqn:Es.
    + exfalso. apply app_eq_nil in Es. destruct Es as [_ Es]. apply app_eq_nil in Es. destruct Es as [Es _]. pose proof (print_nonempty (Z.of_nat v)) as L. rewrite Es in L. simpl in L. lia.
    + cbn [map]. rewrite E. reflexivity.
  - replace (b ++ print_Z (Z.of_nat v) ++ b' ++ char_comma :: t) with ((b ++ print_Z (Z.of_nat v) ++ b') ++ char_comma :: t) by (rewrite <- !app_assoc; reflexivity).
    rewrite split_plain by (apply token_plain; assumption). cbn [app split_commas]. rewrite Ascii.eqb_refl. cbn [map]. rewrite (token_value vmax b v b' Hb Hb' Hv), IH. reflexivity.
Qed.
Lemma comma_nonempty vmax t vs : comma_numbers vmax t vs -> vs <> [].
Proof. intros [|]; discriminate. Qed.

(** *** the complex *)
Definition push_all (L : list (list nat)) (K : complex) : complex := fold_left (fun K vs => fst (k_push_back K (simplex_of vs 0))) L K.
Lemma push_reachable K vs d : reachable K -> reachable (fst (k_push_back K (simplex_of vs d))).
Proof. intros (lo & hi & h & ->). exists lo, hi, (h ++ [PushBack vs d]). unfold k_run. rewrite fold_left_app. reflexivity. Qed.
Lemma push_ok K vs : reachable K -> vs <> [] -> snd (k_push_back K (simplex_of vs 0)) = Ok tt /\
  by_index (fst (k_push_back K (simplex_of vs 0))) = if in_dec (list_eq_dec Nat.eq_dec) (verts (simplex_of vs 0)) (map verts (by_index K)) then by_index K else by_index K ++ [simplex_of vs 0].
Proof.
  intros HK Hne. unfold k_push_back. assert (C : k_contains K (simplex_of vs 0) = true <-> In (verts (simplex_of vs 0)) (map verts (by_index K))).
  { unfold k_contains. rewrite existsb_exists, in_map_iff. split; intros (t & H1 & H2); exists t; [apply s_eqb_eq in H2; auto|split; [exact H2|apply s_eqb_eq; auto]]. }
  destruct (k_contains K (simplex_of vs 0)).
  - destruct (in_dec _ _ _) as [I|I]; [auto|]. exfalso. apply I. apply C. reflexivity.
  - destruct (in_dec _ _ _) as [I|I]; [apply C in I; discriminate|]. rewrite (good_dimension (simplex_of vs 0) (simplex_of_good vs 0 Hne)). auto.
Qed.
Lemma push_all_listed L : (forall vs, In vs L -> vs <> []) -> listed L (push_all L k_empty).
Proof.
  intro HL. assert (G : forall K, reachable K -> (forall s, In s (by_index K) -> data s = 0%Z) -> forall F, first_occurrences F (map verts (by_index K)) ->
    reachable (push_all L K) /\ (forall s, In s (by_index (push_all L K)) -> data s = 0%Z) /\ first_occurrences (F ++ map (fun vs => verts (simplex_of vs 0)) L) (map verts (by_index (push_all L K)))).
  { induction L as [|vs L IH]; intros K RK DK F HF; cbn [push_all fold_left map]; [rewrite app_nil_r; auto|]. fold (push_all L (fst (k_push_back K (simplex_of vs 0)))).
    destruct (push_ok K vs RK (HL vs (or_introl eq_refl))) as [_ E].
    replace (F ++ verts (simplex_of vs 0) :: map (fun vs => verts (simplex_of vs 0)) L) with ((F ++ [verts (simplex_of vs 0)]) ++ map (fun vs => verts (simplex_of vs 0)) L) by (rewrite <- app_assoc; reflexivity).
    apply IH; [intros; apply HL; simpl; auto|apply push_reachable; exact RK| |].
    - rewrite E. destruct (in_dec _ _ _); [exact DK|]. intros s Hs. apply in_app_or in Hs. destruct Hs as [Hs|[<-|[]]]; [auto|reflexivity].
    - rewrite E. pose proof (first_step F (map verts (by_index K)) (verts (simplex_of vs 0)) (in_dec (list_eq_dec Nat.eq_dec) _ _) HF) as X. destruct (in_dec _ _ _); [exact X|]. rewrite map_app. exact X. }
  destruct (G k_empty) with (F := @nil (list nat)) as (G1 & G2 & G3).
  - exists 0%Z, 0%Z, []. reflexivity.
  - intros s [].
  - refine (conj (NoDup_nil _) (conj (fun x => iff_refl _) _)). intros i j y z _ X. destruct i; discriminate.
  - refine (conj G1 (conj G2 _)). exists (map (fun vs => verts (simplex_of vs 0)) L). split; [|exact G3]. clear. induction L as [|vs L IH]; constructor; [|exact IH]. split; [apply simplex_of_wf|]. intro x. apply simplex_of_In.
Qed.

(** *** the loop *)
Lemma filler_cases c : c = char_comma \/ isspace c = true -> Ascii.eqb c char_open = false /\ Ascii.eqb c char_close = false /\ (Ascii.eqb c char_comma || isspace c) = true.
Proof.
  intros [-> |H]; [auto|]. refine (conj _ (conj _ _)); [| |rewrite H; apply orb_true_r]; apply Ascii.eqb_neq; intros ->; discriminate.
Qed.
Lemma list_text_tail vmax c t L : list_text vmax (c :: t) L -> (Ascii.eqb c char_comma || isspace c) = true -> list_text vmax t L.
Proof.
  intros H Hc. assert (N : forall x, (Ascii.eqb x char_comma || isspace x) = true -> x <> char_open /\ x <> char_close) by (intros x Hx; split; intros ->; discriminate).
  inversion H as [b junk Hb E|b body vs t' L' Hb Hbd Hl E]; subst; destruct b as [|d b]; cbn [app] in E; injection E as <- <-.
  - exfalso. apply (proj2 (N _ Hc)). reflexivity.
  - constructor. inversion Hb; assumption.
  - exfalso. apply (proj1 (N _ Hc)). reflexivity.
  - constructor; auto. inversion Hb; assumption.
Qed.
Lemma list_text_nonempty vmax t L : list_text vmax t L -> t <> [].
Proof. intros H ->. inversion H as [b junk Hb E|b body vs t' L' Hb Hbd Hl E]; destruct b; discriminate. Qed.
Lemma skipn_app_exact {A} (a b : list A) : skipn (length a) (a ++ b) = b.
Proof. rewrite skipn_app, skipn_all, Nat.sub_diag. reflexivity. Qed.

Lemma parse_ok vmax : forall fuel rest L K, list_text vmax rest L -> length rest < fuel -> reachable K ->
  parse_list fuel vmax rest false [] K = Ok (push_all L K).
Proof.
  intro fuel. induction fuel as [fuel IH] using lt_wf_ind. intros rest L K HL Hf RK. destruct fuel as [|fuel]; [lia|].
  cbn [parse_list]. inversion HL as [b junk Hb E1 E2|b body vs t L' Hb Hbd Hl E1 E2].
  - destruct b as [|c b].
    + cbn [app]. subst. reflexivity.
    + inversion Hb as [|? ? Hc Hb']; subst. destruct (filler_cases c Hc) as (F1 & F2 & F3). cbn [app]. rewrite F1, F2, F3. apply (IH fuel ltac:(lia) (b ++ char_close :: junk) [] K); [constructor; exact Hb'|cbn [app length] in Hf; lia|exact RK].
  - destruct b as [|c b].
    + cbn [app] in *. rewrite Ascii.eqb_refl. change (Ascii.eqb char_open char_comma || isspace char_open) with false. cbv iota.
      destruct (comma_no_bracket vmax body vs Hbd) as [N1 N2].
      assert (Fc : find_char char_close (char_open :: body ++ char_close :: t) = Some (S (length body))).
      { change (char_open :: body ++ char_close :: t) with ((char_open :: body) ++ char_close :: t). rewrite find_char_app; [reflexivity|]. intros [X|X]; [discriminate|contradiction]. }
      assert (Fo : find_char char_open (char_open :: body ++ char_close :: t) = Some 0) by reflexivity. rewrite Fo, Fc. cbn [plus]. destruct (Nat.ltb_spec (S (length body)) 1); [lia|].
      replace (S (length body) - 0 - 1) with (length body) by lia. cbn [skipn]. rewrite firstn_app, firstn_all, Nat.sub_diag. cbn [firstn]. rewrite app_nil_r, skipn_app_exact. cbn [app].
      destruct (comma_trim vmax body vs Hbd) as (tb & Et & Htb). rewrite Et, (split_numbers vmax tb vs Htb).
      (** the closing bracket *)
      subst rest. cbn [length] in Hf. rewrite app_length in Hf. cbn [length] in Hf. destruct fuel as [|fuel]; [lia|]. cbn [parse_list].
      change (Ascii.eqb char_close char_open) with false. cbv iota. rewrite Ascii.eqb_refl.
      destruct (push_ok K vs RK (comma_nonempty _ _ _ Htb)) as [P1 _]. destruct (k_push_back K (simplex_of vs 0)) as [K' o] eqn:EK. cbn [snd] in P1. subst o.
      assert (RK' : reachable K') by (change K' with (fst (K', @Ok unit tt)); rewrite <- EK; apply push_reachable; exact RK).
      assert (EP : push_all (vs :: L') K = push_all L' K') by (cbn [push_all fold_left]; rewrite EK; reflexivity). rewrite EP.
      destruct t as [|d t]; [exfalso; apply (list_text_nonempty vmax [] L' Hl); reflexivity|]. cbn [length] in Hf. destruct (Ascii.eqb d char_comma || isspace d) eqn:Ed.
      * apply (IH fuel ltac:(lia) t L' K'); [apply (list_text_tail vmax d t L' Hl Ed)|lia|exact RK'].
      * apply (IH fuel ltac:(lia) (d :: t) L' K'); [exact Hl|cbn [length]; lia|exact RK'].
    + inversion Hb as [|? ? Hc Hb']; subst. destruct (filler_cases c Hc) as (F1 & F2 & F3). cbn [app]. rewrite F1, F2, F3.
      apply (IH fuel ltac:(lia) (b ++ char_open :: body ++ char_close :: t) (vs :: L') K); [constructor; assumption|cbn [app length] in Hf; lia|exact RK].
Qed.

Lemma list_text_simplices vmax t L : list_text vmax t L -> forall vs, In vs L -> vs <> [].
Proof. induction 1 as [|b body vs t L Hb Hbd _ IH]; intros us Hu; [destruct Hu|]. destruct Hu as [<-|Hu]; [apply (comma_nonempty _ _ _ Hbd)|auto]. Qed.

Lemma block_ok vmax fuel block L : block_text vmax block L -> length block < fuel -> exists K, parseBlock fuel vmax block = Ok K /\ listed L K.
Proof.
  intros (pre & t & Hp & -> & Ht & Hfin) Hf. exists (push_all L k_empty). split; [|apply push_all_listed; apply (list_text_simplices vmax t L Ht)].
  unfold parseBlock. rewrite (proj2 (finished_iff _) Hfin). cbn [negb]. rewrite find_char_app by exact Hp. replace (length pre + 1) with (length (pre ++ [char_open])) by (rewrite app_length; reflexivity).
  replace (pre ++ char_open :: t) with ((pre ++ [char_open]) ++ t) by (rewrite <- app_assoc; reflexivity). rewrite skipn_app_exact.
  apply parse_ok; [exact Ht|rewrite app_length in Hf; simpl in Hf; lia|]. exists 0%Z, 0%Z, []. reflexivity.
Qed.

Lemma ignored_step fuel vmax st line : ignored_line line -> triangulation_line fuel vmax st line = Ok st.
Proof.
  destruct st as [[md block] result]. intros [H|(b & t & Hb & ->)]; unfold triangulation_line; cbv zeta.
  - rewrite (trim_spaces line H). reflexivity.
  - destruct (trim_first b hash t Hb eq_refl) as (r & ->). rewrite Ascii.eqb_refl. reflexivity.
Qed.
Lemma content_trim line part : content line part -> trim line = part.
Proof. intros (a & b & c & t & Ha & Hb & E & Ht & _). apply (C84_trim_unique line part a b); assumption. Qed.

Lemma continued_trimmed block lines final : continued block lines final -> trimmed block -> length block <= length final.
Proof.
  induction 1 as [block|block line lines final _ _ _ IH|block line part lines final Hu Hc He _ IH]; intro T; [lia|auto|].
  destruct Hc as (a & b & c & t & _ & _ & _ & Tp & Ep & _).
  assert (block <> []) by (intros ->; apply Hu; reflexivity). specialize (IH (trimmed_app block part T Tp H ltac:(rewrite Ep; discriminate))). rewrite app_length in IH. lia.
Qed.
(** the blocks while they are read *)
Lemma continued_read fuel vmax result L block lines final : continued block lines final -> trimmed block -> block_text vmax final L -> length final < fuel -> ~ finished block ->
  exists K, listed L K /\ foldM (triangulation_line fuel vmax) lines (ParsingList, block, result) = Ok (ParsingBlocks, [], result ++ [K]).
Proof.
  induction 1 as [block Hfin|block line lines final Hu Hi HC IH|block line part lines final Hu Hc He HC IH]; intros T HB Hf Hun; [contradiction| |].
  - cbn [foldM]. rewrite (ignored_step fuel vmax _ line Hi). cbn [bind]. apply IH; assumption.
  - pose proof (content_trim line part Hc) as Et. destruct Hc as (a & b & c & t & _ & _ & _ & Tp & Ep & Nh).
    assert (Hbn : block <> []) by (intros ->; apply Hu; reflexivity). assert (T' : trimmed (block ++ part)) by (apply trimmed_app; auto; rewrite Ep; discriminate).
    assert (E : triangulation_line fuel vmax (ParsingList, block, result) line =
      if isBlockFinished (block ++ part) then let* K := parseBlock fuel vmax (block ++ part) in Ok (ParsingBlocks, [], result ++ [K]) else Ok (ParsingList, block ++ part, result)).
    { unfold triangulation_line. cbv zeta. rewrite Et. rewrite (find_char_none char_equals part He). rewrite Ep at 1. destruct (Ascii.eqb_spec c hash) as [|_]; [contradiction|]. cbn [bind]. rewrite (trimmed_id _ T'). reflexivity. }
    cbn [foldM]. rewrite E. destruct (isBlockFinished (block ++ part)) eqn:EF.
    + apply finished_iff in EF. inversion HC as [b' Hfin Eb El Ef|? ? ? ? Hx|? ? ? ? ? Hx]; subst; [|contradiction|contradiction].
      destruct (block_ok vmax fuel _ L HB Hf) as (K & EK & HK). rewrite EK. cbn [bind foldM]. exists K. auto.
    + cbn [bind]. apply IH; auto. intro X. apply finished_iff in X. congruence.
Qed.

(** A file with triangulations *)
Theorem C90_triangulations : forall vmax lines Ls text fuel, file_of lines text -> triangulations vmax lines Ls -> length (concat lines) < fuel ->
  exists Ks, read_triangulations fuel vmax text = Ok Ks /\ Forall2 listed Ls Ks.
Proof.
  intros vmax lines Ls text fuel Hf HT Hl. unfold read_triangulations. rewrite (file_lines lines text Hf). clear text Hf.
  assert (G : forall result, exists Ks, foldM (triangulation_line fuel vmax) lines (ParsingBlocks, [], result) = Ok (ParsingBlocks, [], result ++ Ks) /\ Forall2 listed Ls Ks).
  { induction HT as [|line lines Ls Hi HT IH|line name b part more block L lines Ls Hc Hn Hb Tp Hpn HC HB HT IH]; intro result.
    - exists []. rewrite app_nil_r. split; [reflexivity|constructor].
    - cbn [foldM]. rewrite (ignored_step fuel vmax _ line Hi). cbn [bind]. apply IH. cbn [concat] in Hl. rewrite app_length in Hl. lia.
    - cbn [concat] in Hl. rewrite concat_app, !app_length in Hl. pose proof (content_trim line _ Hc) as Et.
      assert (Lb : length block <= length line + length (concat more)).
      { assert (Lp : length part <= length line).
        { destruct Hc as (a & b' & c & t & _ & _ & -> & _). rewrite !app_length. cbn [length]. rewrite app_length. lia. }
        clear -HC Lp. assert (length block <= length part + length (concat more)); [|lia]. clear Lp. induction HC as [|block0 line0 lines0 final _ _ _ IH|block0 line0 part0 lines0 final _ Hc _ _ IH]; cbn [concat]; rewrite ?app_length in *; [simpl; lia|lia|].
        destruct Hc as (a & b & c & t & _ & _ & -> & _). rewrite !app_length in *. lia. }
      assert (E : triangulation_line fuel vmax (ParsingBlocks, [], result) line =
        if isBlockFinished part then let* K := parseBlock fuel vmax part in Ok (ParsingBlocks, [], result ++ [K]) else Ok (ParsingList, part, result)).
      { unfold triangulation_line. cbv zeta. rewrite Et. destruct Hc as (a & b' & c & t & _ & _ & _ & _ & Ep & Nh). rewrite find_char_app by exact Hn. rewrite Ep at 1. destruct (Ascii.eqb_spec c hash) as [|_]; [contradiction|]. cbn [bind].
        replace (length name + 1) with (length (name ++ [char_equals])) by (rewrite app_length; reflexivity).
        replace (name ++ char_equals :: b ++ part) with ((name ++ [char_equals]) ++ b ++ part) by (rewrite <- app_assoc; reflexivity). rewrite skipn_app_exact.
        rewrite (C84_trim_unique (b ++ part) part b []); [reflexivity|exact Tp|exact Hb|constructor|rewrite app_nil_r; reflexivity]. }
      cbn [foldM]. rewrite E. clear E. destruct (isBlockFinished part) eqn:EF.
      + apply finished_iff in EF. inversion HC as [b' Hfin Eb El Ef|? ? ? ? Hx|? ? ? ? ? Hx]; subst; [|contradiction|contradiction].
        destruct (block_ok vmax fuel block L HB ltac:(simpl in *; lia)) as (K & EK & HK). rewrite EK. cbn [bind app]. destruct (IH ltac:(simpl in *; lia) (result ++ [K])) as (Ks & EKs & HKs).
        exists (K :: Ks). rewrite EKs, <- app_assoc. split; [reflexivity|constructor; assumption].
      + cbn [bind]. rewrite BarycentricFacts.foldM_app. destruct (continued_read fuel vmax result L part more block HC Tp HB ltac:(lia)) as (K & HK & EK); [intro X; apply finished_iff in X; congruence|].
        unfold str in EK |- *. rewrite EK. cbn [bind]. destruct (IH ltac:(lia) (result ++ [K])) as (Ks & EKs & HKs). exists (K :: Ks). unfold str in EKs. rewrite EKs, <- app_assoc. split; [reflexivity|constructor; assumption]. }
  destruct (G []) as (Ks & -> & HKs). exists Ks. split; [reflexivity|exact HKs].
Qed.

(** FINDING: a character other than a bracket, a comma or white space between the
    simplices keeps the parser in an infinite loop. *)
Theorem C90_loop_refuted : forall fuel vmax c t K vs, c <> char_open -> c <> char_close -> c <> char_comma -> isspace c = false ->
  parse_list fuel vmax (c :: t) false vs K = OutOfFuel.
Proof.
  intros fuel vmax c t K vs H1 H2 H3 H4. induction fuel as [|fuel IH]; [reflexivity|]. cbn [parse_list].
  destruct (Ascii.eqb_spec c char_open); [contradiction|]. destruct (Ascii.eqb_spec c char_close); [contradiction|]. destruct (Ascii.eqb_spec c char_comma); [contradiction|]. rewrite H4. exact IH.
Qed.
Theorem C90_nontermination_refuted : forall fuel vmax,
  read_triangulations fuel vmax (chars "simplex=[1,2,3]") = OutOfFuel /\ read_triangulations fuel vmax (chars "x=5") = OutOfFuel /\
  (3 < fuel -> read_triangulations fuel vmax (chars "m=[[1];[2]]") = OutOfFuel).
Proof.
  intros fuel vmax. refine (conj _ (conj _ _)).
  - unfold read_triangulations. change (getlines [] (chars "simplex=[1,2,3]")) with [chars "simplex=[1,2,3]"]. cbn [foldM].
    change (triangulation_line fuel vmax (ParsingBlocks, [], []) (chars "simplex=[1,2,3]")) with (let* K := parse_list fuel vmax (chars "1,2,3]") false [] k_empty in Ok (ParsingBlocks, @nil ascii, [K])).
    rewrite (C90_loop_refuted fuel vmax "1" (chars ",2,3]")) by (discriminate || reflexivity). reflexivity.
  - unfold read_triangulations. change (getlines [] (chars "x=5")) with [chars "x=5"]. cbn [foldM].
    change (triangulation_line fuel vmax (ParsingBlocks, [], []) (chars "x=5")) with (let* K := parse_list fuel vmax (chars "5") false [] k_empty in Ok (ParsingBlocks, @nil ascii, [K])).
    rewrite (C90_loop_refuted fuel vmax "5" []) by (discriminate || reflexivity). reflexivity.
  - intro Hf. destruct fuel as [|[|fuel]]; [lia|lia|]. unfold read_triangulations. change (getlines [] (chars "m=[[1];[2]]")) with [chars "m=[[1];[2]]"]. cbn [foldM].
    change (triangulation_line (S (S fuel)) vmax (ParsingBlocks, [], []) (chars "m=[[1];[2]]")) with
      (let* K := parse_list fuel vmax (chars ";[2]]") false [] (fst (k_push_back k_empty (simplex_of [vertex_of vmax (chars "1")] 0))) in Ok (ParsingBlocks, @nil ascii, [K])).
    rewrite (C90_loop_refuted fuel vmax ";" (chars "[2]]")) by (discriminate || reflexivity). reflexivity.
Qed.

(** FINDING: if the list begins in the line after the name, or for lines in front of the
    first name, there is an empty complex for every line. *)
Theorem C90_next_line_refuted :
  read_triangulations 100 255 (chars "m=" ++ [newline] ++ chars "[[1,2,3]," ++ [newline] ++ chars "[2,3,4]]") = Ok [k_empty; k_empty; k_empty].
Proof. vm_compute. reflexivity. Qed.

(** FINDING: the end of the block can be dereferenced. *)
Theorem C90_end_refuted : read_triangulations 100 255 (chars "m=][[1]") = UB.
Proof. vm_compute. reflexivity. Qed.

Example C90_example :
  (exists K1 K2, read_triangulations 100 255 (chars "# Lutz" ++ [newline] ++ chars "tetrahedron=[[1,2,3],[1,2,4]," ++ [newline; newline] ++ chars "  [ 1, 3,4] ,[2,3,4] ]" ++ [newline] ++ chars "circle = [[1,2],[1,3],[2,3]]") = Ok [K1; K2] /\
    map verts (by_index K1) = [[3; 2; 1]; [4; 2; 1]; [4; 3; 1]; [4; 3; 2]] /\ map verts (by_index K2) = [[2; 1]; [3; 1]; [3; 2]]).
Proof. do 2 eexists. refine (conj _ (conj _ _)); vm_compute; reflexivity. Qed.

Example C90_specification : triangulations 255 [chars "c=[[1,2]," ; chars " [2,1]]"] [[[1; 2]; [2; 1]]].
Proof.
  assert (N : forall a b, (Z.of_nat a <= 255)%Z -> (Z.of_nat b <= 255)%Z -> comma_numbers 255 (print_Z (Z.of_nat a) ++ char_comma :: print_Z (Z.of_nat b)) [a; b]).
  { intros a b Ha Hb. apply (numbers_more 255 [] a [] (print_Z (Z.of_nat b)) [b]); [constructor|constructor|exact Ha|]. rewrite <- (app_nil_r (print_Z (Z.of_nat b))). apply (numbers_one 255 []); [constructor|constructor|exact Hb]. }
  assert (Tr : forall s, trim s = s -> trimmed s) by (intros s E; rewrite <- E; apply C84_trim).
  apply (tri_block 255 (chars "c=[[1,2],") (chars "c") [] (chars "[[1,2],") [chars " [2,1]]"] (chars "[[1,2],[2,1]]") [[1; 2]; [2; 1]] [] []).
  - exists [], [], "c"%char, (chars "=[[1,2],"). refine (conj _ (conj _ (conj eq_refl (conj _ (conj eq_refl _))))); [constructor|constructor|apply Tr; reflexivity|discriminate].
  - intros [X|[]]. discriminate.
  - constructor.
  - apply Tr. reflexivity.
  - discriminate.
  - apply (continued_more _ _ (chars "[2,1]]")); [discriminate| | |].
    + exists (chars " "), [], "["%char, (chars "2,1]]"). refine (conj _ (conj _ (conj eq_refl (conj _ (conj eq_refl _))))); [repeat constructor|constructor|apply Tr; reflexivity|discriminate].
    + simpl. intuition discriminate.
    + constructor. reflexivity.
  - exists [], (chars "[1,2],[2,1]]"). refine (conj _ (conj eq_refl (conj _ eq_refl))); [intros []|].
    apply (list_more 255 [] (chars "1,2") [1; 2] (chars ",[2,1]]") [[2; 1]]); [constructor|apply (N 1 2); lia|].
    apply (list_more 255 [char_comma] (chars "2,1") [2; 1] (chars "]") []); [repeat constructor|apply (N 2 1); lia|]. apply (list_end 255 [] []). constructor.
  - constructor.
Qed.

Print Assumptions C90_triangulations.
Print Assumptions C90_loop_refuted.
Print Assumptions C90_nontermination_refuted.
Print Assumptions C90_next_line_refuted.
Print Assumptions C90_end_refuted.
