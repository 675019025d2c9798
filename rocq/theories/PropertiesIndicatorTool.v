(** * Files with persistence indicator functions (C173) *)
From Coq Require Import String.
From Coq Require Import Ascii List Arith Bool ZArith QArith Lia Sorted Permutation.
From Verif Require Import Base BaseFacts LoadMatrix LoadFacts StringUtilities PropertiesString DiagramIO Filesystem PropertiesFilesystem.
From Verif Require BarycentricFacts.
From Verif Require Import Diagram Envelope PropertiesSmall StepFunction StepFacts PropertiesStep StepText IndicatorTool.
Import ListNotations.
Local Open Scope list_scope.
Local Open Scope nat_scope.

(** ** Names *)
(** The directory gets a slash if there is none; the name is that of the input without directory and extension. *)
Theorem C173_names :
  output_directory [] = chars "/tmp/" /\
  (forall o, output_directory (o ++ [slash]) = o ++ [slash]) /\
  (forall o c, c <> slash -> output_directory (o ++ [c]) = o ++ [c; slash]) /\
  (forall d prefix dir a e, directory dir -> ~ In slash (a ++ dot :: e) -> ~ In dot e -> a ++ dot :: e <> chars "." -> a ++ dot :: e <> chars ".." ->
    output_filename d prefix (dir ++ a ++ dot :: e) = d ++ prefix ++ a ++ chars ".txt") /\
  forall d prefix dir a, directory dir -> ~ In slash a -> ~ In dot a -> a <> [] -> output_filename d prefix (dir ++ a) = d ++ prefix ++ a ++ chars ".txt".
Proof.
  assert (LO : forall (o : str) c, last_opt (o ++ [c]) = Some c). { induction o as [|x o IH]; intro c; [reflexivity|]. cbn [app]. specialize (IH c). destruct (o ++ [c]) eqn:E; [destruct o; discriminate|]. exact IH. }
  assert (OD : forall o c, output_directory (o ++ [c]) = if Ascii.eqb c slash then o ++ [c] else (o ++ [c]) ++ [slash]).
  { intros o c. unfold output_directory. destruct (o ++ [c]) as [|x l] eqn:E; [destruct o; discriminate|]. rewrite <- E, LO. reflexivity. }
  assert (B : forall dir a, directory dir -> a <> [] -> ~ In slash a -> basename (dir ++ a) = a).
  { intros dir a Hd Ha Hs. pose proof (proj1 C126_basename dir a 0 Hd Ha Hs) as E. cbn [repeat] in E. rewrite app_nil_r in E. exact E. }
  refine (conj eq_refl (conj _ (conj _ (conj _ _)))).
  - intro o. rewrite OD. destruct (Ascii.eqb_spec slash slash); [reflexivity|contradiction].
  - intros o c Hc. rewrite OD. destruct (Ascii.eqb_spec c slash); [contradiction|]. rewrite <- app_assoc. reflexivity.
  - intros d prefix dir a e Hd Hs He H1 H2. unfold output_filename. rewrite B; [|exact Hd|destruct a; discriminate|exact Hs].
    assert (BB : basename (a ++ dot :: e) = a ++ dot :: e) by (apply (B []); [left; reflexivity|destruct a; discriminate|exact Hs]).
    destruct (C126_extension (a ++ dot :: e)) as (_ & X & _). rewrite BB in X. destruct (X a e eq_refl He H1 H2) as [-> _]. reflexivity.
  - intros d prefix dir a Hd Hs Hdot Ha. unfold output_filename. rewrite B by assumption. assert (BB : basename a = a) by (apply (B []); [left; reflexivity|assumption|assumption]).
    destruct (C126_extension a) as (_ & _ & X). rewrite BB in X. destruct X as [-> _]; [left; exact Hdot|reflexivity].
Qed.

(** ** Files *)
Lemma exists_last_or {A} (l : list A) : l = [] \/ exists l' a, l = l' ++ [a].
Proof. destruct l as [|x l]; [left; reflexivity|]. right. destruct (exists_last (l := x :: l)) as (l' & a & E); [discriminate|]. eauto. Qed.

Definition admissible (inf : Z) (D : diagram) : Prop :=
  consistent inf D /\ (Z.of_nat (length (points D)) < uint_range)%Z /\
  forall p, In p (points D) -> fst p = snd p -> (fst p < 0)%Z -> exists q, In q (points D) /\ (lo q < fst p)%Z.
(** [f] counts the intervals of [D] *)
Definition counts (f : step_function) (D : diagram) : Prop :=
  (forall x, ~ (birth D x /\ death D x) -> sf_eval f x = active_at D x) /\ (forall x, birth D x -> death D x -> sf_eval f x = active_before D x).

Lemma in_write name text files p : In p (write_file name text files) <-> (In p files /\ fst p <> name) \/ p = (name, text).
Proof.
  unfold write_file. rewrite in_app_iff, filter_In. cbn [In]. assert (E : negb (str_eqb (fst p) name) = true <-> fst p <> name). { rewrite negb_true_iff. destruct (str_eqb (fst p) name) eqn:X; [apply PropertiesString.str_eqb_spec in X; split; [discriminate|contradiction]|]. split; [intros _ Y; apply PropertiesString.str_eqb_spec in Y; congruence|reflexivity]. }
  rewrite E. intuition congruence.
Qed.
Lemma nodup_write name text files : NoDup (map fst files) -> NoDup (map fst (write_file name text files)).
Proof.
  intro H. unfold write_file. rewrite map_app. cbn [map fst].
  assert (G : NoDup (map fst (filter (fun f : str * str => negb (str_eqb (fst f) name)) files)) /\ ~ In name (map fst (filter (fun f : str * str => negb (str_eqb (fst f) name)) files))).
  { split.
    - induction files as [|f l IH]; [constructor|]. cbn [map] in H. inversion H as [|? ? N1 N2]; subst. cbn [filter]. destruct (negb _); [|auto]. cbn [map]. constructor; [|auto]. intro X. apply N1. apply in_map_iff in X. destruct X as (g & <- & Hg). apply in_map. apply filter_In in Hg. apply Hg.
    - intro X. apply in_map_iff in X. destruct X as (g & E & Hg). apply filter_In in Hg. destruct Hg as [_ Hg]. rewrite E in Hg. rewrite (proj2 (PropertiesString.str_eqb_spec name name) eq_refl) in Hg. discriminate. }
  destruct G as [G1 G2]. apply (Permutation_NoDup (l := name :: map fst (filter (fun f : str * str => negb (str_eqb (fst f) name)) files))); [apply Permutation_cons_append|]. constructor; assumption.
Qed.

(** Every file contains the function of the last diagram with its name. *)
Theorem C173_files : forall inf o prefix load names, (forall name, In name names -> admissible inf (removeUnpaired inf (load name))) ->
  exists out, indicator_tool inf false o prefix load names = Ok (out, None) /\ NoDup (map fst out) /\
  let path := fun name => output_filename (output_directory o) prefix name in
  forall p text, In (p, text) out <-> exists before name after f, names = before ++ name :: after /\ path name = p /\ (forall later, In later after -> path later <> p) /\
    persistenceIndicatorFunction inf (removeUnpaired inf (load name)) = Ok f /\ counts f (removeUnpaired inf (load name)) /\ text = sf_print f ++ [newline].
Proof.
  intros inf o prefix load names HA. set (path := fun name => output_filename (output_directory o) prefix name).
  assert (G : forall l pre st, names = pre ++ l -> NoDup (map fst (written st)) ->
    (forall p text, In (p, text) (written st) <-> exists before name after f, pre = before ++ name :: after /\ path name = p /\ (forall later, In later after -> path later <> p) /\
      persistenceIndicatorFunction inf (removeUnpaired inf (load name)) = Ok f /\ counts f (removeUnpaired inf (load name)) /\ text = sf_print f ++ [newline]) ->
    exists st', foldM (indicator_step inf false (output_directory o) prefix) (map (fun name => (name, removeUnpaired inf (load name))) l) st = Ok st' /\ NoDup (map fst (written st')) /\
    forall p text, In (p, text) (written st') <-> exists before name after f, names = before ++ name :: after /\ path name = p /\ (forall later, In later after -> path later <> p) /\
      persistenceIndicatorFunction inf (removeUnpaired inf (load name)) = Ok f /\ counts f (removeUnpaired inf (load name)) /\ text = sf_print f ++ [newline]).
  { induction l as [|x l IH]; intros pre st En ND HI.
    - rewrite app_nil_r in En. exists st. split; [reflexivity|]. split; [exact ND|]. rewrite En. exact HI.
    - assert (Hx : In x names) by (rewrite En; apply in_or_app; right; left; reflexivity). destruct (HA x Hx) as (A1 & A2 & A3). destruct (C38_indicator inf _ A1 A2 A3) as (f & Ef & C1 & C2).
      cbn [map foldM].
      assert (ES : indicator_step inf false (output_directory o) prefix st (x, removeUnpaired inf (load x)) = Ok (State (mean_function st) (functions st ++ [f]) (write_file (path x) (sf_print f ++ [newline]) (written st)))) by (unfold indicator_step; rewrite Ef; reflexivity).
      rewrite ES. cbn [bind]. apply (IH (pre ++ [x])); [rewrite <- app_assoc; exact En|cbn [written]; apply nodup_write; exact ND|].
      intros p text. cbn [written]. rewrite in_write. cbn [fst]. rewrite HI. split.
      + intros [[(before & name & after & g & E & P & L & R) Hne]|E].
        * exists before, name, (after ++ [x]), g. split; [rewrite E, <- app_assoc; reflexivity|]. split; [exact P|]. split; [|exact R]. intros later Hl. apply in_app_or in Hl. destruct Hl as [Hl|[<-|[]]]; [apply L; exact Hl|congruence].
        * injection E as -> ->. exists pre, x, [], f. split; [reflexivity|]. split; [reflexivity|]. split; [intros later []|]. split; [exact Ef|]. split; [split; assumption|reflexivity].
      + intros (before & name & after & g & E & P & L & R1 & R2 & R3). destruct (exists_last_or after) as [->|(after' & y & ->)].
        * apply app_inj_tail in E. destruct E as [-> <-]. right. rewrite Ef in R1. injection R1 as <-. rewrite R3, P. reflexivity.
        * left. replace (before ++ name :: after' ++ [y]) with ((before ++ name :: after') ++ [y]) in E by (rewrite <- app_assoc; reflexivity). apply app_inj_tail in E. destruct E as [E <-]. split.
          -- exists before, name, after', g. repeat split; try assumption; try apply R2. intros later Hl. apply L. apply in_or_app. left. exact Hl.
          -- intro X. apply (L x); [apply in_or_app; right; left; reflexivity|congruence]. }
  destruct (G names [] (State [] [] [])) as (st & E & ND & HI); [reflexivity|constructor| |].
  { intros p text. split; [intros []|]. intros (before & name & after & f & X & _). destruct before; discriminate X. }
  exists (written st). split; [|split; [exact ND|exact HI]]. unfold indicator_tool. rewrite E. reflexivity.
Qed.

(** FINDING: of two files with the same name up to directory and extension, only the last one has an output. *)
Theorem C173_stem_refuted : exists load out, indicator_tool 100 false (chars "/out") (chars "PIF_") load [chars "a/x.txt"; chars "b/x.dat"] = Ok (out, None) /\
  map fst out = [chars "/out/PIF_x.txt"].
Proof. exists (fun _ => Diagram 0 [(1, 3)%Z]). eexists. split; vm_compute; reflexivity. Qed.

(** ** The mean *)
Definition wide (f : step_function) : Prop := exists i, In i f /\ ia i <> ib i.
Lemma insert_keeps x f : wide f -> wide (sf_insert x f).
Proof.
  induction f as [|y f IH]; intros (i & Hi & Hn); [destruct Hi|]. cbn [sf_insert]. destruct (ind_ltb x y); [exists i; split; [right; exact Hi|exact Hn]|]. destruct (ind_ltb y x); [|exists i; auto].
  destruct Hi as [<-|Hi]; [exists y; split; [left; reflexivity|exact Hn]|]. destruct IH as (j & Hj & Nj); [exists i; auto|]. exists j. split; [right; exact Hj|exact Nj].
Qed.
Lemma add_keeps a b y f h : sf_add a b y f = Ok h -> wide f -> wide h.
Proof. unfold sf_add. destruct (indicator_of a b y) as [i| | |]; try discriminate. intros E W. injection E as <-. apply insert_keeps. exact W. Qed.
Lemma add_empty a b y h : sf_add a b y [] = Ok h -> a <> b -> h = [Ind a b y] /\ wide h.
Proof. unfold sf_add, indicator_of. destruct (b <? a)%Z; [discriminate|]. intros E N. injection E as <-. cbn. split; [reflexivity|]. exists (Ind a b y). split; [left; reflexivity|exact N]. Qed.
Lemma loop_keeps f g : forall domain prev h k, plus_loop f g prev domain h = Ok k -> wide h -> wide k.
Proof.
  induction domain as [|curr domain IH]; intros prev h k E W; [injection E as <-; exact W|]. cbn [plus_loop] in E.
  destruct (_ && _).
  - apply bind_ok in E. destruct E as (h' & E1 & E2). apply (IH _ _ _ E2). apply (add_keeps _ _ _ _ _ E1 W).
  - apply bind_ok in E. destruct E as (h' & E1 & E2). apply (IH _ _ _ E2). destruct (negb _).
    + apply bind_ok in E1. destruct E1 as (h1 & E3 & E4). apply (add_keeps _ _ _ _ _ E4). apply (add_keeps _ _ _ _ _ E3 W).
    + apply (add_keeps _ _ _ _ _ E1 W).
Qed.
Lemma loop_wide f g prev curr domain k : (prev < curr)%Z -> plus_loop f g prev (curr :: domain) [] = Ok k -> wide k.
Proof.
  intros L E. cbn [plus_loop] in E. destruct (_ && _).
  - apply bind_ok in E. destruct E as (h & E1 & E2). apply (loop_keeps _ _ _ _ _ _ E2). apply (add_empty _ _ _ _ E1). lia.
  - apply bind_ok in E. destruct E as (h & E1 & E2). apply (loop_keeps _ _ _ _ _ _ E2). match type of E1 with context [if ?c then next_value prev else prev] => set (p := if c then next_value prev else prev) in * end.
    assert (Hp : (prev <= p <= prev + 1)%Z) by (unfold p, next_value; destruct (_ || _); lia). clearbody p. unfold next_value, previous_value in *. destruct (negb _).
    + apply bind_ok in E1. destruct E1 as (h1 & E3 & E4). unfold sf_add, indicator_of in E3, E4. destruct (curr - 1 <? p)%Z; [discriminate|]. injection E3 as <-. destruct (curr + 1 <? curr)%Z; [discriminate|]. injection E4 as <-. cbn [sf_insert].
      unfold ind_ltb. cbn [ia ib]. destruct (Z.leb_spec (curr + 1) p); [|destruct (Z.leb_spec (curr - 1) curr); [|lia]]; exists (Ind curr (curr + 1) (sf_eval f curr + sf_eval g curr)%Z); (split; [cbn; tauto|cbn; lia]).
    + apply (add_empty _ _ _ _ E1). lia.
Qed.
Lemma clean_wide h k : wide h -> sf_clean h <> Ok k.
Proof.
  intros (i & Hi & Hn) E. unfold sf_clean in E. destruct (filter _ h) as [|j l] eqn:F.
  - assert (X : In i (filter (fun i => negb (ia i =? ib i)%Z) h)); [|rewrite F in X; destruct X]. apply filter_In. split; [exact Hi|]. apply negb_true_iff, Z.eqb_neq. exact Hn.
  - apply clean_loop_never in E. discriminate.
Qed.

Lemma plus_never g f x y k : In x (sf_domain f) -> In y (sf_domain f) -> (x < y)%Z -> sf_plus g f <> Ok k.
Proof.
  intros Hx Hy L E. unfold sf_plus in E.
  assert (G : forall l s, StronglySorted Z.lt s -> StronglySorted Z.lt (fold_left (fun s x => zset_insert x s) l s) /\ forall z, In z (fold_left (fun s x => zset_insert x s) l s) <-> In z l \/ In z s).
  { induction l as [|a l IH]; intros s Hs; [split; [exact Hs|intro z; cbn; tauto]|]. cbn [fold_left]. destruct (IH (zset_insert a s) (zset_insert_sorted a s Hs)) as [A B]. split; [exact A|]. intro z. rewrite B, zset_insert_In. cbn [In]. intuition congruence. }
  destruct (G (sf_domain g ++ sf_domain f) [] ltac:(constructor)) as [S I]. destruct (fold_left _ _ []) as [|d [|e rest]] eqn:F.
  - destruct (proj2 (I x)). left. apply in_or_app. right. exact Hx.
  - assert (X : In x [d]) by (apply I; left; apply in_or_app; right; exact Hx). assert (Y : In y [d]) by (apply I; left; apply in_or_app; right; exact Hy). destruct X as [X|[]], Y as [Y|[]]. lia.
  - apply bind_ok in E. destruct E as (h & E1 & E2). apply (clean_wide h k); [|exact E2]. apply (loop_wide _ _ _ _ _ _) in E1; [exact E1|]. inversion S as [|? ? _ H]; subst. inversion H; assumption.
Qed.
Lemma eval_contains f x : sf_eval f x <> 0%Z -> exists i, In i f /\ (ia i <= x <= ib i)%Z.
Proof.
  intro H. destruct (existsb (ind_contains x) f) eqn:E.
  - apply existsb_exists in E. destruct E as (i & Hi & C). exists i. split; [exact Hi|]. unfold ind_contains in C. lia.
  - exfalso. apply H. unfold sf_eval. assert (D : drop_until (ind_contains x) f = []); [|rewrite D; reflexivity]. clear H. induction f as [|i f IH]; [reflexivity|]. cbn [existsb] in E. apply orb_false_iff in E. destruct E as [E1 E2]. cbn [drop_until]. rewrite E1. apply IH. exact E2.
Qed.
Lemma two_values f x y : (x < y)%Z -> sf_eval f x <> 0%Z -> sf_eval f y <> 0%Z -> exists u v, In u (sf_domain f) /\ In v (sf_domain f) /\ (u < v)%Z.
Proof.
  intros L Hx Hy. apply eval_contains in Hx, Hy. destruct Hx as (i & Hi & Ci), Hy as (j & Hj & Cj).
  assert (D : forall i, In i f -> In (ia i) (sf_domain f) /\ In (ib i) (sf_domain f)). { intros k Hk. unfold sf_domain. split; apply in_flat_map; exists k; (split; [exact Hk|cbn; tauto]). }
  destruct (Z.eq_dec (ia i) (ib i)) as [E|E]; [|exists (ia i), (ib i); split; [apply D; exact Hi|split; [apply D; exact Hi|lia]]].
  exists (ia i), (ib j). split; [apply D; exact Hi|]. split; [apply D; exact Hj|lia].
Qed.
Lemma extreme (g : point -> Z) (l : list point) : l <> [] -> exists p, In p l /\ forall q, In q l -> (g p <= g q)%Z.
Proof.
  induction l as [|a l IH]; intro Hl; [contradiction|]. destruct l as [|b l]; [exists a; split; [left; reflexivity|intros r [->|[]]; lia]|].
  destruct (IH ltac:(discriminate)) as (j & Hj & Hm). destruct (Z.le_gt_cases (g a) (g j)) as [L|L]; [exists a; split; [left; reflexivity|]|exists j; split; [right; exact Hj|]]; intros r [<-|Hr]; try lia; specialize (Hm r Hr); lia.
Qed.
Lemma pc_pos q (l : list point) p : In p l -> q p = true -> (0 < pc q l)%Z.
Proof. intros Hp Hq. unfold pc. assert (X : In p (filter q l)) by (apply filter_In; auto). destruct (filter q l); [destruct X|cbn [length]; lia]. Qed.
Lemma counted_wide f D : counts f D -> points D <> [] -> (forall p, In p (points D) -> fst p <> snd p) -> exists u v, In u (sf_domain f) /\ In v (sf_domain f) /\ (u < v)%Z.
Proof.
  intros [C _] Hne Hd. destruct (extreme lo (points D) Hne) as (p & Hp & Mp). destruct (extreme (fun p => - hi p)%Z (points D) Hne) as (q & Hq & Mq).
  assert (LH : forall r, In r (points D) -> (lo r < hi r)%Z) by (intros r Hr; specialize (Hd r Hr); unfold lo, hi; lia).
  apply (two_values f (lo p) (hi q)).
  - pose proof (LH p Hp). specialize (Mq p Hp). cbn in Mq. lia.
  - rewrite C; [apply Z.neq_sym, Z.lt_neq; apply (pc_pos _ _ p Hp)|].
    + pose proof (LH p Hp). apply andb_true_intro. split; apply Z.leb_le; lia.
    + intros [_ (r & Hr & E)]. pose proof (LH r Hr). specialize (Mp r Hr). lia.
  - rewrite C; [apply Z.neq_sym, Z.lt_neq; apply (pc_pos _ _ q Hq)|].
    + pose proof (LH q Hq). apply andb_true_intro. split; apply Z.leb_le; lia.
    + intros [(r & Hr & E) _]. pose proof (LH r Hr). specialize (Mq r Hr). cbn in Mq. lia.
Qed.

(** FINDING: the mean can never be calculated if one of the diagrams has intervals. *)
Theorem C173_mean_refuted : forall inf o prefix load names name, In name names ->
  let D := removeUnpaired inf (load name) in admissible inf D -> points D <> [] -> (forall p, In p (points D) -> fst p <> snd p) ->
  forall out, indicator_tool inf true o prefix load names <> Ok out.
Proof.
  intros inf o prefix load names name Hn D (A1 & A2 & A3) Hne Hd out E. destruct (C38_indicator inf D A1 A2 A3) as (f & Ef & C1 & C2).
  destruct (counted_wide f D (conj C1 C2) Hne Hd) as (u & v & Hu & Hv & L). unfold indicator_tool in E. apply bind_ok in E. destruct E as (st & E & _).
  apply in_split in Hn. destruct Hn as (pre & post & ->). rewrite map_app, BarycentricFacts.foldM_app in E. apply bind_ok in E. destruct E as (st1 & _ & E). cbn [map foldM] in E. apply bind_ok in E. destruct E as (st2 & E & _). unfold indicator_step in E. fold D in E. rewrite Ef in E. cbn [bind] in E.
  apply bind_ok in E. destruct E as (m & E & _). exact (plus_never _ _ u v m Hu Hv L E).
Qed.
(** If it is calculated, it is zero; there is a variance if and only if there are at least two files. *)
Theorem C173_mean_zero : forall inf o prefix load names out r, indicator_tool inf true o prefix load names = Ok (out, r) ->
  In (output_directory o ++ prefix ++ chars "mean.txt", [newline]) out /\ exists s, r = Some (0%Z, s) /\ (s = None <-> length names <= 1).
Proof.
  intros inf o prefix load names out r E. unfold indicator_tool in E. apply bind_ok in E. destruct E as (st & E & E1).
  assert (M : mean_function st = []).
  { revert E. generalize (State [] [] []) (eq_refl : mean_function (State [] [] []) = []). generalize (map (fun name => (name, removeUnpaired inf (load name))) names). induction l as [|[n D] l IH]; intros s0 H0 E; [injection E as <-; exact H0|].
    cbn [foldM] in E. apply bind_ok in E. destruct E as (s1 & E1' & E2). apply (IH s1); [|exact E2]. unfold indicator_step in E1'. apply bind_ok in E1'. destruct E1' as (f & _ & E3). apply bind_ok in E3. destruct E3 as (m & E4 & E5). apply C60_sum_refuted in E4. injection E5 as <-. exact E4. }
  assert (N : length (functions st) = length names).
  { rewrite <- (map_length (fun name => (name, removeUnpaired inf (load name))) names). change (length (functions st) = length (functions (State [] [] [])) + length (map (fun name => (name, removeUnpaired inf (load name))) names)).
    revert E. generalize (State [] [] []). generalize (map (fun name => (name, removeUnpaired inf (load name))) names). induction l as [|[n D] l IH]; intros s0 E; [injection E as <-; cbn; lia|].
    cbn [foldM] in E. apply bind_ok in E. destruct E as (s1 & E1' & E2). rewrite (IH s1 E2). unfold indicator_step in E1'. apply bind_ok in E1'. destruct E1' as (f & _ & E3). apply bind_ok in E3. destruct E3 as (m & _ & E5). injection E5 as <-. cbn [functions length]. rewrite app_length. cbn. lia. }
  rewrite M in E1. apply bind_ok in E1. destruct E1 as (m & E2 & E3). unfold sf_divide in E2. destruct (_ =? 0)%Z; [discriminate|]. injection E2 as <-. cbn in E3. injection E3 as <- <-. split; [apply in_write; right; reflexivity|]. eexists. split; [reflexivity|]. unfold sample_variance. rewrite N. destruct (Nat.ltb_spec 1 (length names)); split; intro; first [discriminate|lia|reflexivity].
Qed.
(** FINDING: without files, an exception leaves the program. *)
Theorem C173_none_refuted : forall inf o prefix load, indicator_tool inf true o prefix load [] = Throw RuntimeError.
Proof. reflexivity. Qed.

(** Two diagrams: one text for each. *)
Example C173_example :
  let load := fun name => if str_eqb name (chars "in/a.txt") then Diagram 0 [(0, 4); (1, 100)]%Z else Diagram 0 [(2, 5); (2, 9)]%Z in
  exists out, indicator_tool 100 false (chars "/out") (chars "PIF_") load [chars "in/a.txt"; chars "b.x.y"] = Ok (out, None) /\
    map fst out = [chars "/out/PIF_a.txt"; chars "/out/PIF_b.x.txt"] /\
    (forall name, In name [chars "in/a.txt"; chars "b.x.y"] -> admissible 100 (removeUnpaired 100 (load name))) /\
    forall r, indicator_tool 100 true (chars "/out") (chars "PIF_") load [chars "in/a.txt"; chars "b.x.y"] <> Ok r.
Proof.
  intro load. eexists. split; [vm_compute; reflexivity|]. split; [vm_compute; reflexivity|].
  assert (A : forall name, In name [chars "in/a.txt"; chars "b.x.y"] -> admissible 100 (removeUnpaired 100 (load name))).
  { intros name [<-|[<-|[]]]; (split; [left; vm_compute; repeat constructor; discriminate|]); (split; [vm_compute; reflexivity|]); intros p Hp E; vm_compute in Hp; intuition (subst; discriminate). }
  split; [exact A|]. intro r. apply (C173_mean_refuted _ _ _ _ _ (chars "in/a.txt")); [left; reflexivity|apply A; left; reflexivity|vm_compute; discriminate|]. intros p Hp. vm_compute in Hp. intuition (subst; discriminate).
Qed.
Print Assumptions C173_names.
Print Assumptions C173_files.
Print Assumptions C173_mean_refuted.
Print Assumptions C173_mean_zero.
