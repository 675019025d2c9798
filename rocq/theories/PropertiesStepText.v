(** * C142: step functions are read as they are written. *)

From Coq Require Import String.
From Coq Require Import List Arith Bool NArith ZArith Ascii Lia Permutation Sorted.
From Verif Require Import Base BaseFacts LoadMatrix LoadFacts StringUtilities PropertiesString DiagramIO StepFunction StepFacts PropertiesStep StepText.
Import ListNotations.
Local Open Scope list_scope.
Local Open Scope Z_scope.

(** ** Specification *)

(** a line with two numbers that are separated by blanks; anything may follow *)
Definition holds_pair (line : str) (a y : Z) : Prop :=
  exists b1 b2 rest, line = b1 ++ print_Z a ++ b2 ++ print_Z y ++ rest /\ spaces b1 /\ spaces b2 /\ b2 <> [] /\ no_digit rest.

(** the values fit the types *)
Definition fits (dlo dhi ilo ihi : Z) (f : step_function) : Prop :=
  Forall (fun i => dlo <= ia i <= dhi /\ dlo <= ib i <= dhi /\ ilo <= iy i <= ihi) f.

(** no interval of one function overlaps one of the other in more than an end point *)
Definition apart (f g : step_function) : Prop := Forall (fun i => disjoint_from (ia i) (ib i) g) f.

(** ** Proofs *)

Lemma drop_uint d s : no_digit s -> drop_digits (uint_chars d ++ s) = s.
Proof.
  intro Hs. induction d as [|d IH|d IH|d IH|d IH|d IH|d IH|d IH|d IH|d IH|d IH]; cbn [uint_chars app]; [|exact IH..].
  destruct s as [|c t]; [reflexivity|]. pose proof (Hs c t eq_refl) as E. change (drop_digits (c :: t) = c :: t). unfold drop_digits; fold drop_digits. rewrite E. reflexivity.
Qed.

Lemma after_print b z s : spaces b -> no_digit s -> after_number (b ++ print_Z z ++ s) = s.
Proof.
  intros Hb Hs. unfold after_number, print_Z. pose proof (to_uint_not_nil z) as Hn. destruct (Z.to_int z) as [d|d].
  - pose proof (drop_uint d s Hs) as L. destruct (uint_first d s Hn) as (c & t & E & F1 & F2 & F3). rewrite E in L |- *.
    rewrite ltrim_blanks by (auto; intros c' t' Q; injection Q as <- <-; exact F1). rewrite F2, F3. exact L.
  - cbn [app]. rewrite ltrim_blanks by (auto; intros c' t' Q; injection Q as <- <-; reflexivity). change (("-" =? "-")%char) with true. cbn [orb]. apply drop_uint. exact Hs.
Qed.

Lemma space_no_digit c : isspace c = true -> digit c = None.
Proof.
  intro H. destruct (digit c) as [d|] eqn:E; [|reflexivity]. apply digit_iff in E. rewrite (digit_not_space c d E) in H. discriminate.
Qed.
Lemma blanks_no_digit b s : spaces b -> b <> [] -> no_digit (b ++ s).
Proof. intros Hb Hn c t E. destruct Hb as [|c' b Hc _]; [easy|]. cbn [app] in E. injection E as <- _. apply space_no_digit. exact Hc. Qed.

Section Range.
Variables (dlo dhi ilo ihi : Z).

Lemma pair_read line a y : holds_pair line a y ->
  read_pair dlo dhi ilo ihi line = if (dlo <=? a) && (a <=? dhi) && ((ilo <=? y) && (y <=? ihi)) then Some (a, y) else None.
Proof.
  intros (b1 & b2 & rest & -> & H1 & H2 & Hn & Hr). unfold read_pair. pose proof (blanks_no_digit b2 (print_Z y ++ rest) H2 Hn) as Hd.
  rewrite (extract_print dlo dhi b1 a _ H1 Hd), (after_print b1 a _ H1 Hd).
  destruct (Z.ltb_spec a dlo), (Z.leb_spec dlo a); try lia; cbn [andb]; [reflexivity|].
  destruct (Z.ltb_spec dhi a), (Z.leb_spec a dhi); try lia; cbn [andb]; [reflexivity|].
  rewrite (extract_print ilo ihi b2 y rest H2 Hr).
  destruct (Z.ltb_spec y ilo), (Z.leb_spec ilo y); try lia; cbn [andb]; [reflexivity|].
  destruct (Z.ltb_spec ihi y), (Z.leb_spec y ihi); try lia; reflexivity.
Qed.

Lemma print_line a y : holds_pair (print_Z a ++ [tab] ++ print_Z y) a y.
Proof.
  exists [], [tab], []. rewrite app_nil_r. split; [reflexivity|]. split; [constructor|]. split; [repeat constructor|]. split; [discriminate|]. intros c t E. discriminate.
Qed.

Lemma print_no_newline z : ~ In newline (print_Z z).
Proof.
  unfold print_Z. assert (G : forall d, ~ In newline (uint_chars d)).
  { induction d as [|d IH|d IH|d IH|d IH|d IH|d IH|d IH|d IH|d IH|d IH]; cbn [uint_chars]; [intros []|..]; (intros [E|E]; [discriminate E|exact (IH E)]). }
  destruct (Z.to_int z) as [d|d]; [apply G|]. intros [E|E]; [discriminate E|exact (G d E)].
Qed.

Lemma written_lines f : getlines [] (sf_print f) =
  flat_map (fun i => [print_Z (ia i) ++ [tab] ++ print_Z (iy i); print_Z (ib i) ++ [tab] ++ print_Z (iy i)]) f.
Proof.
  assert (N : forall a y, ~ In newline (print_Z a ++ [tab] ++ print_Z y)).
  { intros a y H. apply in_app_iff in H as [H|H]; [exact (print_no_newline a H)|]. destruct H as [H|H]; [discriminate H|exact (print_no_newline y H)]. }
  induction f as [|i f IH]; [reflexivity|]. cbn [sf_print flat_map]. fold (sf_print f).
  replace ((print_Z (ia i) ++ [tab] ++ print_Z (iy i) ++ [newline] ++ print_Z (ib i) ++ [tab] ++ print_Z (iy i) ++ [newline]) ++ sf_print f)
    with ((print_Z (ia i) ++ [tab] ++ print_Z (iy i)) ++ newline :: ((print_Z (ib i) ++ [tab] ++ print_Z (iy i)) ++ newline :: sf_print f))
    by (rewrite <- ?app_assoc; cbn [app]; rewrite <- ?app_assoc; cbn [app]; rewrite <- ?app_assoc; reflexivity).
  rewrite getlines_line by apply N. cbn [app]. rewrite getlines_line by apply N. cbn [app]. f_equal. f_equal. exact IH.
Qed.

(** the lines of one interval *)
Lemma read_interval l1 l2 rest a b y f : holds_pair l1 a y -> holds_pair l2 b y ->
  dlo <= a <= dhi -> dlo <= b <= dhi -> ilo <= y <= ihi ->
  sf_read_lines dlo dhi ilo ihi (l1 :: l2 :: rest) f = let* f' := sf_add a b y f in sf_read_lines dlo dhi ilo ihi rest f'.
Proof.
  intros H1 H2 Ra Rb Ry. cbn [sf_read_lines]. rewrite (pair_read _ _ _ H1), (pair_read _ _ _ H2).
  assert (E : forall x u v, u <= x <= v -> (u <=? x) && (x <=? v) = true) by (intros x u v H; apply andb_true_intro; split; apply Z.leb_le; lia).
  rewrite (E a), (E b), (E y) by assumption. cbn [andb]. rewrite Z.eqb_refl. reflexivity.
Qed.

(** A function is read as it was written. *)
Theorem C142_round_trip : forall f, proper f -> fits dlo dhi ilo ihi f -> sf_read dlo dhi ilo ihi (sf_print f) [] = Ok f.
Proof.
  intros f Hf Hr. unfold sf_read. rewrite written_lines.
  assert (G : forall rest g, proper (g ++ rest) -> fits dlo dhi ilo ihi rest ->
    sf_read_lines dlo dhi ilo ihi (flat_map (fun i => [print_Z (ia i) ++ [tab] ++ print_Z (iy i); print_Z (ib i) ++ [tab] ++ print_Z (iy i)]) rest) g = Ok (g ++ rest)).
  { induction rest as [|i rest IH]; intros g Hg Hi; [rewrite app_nil_r; reflexivity|]. inversion Hi as [|? ? (I1 & I2 & I3) Hi']; subst. cbn [flat_map].
    change ([print_Z (ia i) ++ [tab] ++ print_Z (iy i); print_Z (ib i) ++ [tab] ++ print_Z (iy i)] ++ ?r)
      with ((print_Z (ia i) ++ [tab] ++ print_Z (iy i)) :: (print_Z (ib i) ++ [tab] ++ print_Z (iy i)) :: r).
    rewrite (read_interval _ _ _ (ia i) (ib i) (iy i)) by (try apply print_line; assumption).
    assert (E : sf_add (ia i) (ib i) (iy i) g = Ok (g ++ [i])).
    { pose proof (add_map (fun y => y) [i] g) as A. assert (M : forall k, map_values (fun y => y) k = k).
      { intro k. unfold map_values. etransitivity; [|apply map_id]. apply map_ext. intros []. reflexivity. }
      rewrite !M in A. cbn [foldM] in A. destruct (sf_add (ia i) (ib i) (iy i) g) eqn:Eg; cbn [bind] in A.
      - apply A. destruct Hg as [[G1 G2] G3]. replace (g ++ i :: rest) with ((g ++ [i]) ++ rest) in * by (rewrite <- app_assoc; reflexivity).
        apply Forall_app in G2 as [G2 _]. apply Forall_app in G3 as [G3 _]. apply StronglySorted_app in G1 as (G1 & _ & _). split; [split|]; assumption.
      - unfold sf_add, indicator_of in Eg. destruct Hg as [_ G3]. apply Forall_app in G3 as [_ G3]. apply Forall_inv in G3. destruct (Z.ltb_spec (ib i) (ia i)); [lia|discriminate].
      - unfold sf_add, indicator_of in Eg. destruct (ib i <? ia i); discriminate.
      - unfold sf_add, indicator_of in Eg. destruct (ib i <? ia i); discriminate. }
    rewrite E. cbn [bind]. rewrite IH; [rewrite <- app_assoc; reflexivity|rewrite <- app_assoc; exact Hg|exact Hi']. }
  exact (G f [] Hf Hr).
Qed.

(** Reading adds to what the function holds already. *)
Theorem C142_append : forall f g, proper f -> proper g -> apart f g -> fits dlo dhi ilo ihi f ->
  exists h, sf_read dlo dhi ilo ihi (sf_print f) g = Ok h /\ proper h /\ Permutation h (g ++ f).
Proof.
  intros f g Hf Hg Ha Hr. unfold sf_read. rewrite written_lines. revert g Hg Ha. induction f as [|i f IH]; intros g Hg Ha.
  - exists g. cbn [flat_map sf_read_lines]. rewrite app_nil_r. auto.
  - inversion Hr as [|? ? (I1 & I2 & I3) Hr']; inversion Ha as [|? ? A1 A2]; subst. cbn [flat_map].
    change ([print_Z (ia i) ++ [tab] ++ print_Z (iy i); print_Z (ib i) ++ [tab] ++ print_Z (iy i)] ++ ?r)
      with ((print_Z (ia i) ++ [tab] ++ print_Z (iy i)) :: (print_Z (ib i) ++ [tab] ++ print_Z (iy i)) :: r).
    rewrite (read_interval _ _ _ (ia i) (ib i) (iy i)) by (try apply print_line; assumption).
    pose proof Hf as [[F1 _] F3]. pose proof (Forall_inv F3) as F4. cbv beta in F4.
    destruct (C59_add g (ia i) (ib i) (iy i) Hg F4 A1) as (g' & Eg & Pg & Qg). rewrite Eg. cbn [bind].
    destruct (IH (proper_tail _ _ Hf) Hr' g' Pg) as (h & Eh & Ph & Qh).
    { unfold apart in *. rewrite Forall_forall in *. intros j Hj. unfold disjoint_from. apply (Permutation_Forall (Permutation_sym Qg)). constructor; [|exact (A2 j Hj)].
      cbn [ia ib]. apply StronglySorted_inv in F1 as [_ F1]. rewrite Forall_forall in F1. specialize (F1 j Hj). cbv beta in F1. lia. }
    exists h. split; [exact Eh|]. split; [exact Ph|]. rewrite Qh, Qg. destruct i as [ai bi yi]. cbn [ia ib iy app]. apply Permutation_middle.
Qed.

(** Whatever the text is: the program ends, or intervals that were held are kept and each new one is given by two
    subsequent lines that both hold its value. *)
Theorem C142_origin : forall text g,
  (exists h, sf_read dlo dhi ilo ihi text g = Ok h /\
     (forall i, In i g -> In i h) /\
     (forall i, In i h -> In i g \/ exists l1 l2 before after, getlines [] text = before ++ l1 :: l2 :: after /\
        read_pair dlo dhi ilo ihi l1 = Some (ia i, iy i) /\ read_pair dlo dhi ilo ihi l2 = Some (ib i, iy i))) \/
  sf_read dlo dhi ilo ihi text g = Throw Terminated /\
     exists l1 l2 before after a b y, getlines [] text = before ++ l1 :: l2 :: after /\ b < a /\
        read_pair dlo dhi ilo ihi l1 = Some (a, y) /\ read_pair dlo dhi ilo ihi l2 = Some (b, y).
Proof.
  intros text g. unfold sf_read. generalize (getlines [] text). intro lines.
  assert (Ins : forall i k z, (In z k -> In z (sf_insert i k)) /\ (In z (sf_insert i k) -> z = i \/ In z k)).
  { intros i k z. induction k as [|j k [IH1 IH2]]; [simpl; split; [tauto|intros [<-|[]]; auto]|]. cbn [sf_insert].
    destruct (ind_ltb i j); [simpl; split; [tauto|intros [<-|H]; tauto]|]. destruct (ind_ltb j i); [|split; auto].
    simpl. split; [intros [H|H]; auto|]. intros [H|H]; auto. destruct (IH2 H); auto. }
  assert (G : forall n lines g, (length lines <= n)%nat ->
    (exists h, sf_read_lines dlo dhi ilo ihi lines g = Ok h /\
     (forall i, In i g -> In i h) /\
     (forall i, In i h -> In i g \/ exists l1 l2 before after, lines = before ++ l1 :: l2 :: after /\
        read_pair dlo dhi ilo ihi l1 = Some (ia i, iy i) /\ read_pair dlo dhi ilo ihi l2 = Some (ib i, iy i))) \/
    sf_read_lines dlo dhi ilo ihi lines g = Throw Terminated /\
     exists l1 l2 before after a b y, lines = before ++ l1 :: l2 :: after /\ b < a /\
        read_pair dlo dhi ilo ihi l1 = Some (a, y) /\ read_pair dlo dhi ilo ihi l2 = Some (b, y)).
  { clear lines g text. induction n as [|n IH]; intros lines g Hn.
    - destruct lines; [|simpl in Hn; lia]. left. exists g. cbn [sf_read_lines]. auto.
    - destruct lines as [|l1 rest]; [left; exists g; cbn [sf_read_lines]; auto|]. cbn [sf_read_lines length] in *.
      destruct (read_pair dlo dhi ilo ihi l1) as [[a ya]|] eqn:E1.
      2:{ destruct (IH rest g ltac:(lia)) as [(h & Eh & K1 & K2)|(Eh & k1 & k2 & before & after & a & b & y & -> & R)].
          - left. exists h. split; [exact Eh|]. split; [exact K1|]. intros i Hi. destruct (K2 i Hi) as [|(k1 & k2 & before & after & -> & R)]; [auto|]. right.
            exists k1, k2, (l1 :: before), after. auto.
          - right. split; [exact Eh|]. exists k1, k2, (l1 :: before), after, a, b, y. auto. }
      destruct rest as [|l2 rest]; [left; exists g; auto|].
      assert (Step : (exists g', match read_pair dlo dhi ilo ihi l2 with Some (b, yb) => if ya =? yb then sf_add a b ya g else Ok g | None => Ok g end = Ok g' /\
          (forall i, In i g -> In i g') /\ (forall i, In i g' -> In i g \/ read_pair dlo dhi ilo ihi l1 = Some (ia i, iy i) /\ read_pair dlo dhi ilo ihi l2 = Some (ib i, iy i))) \/
        match read_pair dlo dhi ilo ihi l2 with Some (b, yb) => if ya =? yb then sf_add a b ya g else Ok g | None => Ok g end = Throw Terminated /\
          exists b, b < a /\ read_pair dlo dhi ilo ihi l2 = Some (b, ya)).
      { destruct (read_pair dlo dhi ilo ihi l2) as [[b yb]|]; [|left; exists g; auto]. destruct (Z.eqb_spec ya yb) as [<-|]; [|left; exists g; auto].
        unfold sf_add, indicator_of. destruct (Z.ltb_spec b a); [right; split; [reflexivity|]; exists b; auto|]. left. eexists. split; [reflexivity|]. split.
        - intros i Hi. apply Ins. exact Hi.
        - intros i Hi. apply Ins in Hi as [->|Hi]; auto. }
      destruct Step as [(g' & -> & S1 & S2)|(-> & b & Hb & E2)].
      + cbn [bind]. destruct (IH rest g' ltac:(simpl in Hn; lia)) as [(h & Eh & K1 & K2)|(Eh & k1 & k2 & before & after & a' & b' & y' & -> & R)].
        * left. exists h. split; [exact Eh|]. split; [auto|]. intros i Hi. destruct (K2 i Hi) as [Hg'|(k1 & k2 & before & after & -> & R)].
          -- destruct (S2 i Hg') as [|[R1 R2]]; [auto|]. right. exists l1, l2, [], rest. split; [reflexivity|]. split; [congruence|exact R2].
          -- right. exists k1, k2, (l1 :: l2 :: before), after. auto.
        * right. split; [exact Eh|]. exists k1, k2, (l1 :: l2 :: before), after, a', b', y'. auto.
      + right. split; [reflexivity|]. exists l1, l2, [], rest, a, b, ya. cbn [app]. auto. }
  exact (G (length lines) lines g (le_n _)).
Qed.
End Range.

(** lines of a file *)
Definition step_text (l : list string) : str := flat_map (fun s => chars s ++ [newline]) l.

Example C142_example :
  sf_print [Ind (-1) 2 5; Ind 2 30 (-7)] = flat_map (fun s => chars s ++ [newline])
    [String.append "-1" (String "009" "5"); String.append "2" (String "009" "5"); String.append "2" (String "009" "-7"); String.append "30" (String "009" "-7")]%string /\
  sf_read (-1000) 1000 (-1000) 1000 (step_text ["# a function"; "-1 5"; " 2 5"; ""; "2 -7"; "30 -7 "; "40 1"; "41 2"; "50 3"]%string) [] = Ok [Ind (-1) 2 5; Ind 2 30 (-7)].
Proof. split; vm_compute; reflexivity. Qed.

(** FINDING: a comment between the two lines of an interval not only drops this interval; the reader then pairs the end
    of an interval with the start of the next one and yields a function that is non-zero exactly where it should not be. *)
Theorem C142_comment_refuted : exists f, sf_read (-1000) 1000 (-1000) 1000 (step_text ["0 1"; "# comment"; "10 1"; "20 1"; "30 1"]%string) [] = Ok f /\
  sf_eval f 15 = 1 /\ sf_eval f 5 = 0 /\ sf_eval f 25 = 0 /\
  exists g, sf_read (-1000) 1000 (-1000) 1000 (step_text ["# comment"; "0 1"; "10 1"; "20 1"; "30 1"]%string) [] = Ok g /\
    sf_eval g 15 = 0 /\ sf_eval g 5 = 1 /\ sf_eval g 25 = 1.
Proof.
  eexists. split; [vm_compute; reflexivity|]. do 3 (split; [reflexivity|]). eexists. split; [vm_compute; reflexivity|]. repeat split; reflexivity.
Qed.

(** FINDING: an interval whose end precedes its start ends the program instead of being skipped like other invalid lines. *)
Theorem C142_inverted_refuted : forall dlo dhi ilo ihi l1 l2 rest a b y f, holds_pair l1 a y -> holds_pair l2 b y ->
  dlo <= b -> b < a -> a <= dhi -> ilo <= y <= ihi ->
  sf_read_lines dlo dhi ilo ihi (l1 :: l2 :: rest) f = Throw Terminated.
Proof.
  intros dlo dhi ilo ihi l1 l2 rest a b y f H1 H2 Rb Hba Ra Ry. rewrite (read_interval _ _ _ _ l1 l2 rest a b y) by (auto; lia).
  rewrite C59_add_terminates by exact Hba. reflexivity.
Qed.

Print Assumptions C142_round_trip.
Print Assumptions C142_append.
Print Assumptions C142_origin.
Print Assumptions C142_comment_refuted.
Print Assumptions C142_inverted_refuted.
