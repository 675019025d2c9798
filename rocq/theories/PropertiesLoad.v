(** * Property C40: loading boundary matrices. *)
From Coq Require Import List Arith Bool NArith Ascii String Lia Permutation Sorted.
From Verif Require Import Base BaseFacts Matrix SpecText LoadMatrix LoadFacts.
Import ListNotations.
Local Open Scope list_scope.

Lemma counted_lines lines cs : lines_mean lines cs -> List.length (filter counted lines) = List.length cs.
Proof.
  induction 1 as [|l ls cs Hl _ IH|l [d is] ls cs Hl _ IH]; simpl; auto.
  - rewrite (proj2 (none_line l (empty_matrix, 0) Hl)). auto.
  - destruct (some_line l d is [] [] 0 Hl eq_refl) as [-> _]. simpl. auto.
Qed.

Lemma load_loop lines cs : lines_mean lines cs -> forall C D, List.length C = List.length D ->
  foldM load_line lines (Matrix (C ++ repeat [] (List.length cs)) (D ++ repeat 0 (List.length cs)) false, List.length C) =
  if forallb (fun c => List.length (snd c) - 1 =? fst c) cs
  then Ok (Matrix (C ++ map (fun c => cpp_sort Nat.ltb (cpp_sort Nat.ltb (snd c))) cs) (D ++ map fst cs) false, List.length C + List.length cs)
  else Throw RuntimeError.
Proof.
  induction 1 as [|l ls cs Hl _ IH|l [d is] ls cs Hl _ IH]; intros C D EL.
  - simpl. rewrite Nat.add_0_r. auto.
  - cbn [foldM]. rewrite (proj1 (none_line l _ Hl)). cbn [bind]. apply IH; auto.
  - cbn [foldM List.length repeat]. rewrite (proj2 (some_line l d is C D _ Hl EL)). cbn [forallb map fst snd].
    destruct (Nat.eqb_spec (List.length is - 1) d) as [Ed|Ed]; cbn [bind andb]; auto.
    specialize (IH (C ++ [cpp_sort Nat.ltb (cpp_sort Nat.ltb is)]) (D ++ [List.length is - 1])).
    rewrite !app_length, <- !app_assoc in IH. cbn [app List.length] in IH.
    replace (List.length C + 1) with (S (List.length C)) in IH by lia. rewrite IH by lia.
    destruct (forallb _ cs); auto. rewrite Ed. f_equal. f_equal. lia.
Qed.

Lemma load_text lines last cs : (forall l, In l (lines ++ [last]) -> ~ In "010"%char l) -> lines_mean (lines ++ [last]) cs ->
  load (text_of lines last) =
  if forallb (fun c => List.length (snd c) - 1 =? fst c) cs
  then Ok (Matrix (map (fun c => cpp_sort Nat.ltb (cpp_sort Nat.ltb (snd c))) cs) (map fst cs) false)
  else Throw RuntimeError.
Proof.
  intros Hn HL. unfold load. rewrite getlines_text by auto.
  assert (HL' : lines_mean (lines ++ match last with [] => [] | _ => [last] end) cs).
  { destruct last; auto. rewrite app_nil_r. clear Hn. remember (lines ++ [[]]) as ls eqn:E. revert lines E.
    induction HL as [|l ls cs Hl HL IH|l c ls cs Hl HL IH]; intros lines E.
    - destruct lines; discriminate.
    - destruct lines as [|l0 lines]; injection E as -> E.
      + subst ls. inversion HL; subst. constructor.
      + constructor; auto.
    - destruct lines as [|l0 lines]; injection E as -> E.
      + exfalso. destruct c as [d is]. inversion Hl as [| |? ? ? Hnum]; subst. apply numbers_first in Hnum. destruct Hnum as (? & ? & ? & _). discriminate.
      + apply lines_some; auto. }
  cbv zeta. rewrite (counted_lines _ _ HL').
  pose proof (load_loop _ _ HL' [] [] eq_refl) as H. cbn [app List.length] in H.
  replace (setNumColumns empty_matrix (List.length cs)) with (Matrix (repeat [] (List.length cs)) (repeat 0 (List.length cs)) false).
  - rewrite H. destruct (forallb _ cs); auto.
  - unfold setNumColumns, resize, empty_matrix. cbn [cols dims dualized]. rewrite !firstn_nil. simpl List.length. rewrite !Nat.sub_0_r. auto.
Qed.

(** A well-formed text gives exactly the described columns. *)
Theorem C40_load : forall lines last cs,
  (forall l, In l (lines ++ [last]) -> ~ In "010"%char l) -> lines_mean (lines ++ [last]) cs ->
  Forall (fun c => fst c = List.length (snd c) - 1) cs ->
  exists M, load (text_of lines last) = Ok M /\
    List.length (cols M) = List.length cs /\ dims M = map fst cs /\ dualized M = false /\
    forall j d is, nth_error cs j = Some (d, is) ->
      exists c, nth_error (cols M) j = Some c /\ Permutation c is /\ StronglySorted le c.
Proof.
  intros lines last cs Hn HL HF. rewrite (load_text _ _ _ Hn HL).
  replace (forallb (fun c => List.length (snd c) - 1 =? fst c) cs) with true.
  - eexists. split; [reflexivity|]. cbn [cols dims dualized]. rewrite map_length. refine (conj eq_refl (conj eq_refl (conj eq_refl _))).
    intros j d is Hj. eexists. split; [rewrite (map_nth_error _ _ _ Hj); reflexivity|]. cbn [snd]. split.
    + etransitivity; apply cpp_sort_perm.
    + pose proof (cpp_sort_sorted Nat.ltb (cpp_sort Nat.ltb is) ltb_swo) as H.
      eapply StronglySorted_impl; [|apply H]. intros a b _ _ Hab. apply Nat.ltb_ge in Hab. auto.
  - symmetry. apply forallb_forall. intros c Hc. rewrite Forall_forall in HF. apply Nat.eqb_eq. symmetry. apply HF; auto.
Qed.

(** A dimension that does not fit raises an error. *)
Theorem C40_inconsistent : forall lines last cs,
  (forall l, In l (lines ++ [last]) -> ~ In "010"%char l) -> lines_mean (lines ++ [last]) cs ->
  (exists d is, In (d, is) cs /\ d <> List.length is - 1) ->
  load (text_of lines last) = Throw RuntimeError.
Proof.
  intros lines last cs Hn HL (d & is & Hin & Hd). rewrite (load_text _ _ _ Hn HL).
  destruct (forallb _ cs) eqn:E; auto. rewrite forallb_forall in E. specialize (E _ Hin). apply Nat.eqb_eq in E. simpl in E. lia.
Qed.

Definition chars (s : string) : list ascii := list_ascii_of_string s.

Example C40_example :
  load (text_of [chars "# a triangle"; chars "0"; []; chars " 0 "; chars "0"; chars "1 1 0"; chars "#1"; chars "1   2 1"; chars "1 0 2"] (chars "2 5 4 3"))
  = Ok (Matrix [[]; []; []; [0; 1]; [1; 2]; [0; 2]; [3; 4; 5]] [0; 0; 0; 1; 1; 1; 2] false).
Proof. vm_compute. reflexivity. Qed.

(** the assumptions of [C40_load] hold for a text with a comment, a blank line
    and a column *)
Example C40_instance : lines_mean [chars "#x"; chars " "; chars "1 0 12"] [(1, [0; 12])].
Proof.
  assert (D : forall k, k < 10 -> decimal_digit (ascii_of_nat (48 + k)) (N.of_nat k)).
  { intros k Hk. do 10 (destruct k as [|k]; [split; [vm_compute; discriminate|reflexivity]|]). lia. }
  apply lines_none; [apply means_comment|]. apply lines_none; [apply means_blank; repeat constructor; vm_compute; tauto|].
  apply lines_some; [|constructor]. apply means_column; [|repeat constructor].
  apply (numbers_cons [] (chars "1") 1%N (chars " 0 12")); [constructor|apply numeral_one, (D 1); lia| |].
  - apply (numbers_cons (chars " ") (chars "0") 0%N (chars " 12")); [repeat constructor; vm_compute; tauto|apply numeral_one, (D 0); lia| |].
    + change (chars " 12") with (chars " " ++ (chars "12" ++ [])).
      apply (numbers_cons (chars " ") (chars "12") 12%N []); [repeat constructor; vm_compute; tauto| |constructor; constructor|discriminate].
      apply (numeral_more (chars "1") 1%N "2"%char 2%N); [apply numeral_one, (D 1); lia|apply (D 2); lia].
    + intros c t [= <- _]. vm_compute; tauto.
  - intros c t [= <- _]. vm_compute; tauto.
Qed.

(** A comment that does not start in the first column makes loading fail. *)
Theorem C40_indented_comment_refuted : exists text,
  text = chars (String " " (String "#" "x")) /\ load text = Throw InvalidArgument.
Proof. eexists. split; [reflexivity|]. vm_compute. reflexivity. Qed.

(** A vertex with a boundary, and an edge end without its other end, are
    accepted: dimension 0 with one index. *)
Theorem C40_single_index_refuted : exists text M,
  text = chars "0 7" /\ load text = Ok M /\ cols M = [[7]] /\ dims M = [0].
Proof. do 2 eexists. split; [reflexivity|]. split; [vm_compute; reflexivity|]. split; reflexivity. Qed.

Print Assumptions C40_load.
Print Assumptions C40_inconsistent.
Print Assumptions C40_indented_comment_refuted.
Print Assumptions C40_single_index_refuted.
