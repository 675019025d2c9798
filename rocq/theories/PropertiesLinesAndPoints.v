(** * Complexes as lines and points (C127) *)
From Coq Require Import String Ascii List Arith Bool ZArith Lia.
From Verif Require Import Base BaseFacts SpecText LoadMatrix LoadFacts StringUtilities Simplex Complex DiagramIO PropertiesRaw PropertiesJSON LinesAndPoints.
Import ListNotations.
Local Open Scope list_scope.
Local Open Scope nat_scope.

(** Specification: the vertices and edges in the order of the complex, and the text of one point *)
Definition of_size (n : nat) (K : complex) : list (list nat) := filter (fun v => length v =? n) (map verts (by_index K)).
(** the words of a line: at most three coordinates, and the label *)
Definition words {V} (show : V -> str) (container : list (list V)) (u : nat) (label : list str) : list str :=
  map show (firstn 3 (nth u container [])) ++ label.
Definition plain (s : str) : Prop := s <> [] /\ forall c, In c s -> isspace c = false.

Section Writer.
Context {V : Type}.
Variable show : V -> str.
Hypothesis show_plain : forall x, plain (show x).

Lemma tokens_word w c l : plain w -> isspace c = true -> tokens [] (w ++ c :: l) = w :: tokens [] l.
Proof.
  intros [Hne Hw] Hc. rewrite tokens_plain by exact Hw. cbn [app]. rewrite tokens_stop; [|exact Hne|intros c' t E; injection E as <- <-; exact Hc]. cbn [tokens]. rewrite Hc. reflexivity.
Qed.
Lemma tokens_last w : plain w -> tokens [] w = [w].
Proof. intros [Hne Hw]. pose proof (tokens_plain w [] [] Hw) as E. rewrite app_nil_r in E. rewrite E. cbn [app tokens]. destruct w; [contradiction|reflexivity]. Qed.
Lemma plain_newline w : plain w -> ~ In newline w.
Proof. intros [_ H] X. apply H in X. vm_compute in X. discriminate. Qed.

Definition optional (label : str) : list str := match label with [] => [] | _ => [label] end.
Lemma lp_write_ok p label : 2 <= length p -> (label = [] \/ plain label) ->
  exists line, lp_write show p label = Ok (line ++ [newline]) /\ ~ In newline line /\ tokens [] line = map show (firstn 3 p) ++ optional label.
Proof.
  intros Hp Hl. destruct p as [|x [|y r]]; cbn [length] in Hp; [lia|lia|]. unfold lp_write. cbn [get_ nth_error bind].
  assert (B : isspace blank = true) by reflexivity. assert (T : isspace tab = true) by reflexivity.
  assert (NB : forall w, ~ In newline w -> ~ In newline (blank :: w)) by (intros w H [X|X]; [discriminate|auto]).
  assert (NT : forall w, ~ In newline w -> ~ In newline (tab :: w)) by (intros w H [X|X]; [discriminate|auto]).
  assert (NA : forall a b, ~ In newline a -> ~ In newline b -> ~ In newline (a ++ b)) by (intros a b Ha Hb X; apply in_app_or in X; tauto).
  assert (NS : forall v, ~ In newline (show v)) by (intro v; apply plain_newline; apply show_plain).
  assert (NL : ~ In newline (match label with [] => [] | _ => blank :: label end)). { destruct Hl as [->|Hl]; [auto|]. destruct label; [auto|]. apply NB. apply plain_newline. exact Hl. }
  assert (TL : forall v, tokens [] (show v ++ match label with [] => [] | _ => blank :: label end) = show v :: optional label).
  { intro v. destruct Hl as [->|Hl]; [rewrite app_nil_r; apply tokens_last; auto|]. destruct label as [|c label]; [destruct Hl; contradiction|]. rewrite tokens_word by auto. rewrite tokens_last by exact Hl. reflexivity. }
  destruct r as [|z r]; cbn [length Nat.leb bind get_ nth_error].
  - eexists. split; [f_equal; rewrite !app_assoc; reflexivity|]. cbn [app]. rewrite app_nil_r, <- !app_assoc. cbn [app]. split.
    + apply NA; [apply NS|]. apply NT. apply NA; [apply NS|exact NL].
    + rewrite tokens_word by auto. rewrite TL. reflexivity.
  - eexists. split; [f_equal; rewrite !app_assoc; reflexivity|]. cbn [app]. rewrite <- !app_assoc. cbn [app]. split.
    + apply NA; [apply NS|]. apply NT. apply NA; [apply NS|]. apply NB. apply NA; [apply NS|exact NL].
    + rewrite tokens_word by auto. rewrite tokens_word by auto. rewrite TL. reflexivity.
Qed.

Definition enough (container : list (list V)) (u : nat) : Prop := u < length container /\ 2 <= length (nth u container []).
Lemma print_nat_plain u : plain (print_nat u).
Proof.
  destruct (numeral_all _ _ (print_nat_numeral u)) as (H1 & H2 & _). split; [exact H1|]. intros c Hc. rewrite Forall_forall in H2. destruct (H2 c Hc) as (d & Hd). 
  clear - Hd. unfold digit in Hd. destruct (N.leb 48 (N_of_ascii c) && N.leb (N_of_ascii c) 57)%bool eqn:E; [|discriminate]. apply andb_true_iff in E. destruct E as [E1 E2]. apply N.leb_le in E1, E2.
  unfold isspace, nat_of_ascii. destruct (Nat.eqb_spec (N.to_nat (N_of_ascii c)) 32); [lia|]. destruct (Nat.leb_spec (N.to_nat (N_of_ascii c)) 13); [lia|]. rewrite andb_false_r. reflexivity.
Qed.
Lemma get_enough container u : enough container u -> get_ container u = Ok (nth u container []).
Proof. intros [H _]. unfold get_. rewrite (nth_error_nth' _ [] H). reflexivity. Qed.

(** a text of complete lines, by the words of its lines *)
Definition text_words (t : str) (w : list (list str)) : Prop :=
  exists lines, t = text_of lines [] /\ (forall l, In l lines -> ~ In newline l) /\ map (tokens []) lines = w.
Lemma text_words_app t w t' w' : text_words t w -> text_words t' w' -> text_words (t ++ t') (w ++ w').
Proof.
  intros (l & -> & Hl & <-) (l' & -> & Hl' & <-). exists (l ++ l'). refine (conj _ (conj _ _)).
  - unfold text_of. rewrite flat_map_app, !app_nil_r. reflexivity.
  - intros x Hx. apply in_app_or in Hx. destruct Hx; auto.
  - apply map_app.
Qed.
Lemma text_words_line line w : ~ In newline line -> tokens [] line = w -> text_words (line ++ [newline]) [w].
Proof. intros H <-. exists [line]. refine (conj _ (conj _ eq_refl)); [unfold text_of; cbn [flat_map]; rewrite !app_nil_r; reflexivity|]. intros l [<-|[]]. exact H. Qed.
Lemma text_words_nil : text_words [] [].
Proof. exists []. refine (conj eq_refl (conj _ eq_refl)). intros l []. Qed.
Lemma text_words_newline : text_words [newline] [[]].
Proof. apply (text_words_line []); [intros []|reflexivity]. Qed.

Lemma vertices_ok labels container l : Forall (fun s => verts s <> []) l -> forall out w,
  (forall u, In [u] (map verts l) -> enough container u) -> text_words out w ->
  exists out', foldM (lp_vertex show labels container) l out = Ok out' /\
    text_words out' (w ++ flat_map (fun v => match v with [u] => [words show container u (if labels then [print_nat u] else [])] | _ => [] end) (map verts l)).
Proof.
  induction 1 as [|s l Hs _ IH]; intros out w He Hw; cbn [foldM map flat_map].
  - exists out. rewrite app_nil_r. auto.
  - assert (He' : forall u, In [u] (map verts l) -> enough container u) by (intros u Hu; apply He; right; exact Hu).
    unfold lp_vertex at 1, s_dimension. destruct (verts s) as [|u [|u2 r]] eqn:Ev; [contradiction| |].
    + cbn [length bind Nat.eqb negb]. unfold s_nth, at_. rewrite Ev. cbn [nth_error bind].
      assert (Hu : enough container u) by (apply He; left; exact Ev). rewrite (get_enough _ _ Hu). cbn [bind]. destruct Hu as [_ Hu]. destruct (Nat.leb_spec 2 (length (nth u container []))); [|lia].
      destruct (lp_write_ok (nth u container []) (if labels then print_nat u else []) Hu) as (line & E & Hn & Ht); [destruct labels; [right; apply print_nat_plain|auto]|].
      match goal with |- context [bind (bind ?m _) _] => replace m with (Ok (line ++ [newline])) by (symmetry; exact E) end. cbn [bind]. destruct (IH (out ++ line ++ [newline]) (w ++ [map show (firstn 3 (nth u container [])) ++ optional (if labels then print_nat u else [])])%list He') as (out' & E' & W').
      { apply text_words_app; [exact Hw|]. apply text_words_line; auto. }
      exists out'. split; [exact E'|]. rewrite <- app_assoc in W'. unfold words. destruct labels; [|exact W']. unfold optional in W'. pose proof (print_nat_plain u) as [Hne _]. destruct (print_nat u); [contradiction|exact W'].
    + cbn [length bind Nat.eqb negb]. destruct (IH out w He' Hw) as (out' & E' & W'). exists out'. auto.
Qed.
Lemma edges_ok container l : Forall (fun s => verts s <> []) l -> forall out w,
  (forall u v, In [u; v] (map verts l) -> enough container u /\ enough container v) -> text_words out w ->
  exists out', foldM (lp_edge show container) l out = Ok out' /\
    text_words out' (w ++ flat_map (fun e => match e with [u; v] => [words show container u []; words show container v []; []] | _ => [] end) (map verts l)).
Proof.
  induction 1 as [|s l Hs _ IH]; intros out w He Hw; cbn [foldM map flat_map].
  - exists out. rewrite app_nil_r. auto.
  - assert (He' : forall u v, In [u; v] (map verts l) -> enough container u /\ enough container v) by (intros u v Hu; apply He; right; exact Hu).
    assert (Skip : s_dimension s <> Ok 1 -> exists out', (let* s' := lp_edge show container out s in foldM (lp_edge show container) l s') = Ok out' /\ text_words out' (w ++ flat_map (fun e => match e with [u; v] => [words show container u []; words show container v []; []] | _ => [] end) (map verts l))).
    { intro N. unfold lp_edge at 1. unfold s_dimension in *. destruct (verts s) as [|u r]; [contradiction|]. cbn [bind] in *. destruct (Nat.eqb_spec (length r) 1) as [E|_]; [congruence|]. cbn [negb bind]. apply IH; assumption. }
    destruct (verts s) as [|u [|u2 [|u3 r]]] eqn:Ev; [contradiction|apply Skip; unfold s_dimension; rewrite Ev; discriminate| |apply Skip; unfold s_dimension; rewrite Ev; discriminate].
    clear Skip. unfold lp_edge at 1, s_dimension. rewrite Ev. cbn [length bind Nat.eqb negb]. unfold s_nth, at_. rewrite Ev. cbn [nth_error bind].
    destruct (He u u2 (or_introl Ev)) as [H1 H2]. rewrite (get_enough _ _ H1), (get_enough _ _ H2). cbn [bind]. destruct H1 as [_ H1]. destruct H2 as [_ H2].
    destruct (Nat.leb_spec 2 (length (nth u container []))); [|lia]. destruct (Nat.leb_spec 2 (length (nth u2 container []))); [|lia]. cbn [andb].
    destruct (lp_write_ok (nth u container []) [] H1 (or_introl eq_refl)) as (l1 & E1 & Hn1 & Ht1). destruct (lp_write_ok (nth u2 container []) [] H2 (or_introl eq_refl)) as (l2 & E2 & Hn2 & Ht2).
    rewrite E1, E2. cbn [bind]. destruct (IH (out ++ (l1 ++ [newline]) ++ (l2 ++ [newline]) ++ [newline]) (w ++ [words show container u []] ++ [words show container u2 []] ++ [[]])%list He') as (out' & E' & W').
    { apply text_words_app; [exact Hw|]. apply text_words_app; [apply text_words_line; auto|]. apply text_words_app; [apply text_words_line; auto|apply text_words_newline]. }
    exists out'. split; [exact E'|]. rewrite <- app_assoc in W'. exact W'.
Qed.

Lemma filter_flat {B} (f : list nat -> list B) n l : (forall v, length v <> n -> f v = []) -> flat_map f l = flat_map f (filter (fun v => length v =? n) l).
Proof. intro H. induction l as [|v l IH]; cbn [flat_map filter]; [reflexivity|]. destruct (Nat.eqb_spec (length v) n); cbn [flat_map]; [rewrite IH; reflexivity|]. rewrite H by assumption. exact IH. Qed.

Lemma flat_single {A B} (f : A -> list B) (g : A -> B) l : (forall x, In x l -> f x = [g x]) -> flat_map f l = map g l.
Proof. induction l as [|x l IH]; intro H; cbn [flat_map map]; [reflexivity|]. rewrite (H x (or_introl eq_refl)), IH by (intros; apply H; simpl; auto). reflexivity. Qed.
Lemma flat_map_ext_in {A B} (f g : A -> list B) l : (forall x, In x l -> f x = g x) -> flat_map f l = flat_map g l.
Proof. induction l as [|x l IH]; intro H; cbn [flat_map]; [reflexivity|]. rewrite (H x (or_introl eq_refl)), IH by (intros; apply H; simpl; auto). reflexivity. Qed.

(** The words of the lines that are written: one line per vertex, two empty lines, two lines and an
    empty line per edge.  Coordinates are written as non-empty texts without whitespace. *)
Theorem C127_lines : forall labels K container, (forall s, In s (by_index K) -> verts s <> []) ->
  (forall u, In [u] (map verts (by_index K)) -> enough container u) ->
  (forall u v, In [u; v] (map verts (by_index K)) -> enough container u /\ enough container v) ->
  exists out, linesAndPoints show labels K container = Ok out /\
    map (tokens []) (getlines [] out) =
      map (fun v => words show container (nth 0 v 0) (if labels then [print_nat (nth 0 v 0)] else [])) (of_size 1 K) ++
      [[]; []] ++
      flat_map (fun e => [words show container (nth 0 e 0) []; words show container (nth 1 e 0) []; []]) (of_size 2 K).
Proof.
  intros labels K container Hs Hv He. rewrite <- Forall_forall in Hs. unfold linesAndPoints.
  destruct (vertices_ok labels container _ Hs [] [] Hv text_words_nil) as (out & E & W). rewrite E. cbn [bind].
  destruct (edges_ok container _ Hs (out ++ [newline] ++ [newline]) _ He (text_words_app _ _ _ _ W (text_words_app _ _ _ _ text_words_newline text_words_newline))) as (out' & E' & W').
  exists out'. split; [exact E'|]. destruct W' as (lines & -> & Hl & Hw).
  rewrite getlines_text by (intros l X; apply in_app_or in X; destruct X as [X|[<-|[]]]; [apply Hl; exact X|intros []]).
  rewrite app_nil_r, Hw. cbn [app]. rewrite <- app_assoc. f_equal.
  - rewrite (filter_flat _ 1) by (intros [|? [|? ?]] N; cbn [length] in N; [reflexivity|lia|reflexivity]). unfold of_size. apply flat_single. intros v Hv'. apply filter_In in Hv'. destruct Hv' as [_ Hv']. destruct v as [|u [|? ?]]; try discriminate. reflexivity.
  - cbn [app]. do 2 f_equal. rewrite (filter_flat _ 2) by (intros [|? [|? [|? ?]]] N; cbn [length] in N; [reflexivity|reflexivity|lia|reflexivity]). unfold of_size. apply flat_map_ext_in. intros v Hv'. apply filter_In in Hv'. destruct Hv' as [_ Hv']. destruct v as [|u [|? [|? ?]]]; try discriminate. reflexivity.
Qed.

(** [std::runtime_error] is thrown exactly if a vertex or an end of an edge has less than two
    coordinates; indices outside of the container are excluded. *)
Theorem C127_throws : forall labels K container, (forall s, In s (by_index K) -> verts s <> [] /\ forall u, In u (verts s) -> u < length container) ->
  linesAndPoints show labels K container = Throw RuntimeError <->
  exists s u, In s (by_index K) /\ length (verts s) <= 2 /\ In u (verts s) /\ length (nth u container []) < 2.
Proof.
  intros labels K container Hs.
  assert (G : forall u, u < length container -> get_ container u = Ok (nth u container [])). { intros u Hu. unfold get_. rewrite (nth_error_nth' _ [] Hu). reflexivity. }
  assert (Hok : (exists s u, In s (by_index K) /\ length (verts s) <= 2 /\ In u (verts s) /\ length (nth u container []) < 2) \/
                ((forall u, In [u] (map verts (by_index K)) -> enough container u) /\ (forall u v, In [u; v] (map verts (by_index K)) -> enough container u /\ enough container v))).
  { clear G. assert (D : forall l, (exists u, In u l /\ length (nth u container []) < 2) \/ forall u, In u l -> 2 <= length (nth u container [])).
    { induction l as [|u l IH]; [right; intros u []|]. destruct (Nat.lt_ge_cases (length (nth u container [])) 2) as [H|H]; [left; exists u; simpl; auto|]. destruct IH as [(v & Hv & H')|IH]; [left; exists v; simpl; auto|]. right. intros v [<-|Hv]; auto. }
    induction (by_index K) as [|s l IH]; [right; split; intros; contradiction|]. destruct IH as [(t & u & Ht & R)|IH]; [intros t Ht; apply Hs; right; exact Ht|left; exists t, u; simpl; tauto|].
    destruct (Nat.le_gt_cases (length (verts s)) 2) as [L|L].
    - destruct (D (verts s)) as [(u & Hu & H)|H]; [left; exists s, u; simpl; auto|]. destruct (Hs s (or_introl eq_refl)) as [_ Hb]. right. split.
      + intros u [E|Hu]; [|apply IH; exact Hu]. rewrite E in *. split; [apply Hb; simpl; auto|apply H; simpl; auto].
      + intros u v [E|Hu]; [|apply IH; exact Hu]. rewrite E in *. split; (split; [apply Hb; simpl; auto|apply H; simpl; auto]).
    - right. split; [intros u [E|Hu]; [rewrite E in L; cbn [length] in L; lia|apply IH; exact Hu]|intros u v [E|Hu]; [rewrite E in L; cbn [length] in L; lia|apply IH; exact Hu]]. }
  destruct Hok as [Bad|[H1 H2]].
  - split; [intros _; exact Bad|]. intros _. destruct Bad as (s & u & Hin & Hl & Hu & Hb). unfold linesAndPoints.
    assert (Ok_or : forall p label, 2 <= length p -> exists t, lp_write show p label = Ok t).
    { intros p label Hp. destruct p as [|x [|y [|z r]]]; cbn [length] in Hp; try lia; unfold lp_write; cbn [get_ nth_error bind length Nat.leb]; eauto. }
    assert (V1 : forall l out, incl l (by_index K) -> (exists out', foldM (lp_vertex show labels container) l out = Ok out') \/ foldM (lp_vertex show labels container) l out = Throw RuntimeError).
    { induction l as [|t l IH]; intros out Hi; cbn [foldM]; [eauto|]. destruct (Hs t (Hi t (or_introl eq_refl))) as [Hne Hb']. unfold lp_vertex at 1 3, s_dimension. destruct (verts t) as [|a r] eqn:Ev; [contradiction|]. cbn [bind].
      destruct (length r =? 0) eqn:E0; cbn [negb bind]; [|apply IH; intros x Hx; apply Hi; right; exact Hx]. unfold s_nth, at_. rewrite Ev. cbn [nth_error bind]. rewrite G by (apply Hb'; simpl; auto). cbn [bind].
      destruct (Nat.leb_spec 2 (length (nth a container []))) as [L|L]; [|right; reflexivity]. destruct (Ok_or _ (if labels then print_nat a else []) L) as (tt' & Et).
      match goal with |- context [bind (bind ?m _) _] => replace m with (Ok tt') by (symmetry; exact Et) end. cbn [bind]. apply IH. intros x Hx. apply Hi. right. exact Hx. }
    assert (V2 : forall l out, incl l (by_index K) -> length (verts s) = 1 -> In s l -> foldM (lp_vertex show labels container) l out = Throw RuntimeError).
    { induction l as [|t l IH]; intros out Hi H1 Hin'; [contradiction|]. cbn [foldM]. destruct (Hs t (Hi t (or_introl eq_refl))) as [Hne Hb']. unfold lp_vertex at 1, s_dimension. destruct (verts t) as [|a r] eqn:Ev; [contradiction|]. cbn [bind].
      assert (Hrec : In s l -> forall o, foldM (lp_vertex show labels container) l o = Throw RuntimeError) by (intros X o; apply IH; [intros x Hx; apply Hi; right; exact Hx|exact H1|exact X]).
      destruct (length r =? 0) eqn:E0; cbn [negb bind].
      - unfold s_nth, at_. rewrite Ev. cbn [nth_error bind]. rewrite G by (apply Hb'; simpl; auto). cbn [bind].
        destruct (Nat.leb_spec 2 (length (nth a container []))) as [L|L]; [|reflexivity]. destruct (Ok_or _ (if labels then print_nat a else []) L) as (tt' & Et).
        match goal with |- context [bind (bind ?m _) _] => replace m with (Ok tt') by (symmetry; exact Et) end. cbn [bind]. apply Hrec. destruct Hin' as [->|X]; [|exact X]. rewrite Ev in *. destruct r; [|discriminate]. destruct Hu as [->|[]]. lia.
      - apply Hrec. destruct Hin' as [->|X]; [|exact X]. rewrite Ev in H1. cbn [length] in H1. destruct r; [discriminate|cbn [length] in H1; lia]. }
    assert (E2 : forall l out, incl l (by_index K) -> length (verts s) = 2 -> In s l -> foldM (lp_edge show container) l out = Throw RuntimeError).
    { induction l as [|t l IH]; intros out Hi H1 Hin'; [contradiction|]. cbn [foldM]. destruct (Hs t (Hi t (or_introl eq_refl))) as [Hne Hb']. unfold lp_edge at 1, s_dimension. destruct (verts t) as [|a r] eqn:Ev; [contradiction|]. cbn [bind].
      assert (Hrec : In s l -> forall o, foldM (lp_edge show container) l o = Throw RuntimeError) by (intros X o; apply IH; [intros x Hx; apply Hi; right; exact Hx|exact H1|exact X]).
      destruct (Nat.eqb_spec (length r) 1) as [E1|N1]; cbn [negb bind].
      - destruct r as [|b [|? ?]]; try discriminate. unfold s_nth, at_. rewrite Ev. cbn [nth_error bind]. rewrite !G by (apply Hb'; simpl; auto). cbn [bind].
        destruct (Nat.leb_spec 2 (length (nth a container []))) as [L|L]; [|reflexivity]. destruct (Nat.leb_spec 2 (length (nth b container []))) as [L'|L']; [|reflexivity]. cbn [andb].
        destruct (Ok_or _ [] L) as (t1 & Et1). destruct (Ok_or _ [] L') as (t2 & Et2). rewrite Et1, Et2. cbn [bind]. apply Hrec. destruct Hin' as [->|X]; [|exact X]. rewrite Ev in Hu. destruct Hu as [->|[->|[]]]; lia.
      - apply Hrec. destruct Hin' as [->|X]; [|exact X]. rewrite Ev in H1. cbn [length] in H1. lia. }
    destruct (Nat.eq_dec (length (verts s)) 1) as [H1|H1]; [rewrite V2 by (auto using incl_refl); reflexivity|].
    assert (H2 : length (verts s) = 2) by (destruct (verts s); [contradiction|cbn [length] in *; lia]).
    destruct (V1 (by_index K) [] (incl_refl _)) as [(out & E)|E]; rewrite E; cbn [bind]; [|reflexivity]. apply E2; auto using incl_refl.
  - destruct (C127_lines labels K container (fun s Hin => proj1 (Hs s Hin)) H1 H2) as (out & E & _). rewrite E. split; [discriminate|]. intros (s & u & Hin & Hl & Hu & Hb). exfalso.
    assert (In (verts s) (map verts (by_index K))) as Hm by (apply in_map; exact Hin). destruct (verts s) as [|a [|b [|? ?]]]; cbn [length] in Hl; try lia; [contradiction| |].
    + apply H1 in Hm. destruct Hm as [_ Hm]. destruct Hu as [<-|[]]. lia.
    + apply H2 in Hm. destruct Hm as [[_ Ha] [_ Hb']]. destruct Hu as [<-|[<-|[]]]; lia.
Qed.
End Writer.

(** a triangle without its interior and an additional point, with labels *)
Example C127_example :
  match k_of_range [simplex_of [0] 0%Z; simplex_of [1] 0%Z; simplex_of [2] 0%Z; simplex_of [0; 1] 0%Z; simplex_of [1; 2] 0%Z] with
  | Ok K => linesAndPoints print_nat true K [[0; 0]; [10; 0; 7]; [5; 9]] =
      Ok (text_of [chars "0" ++ [tab] ++ chars "0 0"; chars "10" ++ [tab] ++ chars "0 7 1"; chars "5" ++ [tab] ++ chars "9 2"; []; [];
                   chars "10" ++ [tab] ++ chars "0 7"; chars "0" ++ [tab] ++ chars "0"; []; chars "5" ++ [tab] ++ chars "9"; chars "10" ++ [tab] ++ chars "0 7"; []] []) /\
      linesAndPoints print_nat true K [[0; 0]; [10]; [5; 9]] = Throw RuntimeError
  | _ => False
  end.
Proof. vm_compute. split; reflexivity. Qed.

Print Assumptions C127_lines.
Print Assumptions C127_throws.
