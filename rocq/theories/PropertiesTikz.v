(** * Complexes as TikZ pictures (C138) *)
From Coq Require Import String Ascii List Arith Bool ZArith Lia.
From Verif Require Import Base BaseFacts BarycentricFacts EnumerateFacts SpecComplex LoadMatrix StringUtilities Simplex SimplexFacts Complex ComplexFacts RipsFacts PropertiesString DiagramIO Tikz.
Import ListNotations.
Local Open Scope list_scope.
Local Open Scope nat_scope.

(** ** Specification: the commands of a picture *)
Inductive command := Part (d : nat) | Place (v : nat) (x y : str) | Dot (v : nat) | Ball (v : nat) | Triangle (u v w : nat) | Line (u v : nat).
Definition named (v : nat) : str := chars "(" ++ print_nat v ++ chars ")".
Definition command_text (o : tikz_settings) (c : command) : str :=
  match c with
  | Part d => chars "% " ++ print_nat d ++ chars "-simplices"
  | Place v x y => chars "\coordinate" ++ (if t_showVertexLabels o then chars "[label=" ++ t_labelPosition o ++ chars ":" ++ print_nat v ++ chars "] " else []) ++ named v ++ chars " at (" ++ x ++ chars "," ++ y ++ chars ");"
  | Dot v => chars "\filldraw[" ++ t_pointColour o ++ chars "] " ++ named v ++ chars " circle (" ++ t_pointSize o ++ t_pointSizeUnit o ++ chars ");"
  | Ball v => chars "\fill[" ++ t_ballColour o ++ chars ", fill opacity=" ++ t_ballOpacity o ++ chars "] " ++ named v ++ chars " circle (" ++ t_ballRadius o ++ chars "cm);"
  | Triangle u v w => chars "\fill[" ++ t_triangleColour o ++ chars ", fill opacity=" ++ t_triangleOpacity o ++ chars "] " ++ named u ++ chars " -- " ++ named v ++ chars " -- " ++ named w ++ chars " -- cycle;"
  | Line u v => chars "\draw[" ++ t_lineColour o ++ chars ", line width=" ++ t_lineWidth o ++ t_lineWidthUnit o ++ chars "] " ++ named u ++ chars " -- " ++ named v ++ chars ";"
  end.
Definition picture_text (o : tikz_settings) (cs : list command) : str :=
  flat_map (fun l => l ++ [newline]) ([chars "\begin{tikzpicture}"] ++ map (command_text o) cs ++ [chars "\end{tikzpicture}"]).
(** the vertices that a command refers to *)
Definition refers (c : command) (v : nat) : Prop := match c with Part _ | Place _ _ _ => False | Dot u | Ball u => v = u | Triangle a b c => In v [a; b; c] | Line a b => In v [a; b] end.
(** a vertex is placed before commands refer to it *)
Definition placed (cs : list command) : Prop := forall a c b v, cs = a ++ c :: b -> refers c v -> exists x y, In (Place v x y) a.

Section Writer.
Context {V : Type}.
Variable show : V -> str.
Variable o : tikz_settings.

Definition vertex_commands (container : list (list V)) (s : simplex) : list command :=
  match verts s with
  | [u] => match nth u container [] with x :: y :: _ => [Place u (show x) (show y); Dot u] ++ (if t_showBalls o then [Ball u] else []) | _ => [] end
  | _ => []
  end.
Definition triangle_commands (s : simplex) : list command := match verts s with [u; v; w] => [Triangle u v w] | _ => [] end.
Definition edge_commands (s : simplex) : list command := match verts s with [u; v] => [Line u v] | _ => [] end.
Definition commands (K : complex) (container : list (list V)) : list command :=
  [Part 0] ++ flat_map (vertex_commands container) (by_index K) ++ (if t_showTriangles o then Part 2 :: flat_map triangle_commands (by_index K) else []) ++ [Part 1] ++ flat_map edge_commands (by_index K).
Definition lines_text (cs : list command) : str := flat_map (fun l => l ++ [newline]) (map (command_text o) cs).
Definition enough (container : list (list V)) (u : nat) : Prop := u < length container /\ 2 <= length (nth u container []).

Lemma lines_app a b : lines_text (a ++ b) = lines_text a ++ lines_text b.
Proof. unfold lines_text. rewrite map_app, flat_map_app. reflexivity. Qed.
Ltac strings := unfold lines_text; cbn [map flat_map command_text]; unfold named; rewrite ?app_nil_r, <- ?app_assoc; unfold chars; cbn [String.list_ascii_of_string app]; rewrite <- ?app_assoc; reflexivity.

Lemma vertex_step container s out : verts s <> [] -> (forall u, verts s = [u] -> enough container u) -> tikz_vertex show o container out s = Ok (out ++ lines_text (vertex_commands container s)).
Proof.
  intros Hs He. unfold tikz_vertex, s_dimension, vertex_commands. destruct (verts s) as [|u [|v r]] eqn:Ev; [contradiction| |].
  - cbn [length bind Nat.eqb negb]. unfold s_nth, at_. rewrite Ev. cbn [nth_error bind]. destruct (He u eq_refl) as [H1 H2]. unfold get_ at 1. rewrite (nth_error_nth' _ [] H1). cbn [bind]. destruct (Nat.leb_spec 2 (length (nth u container []))); [|lia].
    destruct (nth u container []) as [|x [|y r]] eqn:Ec; cbn [length] in H2; try lia. unfold writePoint, get_. cbn [nth_error bind]. f_equal. f_equal. unfold lines_text. cbn [app map flat_map]. destruct (t_showBalls o); cbn [map flat_map]; destruct (t_showVertexLabels o) eqn:El; cbn [command_text]; rewrite ?El; strings.
  - cbn [length bind Nat.eqb negb]. unfold lines_text. rewrite app_nil_r. reflexivity.
Qed.
Lemma triangle_step s out : verts s <> [] -> tikz_triangle o out s = Ok (out ++ lines_text (triangle_commands s)).
Proof.
  intros Hs. unfold tikz_triangle, s_dimension, triangle_commands. destruct (verts s) as [|u [|v [|w [|? r]]]] eqn:Ev; [contradiction| | | |]; cbn [length bind Nat.eqb negb]; try (unfold lines_text; rewrite app_nil_r; reflexivity).
  unfold s_nth, at_. rewrite Ev. cbn [nth_error bind]. f_equal. f_equal. unfold writeTriangle. strings.
Qed.
Lemma edge_step s out : verts s <> [] -> tikz_edge o out s = Ok (out ++ lines_text (edge_commands s)).
Proof.
  intros Hs. unfold tikz_edge, s_dimension, edge_commands. destruct (verts s) as [|u [|v [|w r]]] eqn:Ev; [contradiction| | |]; cbn [length bind Nat.eqb negb]; try (unfold lines_text; rewrite app_nil_r; reflexivity).
  unfold s_nth, at_. rewrite Ev. cbn [nth_error bind]. f_equal. f_equal. unfold writeEdge. strings.
Qed.
Lemma steps (f : str -> simplex -> outcome str) g l : (forall s out, In s l -> f out s = Ok (out ++ lines_text (g s))) -> forall out, foldM f l out = Ok (out ++ lines_text (flat_map g l)).
Proof.
  induction l as [|s l IH]; intros H out; cbn [foldM flat_map]; [unfold lines_text; rewrite app_nil_r; reflexivity|]. rewrite H by (simpl; auto). cbn [bind]. rewrite IH by (intros; apply H; simpl; auto). rewrite lines_app, <- app_assoc. reflexivity.
Qed.
Lemma picture_lines cs : picture_text o cs = chars "\begin{tikzpicture}" ++ [newline] ++ lines_text cs ++ chars "\end{tikzpicture}" ++ [newline].
Proof. unfold picture_text, lines_text. rewrite !flat_map_app. cbn [flat_map]. rewrite !app_nil_r, <- !app_assoc. reflexivity. Qed.
Lemma write_commands K container : (forall s, In s (by_index K) -> verts s <> []) -> (forall u, In [u] (map verts (by_index K)) -> enough container u) -> writeTikZ show o K container = Ok (picture_text o (commands K container)).
Proof.
  intros Hs He. unfold writeTikZ. rewrite (steps _ (vertex_commands container)); [|intros s out X; apply vertex_step; [apply Hs; exact X|intros u E; apply He; rewrite <- E; apply in_map; exact X]]. cbn [bind]. rewrite picture_lines. unfold commands. rewrite !lines_app.
  assert (E : forall out, (let* out0 := (if t_showTriangles o then foldM (tikz_triangle o) (by_index K) (out ++ chars "% 2-simplices" ++ [newline]) else Ok out) in Ok out0) = Ok (out ++ lines_text (if t_showTriangles o then Part 2 :: flat_map triangle_commands (by_index K) else []))).
  { intro out. destruct (t_showTriangles o); cbn [bind]; [|unfold lines_text; rewrite app_nil_r; reflexivity]. rewrite (steps _ triangle_commands) by (intros s out' X; apply triangle_step; apply Hs; exact X). cbn [bind]. rewrite <- !app_assoc. reflexivity. }
  match goal with |- context [bind (if t_showTriangles o then foldM _ _ (?a ++ _) else _) _] => specialize (E a) end. destruct (if t_showTriangles o then _ else _) as [out| | |]; cbn [bind] in E |- *; try discriminate E. assert (inj : forall a b : str, Ok a = Ok b -> a = b) by (intros a b X; congruence). apply inj in E. subst out.
  rewrite (steps _ edge_commands) by (intros s out' X; apply edge_step; apply Hs; exact X). cbn [bind]. f_equal.
  rewrite <- !app_assoc. reflexivity.
Qed.

Fixpoint known (P : list nat) (cs : list command) : Prop :=
  match cs with [] => True | Place v _ _ :: r => known (v :: P) r | c :: r => (forall v, refers c v -> In v P) /\ known P r end.
Lemma known_placed cs : forall P, known P cs -> forall a c b v, cs = a ++ c :: b -> refers c v -> In v P \/ exists x y, In (Place v x y) a.
Proof.
  induction cs as [|c0 cs IH]; intros P H a c b v E R; [destruct a; discriminate|]. destruct a as [|a0 a]; cbn [app] in E; injection E as -> E.
  - destruct c; cbn [known] in H; try (left; apply H; exact R). destruct R.
  - destruct a0; cbn [known] in H; try (destruct H as [_ H]; destruct (IH P H a c b v E R) as [X|(x & y & X)]; [auto|right; exists x, y; simpl; auto]).
    destruct (IH _ H a c b v E R) as [[->|X]|(x' & y' & X)]; [right; exists x, y; simpl; auto|auto|right; exists x', y'; simpl; auto].
Qed.
Lemma known_all P cs : (forall c v, In c cs -> refers c v -> In v P) -> (forall v x y, ~ In (Place v x y) cs) -> known P cs.
Proof.
  induction cs as [|c cs IH]; intros H N; [exact I|]. assert (known P cs) by (apply IH; [intros c' v X; apply H; simpl; auto|intros v x y X; apply (N v x y); simpl; auto]).
  assert (Hc : forall v, refers c v -> In v P) by (intros v R; apply (H c v); [simpl; auto|exact R]). destruct c; cbn [known]; try (split; [exact Hc|assumption]). exfalso. apply (N v x y). simpl. auto.
Qed.
Lemma known_vertices container rest l : (forall u, In [u] (map verts l) -> enough container u) -> forall P, (forall Q, (forall v, In v P \/ In [v] (map verts l) -> In v Q) -> known Q rest) -> known P (flat_map (vertex_commands container) l ++ rest).
Proof.
  induction l as [|s l IH]; intros He P H; cbn [flat_map app]; [apply H; intros v [X|[]]; exact X|]. rewrite <- app_assoc. unfold vertex_commands at 1. assert (He' : forall u, In [u] (map verts l) -> enough container u) by (intros u X; apply He; simpl; auto).
  assert (Skip : (forall u, verts s <> [u]) -> known P (flat_map (vertex_commands container) l ++ rest)). { intro N. apply IH; [exact He'|]. intros Q HQ. apply H. intros v [X|[X|X]]; [apply HQ; auto|exfalso; exact (N v X)|apply HQ; auto]. }
  destruct (verts s) as [|u [|? ?]] eqn:Ev; [apply Skip; discriminate| |apply Skip; discriminate]. destruct (He u) as [_ Hu]; [left; exact Ev|]. destruct (nth u container []) as [|x [|y r]]; cbn [length] in Hu; try lia.
  assert (T : known (u :: P) (flat_map (vertex_commands container) l ++ rest)). { apply IH; [exact He'|]. intros Q HQ. apply H. intros v [X|[X|X]]; [apply HQ; simpl; auto| |apply HQ; auto]. apply HQ. left. left. cbn in X. rewrite Ev in X. injection X as ->. reflexivity. }
  cbn [app known]. split; [intros v ->; simpl; auto|]. destruct (t_showBalls o); cbn [app known]; [split; [intros v ->; simpl; auto|exact T]|exact T].
Qed.
Lemma nodup_parts (f : simplex -> list command) l : NoDup (map verts l) -> (forall s, NoDup (f s)) -> (forall s t c, In c (f s) -> In c (f t) -> verts s = verts t) -> NoDup (flat_map f l).
Proof.
  intros N H1 H2. apply NoDup_flat_map; [eapply NoDup_map_inv; exact N|auto|]. intros s t c Hs Ht X Y. pose proof (H2 s t c X Y) as E. clear - N Hs Ht E. induction l as [|a l IH]; [destruct Hs|]. cbn [map] in N. inversion N as [|? ? N1 N2]; subst.
  destruct Hs as [->|Hs], Ht as [->|Ht]; auto; exfalso; apply N1; [rewrite E|rewrite <- E]; apply in_map; assumption.
Qed.

(** a picture: it contains one place and one dot for each vertex (and a ball, if they are shown), one line for each edge and, if they are shown, one filled triangle for each triangle, and nothing else; vertices are placed before they are used *)
Theorem C138_picture K container : kwf K -> closed (by_index K) -> (forall u, In [u] (map verts (by_index K)) -> enough container u) ->
  exists cs, writeTikZ show o K container = Ok (picture_text o cs) /\ placed cs /\ NoDup cs /\
    (forall v x y, In (Place v x y) cs <-> In [v] (map verts (by_index K)) /\ exists p q r, nth v container [] = p :: q :: r /\ x = show p /\ y = show q) /\
    (forall v, In (Dot v) cs <-> In [v] (map verts (by_index K))) /\ (forall v, In (Ball v) cs <-> t_showBalls o = true /\ In [v] (map verts (by_index K))) /\
    (forall u v w, In (Triangle u v w) cs <-> t_showTriangles o = true /\ In [u; v; w] (map verts (by_index K))) /\ (forall u v, In (Line u v) cs <-> In [u; v] (map verts (by_index K))).
Proof.
  intros HK Hcl He. exists (commands K container). pose proof (kwf_good K HK) as Hg. assert (Hs : forall s, In s (by_index K) -> verts s <> []) by (intros s X; apply Hg; exact X).
  assert (Iv : forall c, In c (flat_map (vertex_commands container) (by_index K)) <-> exists v, In [v] (map verts (by_index K)) /\ exists p q r, nth v container [] = p :: q :: r /\ (c = Place v (show p) (show q) \/ c = Dot v \/ t_showBalls o = true /\ c = Ball v)).
  { intro c. rewrite in_flat_map. split.
    - intros (s & X & Y). unfold vertex_commands in Y. destruct (verts s) as [|u [|? ?]] eqn:Ev; try contradiction. exists u. split; [rewrite <- Ev; apply in_map; exact X|]. destruct (nth u container []) as [|p [|q r]]; try contradiction. exists p, q, r. split; [reflexivity|].
      apply in_app_iff in Y. destruct Y as [[Y|[Y|[]]]|Y]; auto. destruct (t_showBalls o); [destruct Y as [Y|[]]; auto|destruct Y].
    - intros (v & X & p & q & r & E & Y). apply in_map_iff in X. destruct X as (s & Ev & X). exists s. split; [exact X|]. unfold vertex_commands. rewrite Ev, E. destruct Y as [->|[->|[-> ->]]]; simpl; auto. }
  assert (It : forall c, In c (flat_map triangle_commands (by_index K)) <-> exists u v w, In [u; v; w] (map verts (by_index K)) /\ c = Triangle u v w).
  { intro c. rewrite in_flat_map. split.
    - intros (s & X & Y). unfold triangle_commands in Y. destruct (verts s) as [|u [|v [|w [|? ?]]]] eqn:Ev; try contradiction. exists u, v, w. split; [rewrite <- Ev; apply in_map; exact X|destruct Y as [<-|[]]; reflexivity].
    - intros (u & v & w & X & ->). apply in_map_iff in X. destruct X as (s & Ev & X). exists s. split; [exact X|]. unfold triangle_commands. rewrite Ev. simpl; auto. }
  assert (Ie : forall c, In c (flat_map edge_commands (by_index K)) <-> exists u v, In [u; v] (map verts (by_index K)) /\ c = Line u v).
  { intro c. rewrite in_flat_map. split.
    - intros (s & X & Y). unfold edge_commands in Y. destruct (verts s) as [|u [|v [|? ?]]] eqn:Ev; try contradiction. exists u, v. split; [rewrite <- Ev; apply in_map; exact X|destruct Y as [<-|[]]; reflexivity].
    - intros (u & v & X & ->). apply in_map_iff in X. destruct X as (s & Ev & X). exists s. split; [exact X|]. unfold edge_commands. rewrite Ev. simpl; auto. }
  assert (Ic : forall c, In c (commands K container) <-> c = Part 0 \/ In c (flat_map (vertex_commands container) (by_index K)) \/ (t_showTriangles o = true /\ (c = Part 2 \/ In c (flat_map triangle_commands (by_index K)))) \/ c = Part 1 \/ In c (flat_map edge_commands (by_index K))).
  { intro c. unfold commands. rewrite !in_app_iff. cbn [In]. destruct (t_showTriangles o); cbn [In]; intuition congruence. }
  assert (Hen : forall v, In [v] (map verts (by_index K)) -> exists p q r, nth v container [] = p :: q :: r). { intros v Hv. destruct (He v Hv) as [_ H]. destruct (nth v container []) as [|p [|q r]]; cbn [length] in H; try lia. eauto. }
  refine (conj (write_commands K container Hs He) (conj _ (conj _ (conj _ (conj _ (conj _ (conj _ _))))))).
  - intros a c b v E R. enough (Hk : known [] (commands K container)) by (destruct (known_placed _ [] Hk a c b v E R) as [[]|X]; exact X). clear a c b v E R. unfold commands. cbn [app known]. split; [intros w []|].
    apply known_vertices; [exact He|]. intros Q HQ. assert (Hf : forall s w, In s (by_index K) -> In w (verts s) -> In w Q).
    { intros s w Hsi Hw. apply HQ. right. destruct (Hcl s [w] Hsi ltac:(discriminate)) as (t & Ht & Et); [intros x [<-|[]]; exact Hw|]. assert (Ew : verts t = [w]). { change [w] with (verts (simplex_vertex w 0%Z)). apply wf_ext; [apply Hg; exact Ht|repeat constructor|exact Et]. } rewrite <- Ew. apply in_map. exact Ht. }
    apply known_all.
    + intros c' w Hc' R'. apply in_app_iff in Hc'. destruct Hc' as [Hc'|[<-|Hc']].
      * destruct (t_showTriangles o); [|destruct Hc']. destruct Hc' as [<-|Hc']; [destruct R'|]. apply It in Hc'. destruct Hc' as (x & y & z & X & ->). apply in_map_iff in X. destruct X as (s & Ev & X). apply (Hf s w X). rewrite Ev. exact R'.
      * destruct R'.
      * apply Ie in Hc'. destruct Hc' as (x & y & X & ->). apply in_map_iff in X. destruct X as (s & Ev & X). apply (Hf s w X). rewrite Ev. exact R'.
    + intros w x y X. apply in_app_iff in X. destruct X as [X|[X|X]]; [|discriminate|apply Ie in X; destruct X as (? & ? & _ & X); discriminate]. destruct (t_showTriangles o); [|destruct X]. destruct X as [X|X]; [discriminate|]. apply It in X. destruct X as (? & ? & ? & _ & X). discriminate.
  - pose proof (kwf_nodup K HK) as Nd. unfold commands. cbn [app]. constructor.
    { rewrite !in_app_iff. intros [X|[X|[X|X]]]; [apply Iv in X; destruct X as (v & _ & p & q & r & _ & [X|[X|[_ X]]]); discriminate| |discriminate|apply Ie in X; destruct X as (? & ? & _ & X); discriminate].
      destruct (t_showTriangles o); [|destruct X]. destruct X as [X|X]; [discriminate|]. apply It in X. destruct X as (? & ? & ? & _ & X). discriminate. }
    apply NoDup_app_disjoint; [|apply NoDup_app_disjoint|].
    + apply nodup_parts; [exact Nd| |].
      * intro s. unfold vertex_commands. destruct (verts s) as [|u [|? ?]]; try apply NoDup_nil. destruct (nth u container []) as [|x [|y r]]; try apply NoDup_nil. destruct (t_showBalls o); cbn [app]; repeat constructor; cbn [In]; intuition discriminate.
      * intros s t c X Y. unfold vertex_commands in *. destruct (verts s) as [|u [|? ?]]; try contradiction. destruct (verts t) as [|u' [|? ?]]; try contradiction. destruct (nth u container []) as [|x [|y r]]; try contradiction. destruct (nth u' container []) as [|x' [|y' r']]; try contradiction.
        assert (G : forall w z z', In c ([Place w z z'; Dot w] ++ (if t_showBalls o then [Ball w] else [])) -> (c = Place w z z' \/ c = Dot w \/ c = Ball w)). { intros w z z' W. apply in_app_iff in W. destruct W as [[W|[W|[]]]|W]; auto. destruct (t_showBalls o); [destruct W as [W|[]]; auto|destruct W]. }
        apply G in X. apply G in Y. destruct X as [->|[->| ->]], Y as [Y|[Y|Y]]; try discriminate; injection Y; congruence.
    + destruct (t_showTriangles o); [|constructor]. constructor; [intro X; apply It in X; destruct X as (? & ? & ? & _ & X); discriminate|]. apply nodup_parts; [exact Nd| |].
      * intro s. unfold triangle_commands. destruct (verts s) as [|u [|v [|w [|? ?]]]]; repeat constructor. intros [].
      * intros s t c X Y. unfold triangle_commands in *. destruct (verts s) as [|u [|v [|w [|? ?]]]]; try contradiction. destruct (verts t) as [|u' [|v' [|w' [|? ?]]]]; try contradiction. destruct X as [X|[]], Y as [Y|[]]. congruence.
    + constructor; [intro X; apply Ie in X; destruct X as (? & ? & _ & X); discriminate|]. apply nodup_parts; [exact Nd| |].
      * intro s. unfold edge_commands. destruct (verts s) as [|u [|v [|? ?]]]; repeat constructor. intros [].
      * intros s t c X Y. unfold edge_commands in *. destruct (verts s) as [|u [|v [|? ?]]]; try contradiction. destruct (verts t) as [|u' [|v' [|? ?]]]; try contradiction. destruct X as [X|[]], Y as [Y|[]]. congruence.
    + intros c X Y. destruct Y as [<-|Y]; [|apply Ie in Y; destruct Y as (? & ? & _ & ->)]; (destruct (t_showTriangles o); [|destruct X]); (destruct X as [X|X]; [discriminate|]); apply It in X; destruct X as (? & ? & ? & _ & X); discriminate.
    + intros c X Y. apply Iv in X. apply in_app_iff in Y. assert (Z : (exists d, c = Part d) \/ (exists u v w, c = Triangle u v w) \/ exists u v, c = Line u v).
      { destruct Y as [Y|[<-|Y]]; [|eauto|apply Ie in Y; destruct Y as (? & ? & _ & ->); eauto]. destruct (t_showTriangles o); [|destruct Y]. destruct Y as [<-|Y]; [eauto|]. apply It in Y. destruct Y as (? & ? & ? & _ & ->). right. left. eauto. }
      destruct X as (v & _ & p & q & r & _ & [->|[->|[_ ->]]]); destruct Z as [(? & Z)|[(? & ? & ? & Z)|(? & ? & Z)]]; discriminate.
  - intros v x y. rewrite Ic, Iv, It, Ie. split.
    + intros [X|[(v' & X & p & q & r & E & [Y|[Y|[_ Y]]])|[(_ & [X|(u & v' & w & _ & X)])|[X|(u & v' & _ & X)]]]]; try discriminate. injection Y as -> -> ->. split; [exact X|]. exists p, q, r. auto.
    + intros (X & p & q & r & E & -> & ->). right. left. exists v. split; [exact X|]. exists p, q, r. auto.
  - intro v. rewrite Ic, Iv, It, Ie. split.
    + intros [X|[(v' & X & p & q & r & E & [Y|[Y|[_ Y]]])|[(_ & [X|(u & v' & w & _ & X)])|[X|(u & v' & _ & X)]]]]; try discriminate. injection Y as ->. exact X.
    + intro X. right. left. exists v. split; [exact X|]. destruct (Hen v X) as (p & q & r & E). exists p, q, r. auto.
  - intro v. rewrite Ic, Iv, It, Ie. split.
    + intros [X|[(v' & X & p & q & r & E & [Y|[Y|[B Y]]])|[(_ & [X|(u & v' & w & _ & X)])|[X|(u & v' & _ & X)]]]]; try discriminate. injection Y as ->. auto.
    + intros [B X]. right. left. exists v. split; [exact X|]. destruct (Hen v X) as (p & q & r & E). exists p, q, r. auto.
  - intros u v w. rewrite Ic, Iv, It, Ie. split.
    + intros [X|[(v' & X & p & q & r & E & [Y|[Y|[B Y]]])|[(B & [X|(a & b & c & X & Y)])|[X|(a & b & _ & X)]]]]; try discriminate. injection Y as -> -> ->. auto.
    + intros [B X]. right. right. left. split; [exact B|]. right. exists u, v, w. auto.
  - intros u v. rewrite Ic, Iv, It, Ie. split.
    + intros [X|[(v' & X & p & q & r & E & [Y|[Y|[B Y]]])|[(B & [X|(a & b & c & X & Y)])|[X|(a & b & X & Y)]]]]; try discriminate. injection Y as -> ->. auto.
    + intro X. right. right. right. right. exists u, v. auto.
Qed.
End Writer.

(** ** Errors *)
(** a point with fewer than two coordinates is reported, unless a point before it is missing *)
Theorem C138_errors {V} (show : V -> str) o K container before s after u : (forall t, In t (by_index K) -> verts t <> []) ->
  by_index K = before ++ s :: after -> verts s = [u] -> u < length container -> length (nth u container []) < 2 -> (forall w, In [w] (map verts before) -> enough container w) ->
  writeTikZ show o K container = Throw RuntimeError.
Proof.
  intros Hs E Ev Hu Hl Hb. unfold writeTikZ. rewrite E, foldM_app. rewrite (steps o _ (vertex_commands show o container)).
  - cbn [bind foldM]. unfold tikz_vertex at 1. unfold s_dimension. rewrite Ev. cbn [length bind Nat.sub Nat.eqb negb]. unfold s_nth, at_. rewrite Ev. cbn [nth_error bind]. unfold get_ at 1. rewrite (nth_error_nth' _ [] Hu). cbn [bind]. destruct (Nat.leb_spec 2 (length (nth u container []))); [lia|reflexivity].
  - intros t out X. apply vertex_step; [apply Hs; rewrite E; apply in_or_app; auto|]. intros w Ew. apply Hb. rewrite <- Ew. apply in_map. exact X.
Qed.
(** the writer returns a picture only if all vertices have two coordinates *)
Theorem C138_required {V} (show : V -> str) o K container out : (forall t, In t (by_index K) -> verts t <> []) -> writeTikZ show o K container = Ok out -> forall u, In [u] (map verts (by_index K)) -> enough container u.
Proof.
  intros Hs H. unfold writeTikZ in H. apply bind_ok in H. destruct H as (out1 & H & _). revert H Hs. generalize (chars "\begin{tikzpicture}" ++ [newline] ++ chars "% 0-simplices" ++ [newline]). induction (by_index K) as [|s l IH]; intros out0 H Hs u Hu; [destruct Hu|].
  cbn [foldM] in H. apply bind_ok in H. destruct H as (out2 & H1 & H2). destruct Hu as [Ev|Hu]; [|eapply IH; [exact H2|intros t X; apply Hs; simpl; auto|exact Hu]].
  unfold tikz_vertex, s_dimension in H1. rewrite Ev in H1. cbn [length bind Nat.sub Nat.eqb negb] in H1. unfold s_nth, at_ in H1. rewrite Ev in H1. cbn [nth_error bind] in H1. unfold get_ at 1 in H1. destruct (nth_error container u) as [p|] eqn:Ep; cbn [bind] in H1; [|discriminate].
  assert (u < length container) by (apply nth_error_Some; congruence). split; [assumption|]. rewrite (nth_error_nth _ _ [] Ep). destruct (Nat.leb_spec 2 (length p)); [assumption|discriminate].
Qed.

(** ** A filled triangle with labels and balls *)
Definition full_settings : tikz_settings := TikZ true (chars "0.1") (chars "2") (chars "red") true (chars "below") (chars "black") (chars "pt") (chars "1") (chars "blue") (chars "mm") (chars "0.5") true (chars "green") (chars "0.2").
Definition corners : list (list Z) := [[0; 0]; [1; 0]; [0; -1]]%Z.
Definition filled : list simplex := map (fun l => simplex_of l 0%Z) [[0]; [1]; [2]; [0; 1]; [0; 2]; [1; 2]; [0; 1; 2]].
Example C138_example : (let* K := k_of_range filled in writeTikZ print_Z full_settings K corners) =
  Ok (picture_text full_settings [Part 0; Place 0 (chars "0") (chars "0"); Dot 0; Ball 0; Place 1 (chars "1") (chars "0"); Dot 1; Ball 1; Place 2 (chars "0") (chars "-1"); Dot 2; Ball 2; Part 2; Triangle 2 1 0; Part 1; Line 1 0; Line 2 0; Line 2 1]).
Proof. vm_compute. reflexivity. Qed.
Example C138_example_text : (let* K := k_of_range [simplex_of [0] 0%Z; simplex_of [1] 0%Z; simplex_of [0; 1] 0%Z] in writeTikZ print_Z tikz_defaults K corners) =
  Ok (flat_map (fun l => l ++ [newline]) [chars "\begin{tikzpicture}"; chars "% 0-simplices"; chars "\coordinate(0) at (0,0);"; chars "\filldraw[black] (0) circle (1pt);"; chars "\coordinate(1) at (1,0);"; chars "\filldraw[black] (1) circle (1pt);"; chars "% 1-simplices"; chars "\draw[black, line width=0.5mm] (1) -- (0);"; chars "\end{tikzpicture}"]).
Proof. vm_compute. reflexivity. Qed.
Example C138_example_errors : (let* K := k_of_range [simplex_of [0] 0%Z; simplex_of [1] 0%Z] in writeTikZ print_Z tikz_defaults K [[0; 0]; [3]]%Z) = Throw RuntimeError.
Proof. vm_compute. reflexivity. Qed.
Example C138_example_closed : exists K, k_of_range filled = Ok K /\ (forall u, In [u] (map verts (by_index K)) -> enough corners u).
Proof. eexists. split; [vm_compute; reflexivity|]. vm_compute. intros u H. do 7 (destruct H as [H|H]; [try discriminate H; injection H as <-; split; lia|]). destruct H. Qed.

(** ** What the writer does not guarantee *)
(** without its vertices a complex yields a picture that refers to vertices that have not been placed *)
Theorem C138_placed_refuted : exists K cs, kwf K /\ writeTikZ print_Z tikz_defaults K corners = Ok (picture_text tikz_defaults cs) /\ In (Line 1 0) cs /\ forall v x y, ~ In (Place v x y) cs.
Proof.
  destruct (of_range_new [simplex_of [0; 1] 0%Z]) as (K & E & HK & E').
  - intros s [<-|[]]. split; [apply simplex_of_wf|discriminate].
  - repeat constructor. intros [].
  - exists K, [Part 0; Part 1; Line 1 0]. refine (conj HK (conj _ (conj _ _))).
    + unfold writeTikZ. rewrite E'. vm_compute. reflexivity.
    + simpl. auto.
    + intros v x y H. simpl in H. intuition discriminate.
Qed.
(** an index beyond the container is used to access it *)
Theorem C138_container_refuted : exists K, kwf K /\ writeTikZ print_Z tikz_defaults K corners = UB.
Proof.
  destruct (of_range_new [simplex_vertex 3 0%Z]) as (K & E & HK & E').
  - intros s [<-|[]]. split; [repeat constructor|discriminate].
  - repeat constructor. intros [].
  - exists K. split; [exact HK|]. unfold writeTikZ. rewrite E'. vm_compute. reflexivity.
Qed.
(** without triangles being shown, a filled triangle and its boundary yield the same picture *)
Theorem C138_triangle_refuted : exists K L, kwf K /\ kwf L /\ (exists s, In s (by_index K) /\ verts s = [2; 1; 0]) /\ (forall s, In s (by_index L) -> verts s <> [2; 1; 0]) /\ exists out, writeTikZ print_Z tikz_defaults K corners = Ok out /\ writeTikZ print_Z tikz_defaults L corners = Ok out.
Proof.
  assert (G : forall l, In l [filled; firstn 6 filled] -> (forall s, In s l -> good s) /\ NoDup (map verts l)).
  { intros l Hl. split.
    - intros s Hs. assert (Hf : In s filled) by (destruct Hl as [<-|[<-|[]]]; [exact Hs|rewrite <- (firstn_skipn 6 filled); apply in_or_app; auto]). unfold filled in Hf. apply in_map_iff in Hf. destruct Hf as (x & <- & Hx). split; [apply simplex_of_wf|]. do 7 (destruct Hx as [<-|Hx]; [discriminate|]). destruct Hx.
    - destruct Hl as [<-|[<-|[]]]; vm_compute; repeat constructor; cbn [In]; intuition discriminate. }
  destruct (of_range_new filled) as (K & _ & HK & EK); [apply G; simpl; auto|apply G; simpl; auto|]. destruct (of_range_new (firstn 6 filled)) as (L & _ & HL & EL); [apply G; simpl; auto|apply G; simpl; auto|].
  exists K, L. refine (conj HK (conj HL (conj _ (conj _ _)))).
  - rewrite EK. exists (simplex_of [0; 1; 2] 0%Z). split; [simpl; tauto|reflexivity].
  - rewrite EL. intros s Hs. vm_compute in Hs. do 6 (destruct Hs as [<-|Hs]; [discriminate|]). destruct Hs.
  - unfold writeTikZ. rewrite EK, EL. eexists. split; vm_compute; reflexivity.
Qed.

Print Assumptions C138_picture.
Print Assumptions C138_errors.
Print Assumptions C138_required.
Print Assumptions C138_placed_refuted.
Print Assumptions C138_container_refuted.
Print Assumptions C138_triangle_refuted.
