(** * C85: point clouds. *)
From Coq Require Import String.
From Coq Require Import List Arith Bool ZArith Ascii Lia.
From Verif Require Import Base BaseFacts LoadMatrix SpecText LoadFacts CombinationFacts ReductionFacts HomologyFacts PropertiesLoad StringUtilities PropertiesString BarycentricFacts PointCloud.
Import ListNotations.
Local Open Scope nat_scope.

(** The points of a cloud of dimension [d]. *)
Definition has_points {A} (P : cloud A) (rows : list (list A)) : Prop :=
  pc_n P = length rows /\ pc_data P = concat rows /\ forall r, In r rows -> length r = pc_d P.
(** the storage has the correct size *)
Definition pc_wf {A} (P : cloud A) : Prop := length (pc_data P) = pc_n P * pc_d P.

Section Rows.
  Context {A : Type}.
  Implicit Type rows : list (list A).

  Lemma uniform_firstn d rows : (forall r, In r rows -> length r = d) -> forall i, firstn (d * i) (concat rows) = concat (firstn i rows).
  Proof.
    intro H. induction rows as [|r rows IH]; intro i; [rewrite !firstn_nil; reflexivity|]. destruct i as [|i]; [rewrite Nat.mul_0_r; reflexivity|].
    cbn [concat firstn]. assert (L : length r = d) by (apply H; simpl; auto). rewrite firstn_app, L. replace (d * S i - d) with (d * i) by nia.
    rewrite IH by (intros; apply H; simpl; auto). f_equal. apply firstn_all2. nia.
  Qed.
  Lemma uniform_skipn d rows : (forall r, In r rows -> length r = d) -> forall i, skipn (d * i) (concat rows) = concat (skipn i rows).
  Proof.
    intro H. induction rows as [|r rows IH]; intro i; [rewrite !skipn_nil; reflexivity|]. destruct i as [|i]; [rewrite Nat.mul_0_r; reflexivity|].
    cbn [concat skipn]. assert (L : length r = d) by (apply H; simpl; auto). rewrite skipn_app, L. replace (d * S i - d) with (d * i) by nia.
    rewrite IH by (intros; apply H; simpl; auto). rewrite skipn_all2 by nia. reflexivity.
  Qed.

  (** cutting the storage *)
  Lemma wf_points (P : cloud A) : pc_wf P -> exists rows, has_points P rows.
  Proof.
    destruct P as [n d data]. unfold pc_wf, has_points. cbn [pc_n pc_d pc_data]. revert data. induction n as [|n IH]; intros data H.
    - exists []. destruct data; [|discriminate]. refine (conj eq_refl (conj eq_refl _)). easy.
    - destruct (IH (skipn d data)) as (rows & E1 & E2 & E3); [rewrite skipn_length; lia|]. exists (firstn d data :: rows).
      refine (conj _ (conj _ _)); [cbn [length]; congruence|cbn [concat]; rewrite <- E2; symmetry; apply firstn_skipn|].
      intros r [<-|Hr]; [apply firstn_length_le; lia|auto].
  Qed.
  Lemma points_wf (P : cloud A) rows : has_points P rows -> pc_wf P.
  Proof.
    intros (E1 & E2 & E3). unfold pc_wf. rewrite E1, E2. clear E1 E2. induction rows as [|r rows IH]; [reflexivity|]. cbn [concat length]. rewrite app_length, IH, (E3 r) by (simpl; auto; intros; apply E3; simpl; auto). lia.
  Qed.

  Lemma split_at i (rows : list (list A)) : i < length rows -> exists a r b, rows = a ++ r :: b /\ length a = i /\ nth i rows [] = r.
  Proof. intro H. destruct (nth_split rows [] H) as (a & b & E & L). exists a, (nth i rows []), b. auto. Qed.

  Lemma get_points (P : cloud A) rows i : has_points P rows -> pc_get P i = if i <? length rows then Ok (nth i rows []) else Throw RuntimeError.
  Proof.
    intros (E1 & E2 & E3). unfold pc_get. rewrite E1. destruct (Nat.leb_spec (length rows) i), (Nat.ltb_spec i (length rows)); try lia; [reflexivity|].
    f_equal. rewrite E2, Nat.mul_comm, (uniform_skipn (pc_d P)) by exact E3.
    destruct (split_at i rows H0) as (a & r & b & E & L & <-). rewrite E at 1. rewrite <- L at 1. rewrite skipn_app, Nat.sub_diag, skipn_all. cbn [app skipn concat].
    rewrite <- (E3 (nth i rows [])) by (apply nth_In; exact H0). rewrite firstn_app, Nat.sub_diag, firstn_all. cbn [firstn]. apply app_nil_r.
  Qed.
  Lemma set_points (P : cloud A) rows i p : has_points P rows -> i < length rows -> length p = pc_d P ->
    exists Q, pc_set P i p = Ok Q /\ pc_d Q = pc_d P /\ has_points Q (upd rows i p).
  Proof.
    intros (E1 & E2 & E3) Hi Hp. unfold pc_set. rewrite E1. destruct (Nat.leb_spec (length rows) i); [lia|]. rewrite Hp, Nat.eqb_refl. cbn [negb].
    eexists. refine (conj eq_refl (conj eq_refl _)). unfold has_points. cbn [pc_n pc_d pc_data]. rewrite upd_length. refine (conj eq_refl (conj _ _)).
    - rewrite E2, (uniform_firstn (pc_d P)) by exact E3. replace (pc_d P * i + pc_d P) with (pc_d P * S i) by lia. rewrite (uniform_skipn (pc_d P)) by exact E3.
      destruct (split_at i rows Hi) as (a & r & b & E & L & _). rewrite E, <- L. rewrite CombinationFacts.upd_app. rewrite firstn_app, Nat.sub_diag, firstn_all. cbn [firstn].
      rewrite app_nil_r. replace (skipn (S (length a)) (a ++ r :: b)) with b.
      + rewrite concat_app. reflexivity.
      + replace (S (length a)) with (length (a ++ [r])) by (rewrite app_length; simpl; lia). replace (a ++ r :: b) with ((a ++ [r]) ++ b) by (rewrite <- app_assoc; reflexivity).
        rewrite skipn_app, Nat.sub_diag, skipn_all. reflexivity.
    - intros r Hr. apply ReductionFacts.In_upd in Hr. destruct Hr as [->|Hr]; auto.
  Qed.
  Lemma make_points (dflt : A) n d : has_points (pc_make dflt n d) (repeat (repeat dflt d) n).
  Proof.
    unfold has_points, pc_make. cbn [pc_n pc_d pc_data]. rewrite repeat_length. refine (conj eq_refl (conj _ _)).
    - induction n as [|n IH]; [reflexivity|]. cbn [repeat concat mult]. rewrite repeat_app, IH. reflexivity.
    - intros r Hr. apply repeat_spec in Hr. subst r. apply repeat_length.
  Qed.
End Rows.

(** Access to points. *)
Theorem C85_access : forall A (P : cloud A) rows i, has_points P rows ->
  pc_get P i = (if i <? pc_n P then Ok (nth i rows []) else Throw RuntimeError) /\
  forall p, if (i <? pc_n P) && (length p =? pc_d P)
            then exists Q, pc_set P i p = Ok Q /\ pc_d Q = pc_d P /\ has_points Q (upd rows i p)
            else pc_set P i p = Throw RuntimeError.
Proof.
  intros A P rows i H. pose proof (proj1 H) as En. split; [rewrite En; apply get_points; exact H|]. intro p. rewrite En.
  destruct (Nat.ltb_spec i (length rows)) as [Hi|Hi]; [|cbn [andb]; unfold pc_set; rewrite En; destruct (Nat.leb_spec (length rows) i); [reflexivity|lia]].
  destruct (Nat.eqb_spec (length p) (pc_d P)) as [Hp|Hp]; cbn [andb]; [apply set_points; auto|].
  unfold pc_set. rewrite En. destruct (Nat.leb_spec (length rows) i); [reflexivity|]. apply Nat.eqb_neq in Hp. rewrite Hp. reflexivity.
Qed.

(** A new cloud consists of points with coordinates zero; every cloud whose storage
    has the correct size has points, and all operations keep the size. *)
Theorem C85_storage : forall A (dflt : A),
  (forall n d, has_points (pc_make dflt n d) (repeat (repeat dflt d) n)) /\ has_points (@pc_empty A) [] /\
  (forall P : cloud A, pc_wf P <-> exists rows, has_points P rows).
Proof.
  intros A dflt. refine (conj (make_points dflt) (conj _ _)); [repeat split; easy|].
  intro P. split; [apply wf_points|]. intros (rows & H). apply (points_wf P rows H).
Qed.

Lemma data_eqb_spec {A} (eqb : A -> A -> bool) : (forall x y, eqb x y = true <-> x = y) -> forall l m, data_eqb eqb l m = true <-> l = m.
Proof.
  intro H. induction l as [|x l IH]; intros [|y m]; cbn [data_eqb]; try easy. rewrite andb_true_iff, H, IH. split; [intros [-> ->]; reflexivity|intro E; injection E as -> ->; auto].
Qed.
Theorem C85_equality : forall A (eqb : A -> A -> bool) (P Q : cloud A) rows rows', (forall x y, eqb x y = true <-> x = y) ->
  has_points P rows -> has_points Q rows' -> (pc_eqb eqb P Q = true <-> pc_d P = pc_d Q /\ rows = rows').
Proof.
  intros A eqb P Q rows rows' Heq (P1 & P2 & P3) (Q1 & Q2 & Q3). unfold pc_eqb. rewrite !andb_true_iff, !Nat.eqb_eq, (data_eqb_spec eqb Heq), P1, Q1, P2, Q2. split.
  - intros [[L Ed] E]. split; [exact Ed|]. rewrite Ed in P3. clear P1 P2 Q1 Q2 Ed. revert rows' L Q3 E. induction rows as [|r rows IH]; intros [|r' rows'] L Q3 E; try discriminate; [reflexivity|].
    cbn [concat] in E. assert (L' : length r = length r') by (rewrite (P3 r), (Q3 r') by (simpl; auto); reflexivity).
    assert (E1 : r = r'). { apply (f_equal (firstn (length r))) in E. rewrite firstn_app, Nat.sub_diag, firstn_all in E. rewrite L' in E. rewrite firstn_app, Nat.sub_diag, firstn_all in E. cbn [firstn] in E. rewrite !app_nil_r in E. exact E. }
    subst r'. apply app_inv_head in E. f_equal. apply IH; auto; [intros; apply P3; simpl; auto|intros; apply Q3; simpl; auto].
  - intros [-> ->]. auto.
Qed.

(** filling a cloud from the start *)
Lemma fill_points {A} (dflt : A) d (src : nat -> outcome (list A)) rows : forall done (P : cloud A) rest,
  has_points P (done ++ repeat (repeat dflt d) (length rows) ++ rest) -> pc_d P = d ->
  (forall k, k < length rows -> src k = Ok (nth k rows [])) -> (forall r, In r rows -> length r = d) ->
  exists Q, foldM (fun st j => let* p := src j in let* R := pc_set (fst st) (snd st) p in Ok (R, S (snd st))) (seq 0 (length rows)) (P, length done) =
    Ok (Q, length (done ++ rows)) /\ pc_d Q = d /\ has_points Q (done ++ rows ++ rest).
Proof.
  intros done P rest HP Hd Hsrc Hlen.
  assert (G : forall k, k <= length rows -> exists Q, foldM (fun st j => let* p := src j in let* R := pc_set (fst st) (snd st) p in Ok (R, S (snd st))) (seq 0 k) (P, length done) =
    Ok (Q, length done + k) /\ pc_d Q = d /\ has_points Q (done ++ firstn k rows ++ repeat (repeat dflt d) (length rows - k) ++ rest)).
  { induction k as [|k IH]; intro Hk.
    - exists P. cbn [seq foldM firstn app]. rewrite Nat.add_0_r, Nat.sub_0_r. auto.
    - destruct IH as (Q & E & E1 & E2); [lia|]. rewrite seq_S, foldM_app, E. cbn [bind plus foldM fst snd]. rewrite Hsrc by lia. cbn [bind].
      assert (Hn : In (nth k rows []) rows) by (apply nth_In; lia).
      destruct (set_points Q _ (length done + k) (nth k rows []) E2) as (R & F & F1 & F2).
      + rewrite !app_length, firstn_length, repeat_length. lia.
      + rewrite E1. apply Hlen. exact Hn.
      + rewrite F. cbn [bind]. exists R. refine (conj _ (conj _ _)); [rewrite Nat.add_succ_r; reflexivity|congruence|].
        assert (U : upd (done ++ firstn k rows ++ repeat (repeat dflt d) (length rows - k) ++ rest) (length done + k) (nth k rows []) =
          done ++ firstn (S k) rows ++ repeat (repeat dflt d) (length rows - S k) ++ rest).
        { replace (length rows - k) with (S (length rows - S k)) by lia. cbn [repeat app].
          replace (done ++ firstn k rows ++ repeat dflt d :: repeat (repeat dflt d) (length rows - S k) ++ rest) with
            ((done ++ firstn k rows) ++ repeat dflt d :: repeat (repeat dflt d) (length rows - S k) ++ rest) by (rewrite <- app_assoc; reflexivity).
          replace (length done + k) with (length (done ++ firstn k rows)) by (rewrite app_length, firstn_length; lia).
          rewrite CombinationFacts.upd_app. rewrite <- app_assoc. f_equal.
          assert (FS : firstn (S k) rows = firstn k rows ++ [nth k rows []]).
          { clear -Hk. revert k Hk. induction rows as [|r rows IH]; intros k Hk; [simpl in Hk; lia|]. destruct k as [|k]; [reflexivity|]. cbn [firstn nth app]. f_equal. apply IH. simpl in Hk. lia. }
          rewrite FS, <- app_assoc. reflexivity. }
        rewrite <- U. exact F2. }
  destruct (G (length rows) (le_n _)) as (Q & E & E1 & E2). exists Q. rewrite firstn_all, Nat.sub_diag in E2. cbn [repeat app] in E2. rewrite app_length. auto.
Qed.

(** Concatenation. *)
Theorem C85_append : forall A (dflt : A) (P Q : cloud A) rows rows', has_points P rows -> has_points Q rows' ->
  if pc_d P =? pc_d Q then exists R, pc_append dflt P Q = Ok R /\ pc_d R = pc_d P /\ has_points R (rows ++ rows')
  else pc_append dflt P Q = Throw RuntimeError.
Proof.
  intros A dflt P Q rows rows' HP HQ. unfold pc_append. destruct (Nat.eqb_spec (pc_d P) (pc_d Q)) as [Hd|Hd]; cbn [negb]; [|reflexivity].
  pose proof HP as (P1 & P2 & P3). pose proof HQ as (Q1 & Q2 & Q3).
  destruct (fill_points dflt (pc_d P) (pc_get P) rows [] (pc_make dflt (pc_n P + pc_n Q) (pc_d P)) (repeat (repeat dflt (pc_d P)) (length rows'))) as (R & E & E1 & E2).
  - cbn [app]. rewrite <- repeat_app, <- P1, <- Q1. apply make_points.
  - reflexivity.
  - intros k Hk. rewrite (get_points P rows k HP). destruct (Nat.ltb_spec k (length rows)); [reflexivity|lia].
  - exact P3.
  - replace (seq 0 (pc_n P)) with (seq 0 (length rows)) by (rewrite P1; reflexivity). cbn [app length] in E. rewrite E. cbn [bind app].
    destruct (fill_points dflt (pc_d P) (pc_get Q) rows' rows R []) as (S & F & F1 & F2).
    + rewrite app_nil_r. exact E2.
    + exact E1.
    + intros k Hk. rewrite (get_points Q rows' k HQ). destruct (Nat.ltb_spec k (length rows')); [reflexivity|lia].
    + rewrite Hd. exact Q3.
    + replace (seq 0 (pc_n Q)) with (seq 0 (length rows')) by (rewrite Q1; reflexivity). rewrite F. cbn [bind]. exists S. rewrite app_nil_r in F2. auto.
Qed.

(** ** Files *)
(** what a line means *)
Definition row_of_line {A} (conv : str -> A) (line : str) : option (list A) :=
  match trim line with
  | [] => None
  | c :: _ => if Ascii.eqb c hash then None else Some (map conv (split cloud_sep (trim line)))
  end.
Definition rows_of {A} (conv : str -> A) (lines : list str) : list (list A) :=
  flat_map (fun l => match row_of_line conv l with Some r => [r] | None => [] end) lines.

Lemma split_nonempty sep s : split sep s <> [].
Proof. unfold split. generalize (@nil ascii). induction s as [|c s IH]; intro cur; cbn [split_token]; [discriminate|]. destruct (sep c); [discriminate|apply IH]. Qed.

Section Files.
  Context {A : Type}.
  Variables (dflt : A) (conv : str -> A).

  Lemma row_skipped l : skipped (trim l) = match row_of_line conv l with None => true | Some _ => false end.
  Proof. unfold skipped, row_of_line. destruct (trim l) as [|c t]; [reflexivity|]. destruct (Ascii.eqb c hash); reflexivity. Qed.
  Lemma row_length l r : row_of_line conv l = Some r -> 0 < length r.
  Proof.
    unfold row_of_line. destruct (trim l) as [|c t]; [discriminate|]. destruct (Ascii.eqb c hash); [discriminate|]. intro E. injection E as <-. rewrite map_length.
    pose proof (split_nonempty cloud_sep (c :: t)). destruct (split cloud_sep (c :: t)); [contradiction|simpl; lia].
  Qed.
  Lemma load_point_eq n st l : load_point dflt conv n st l =
    match row_of_line conv l with
    | None => Ok st
    | Some r => let '(P, i, d) := st in
                let '(P, d) := if d =? 0 then (pc_make dflt n (length r), length r) else (P, d) in
                let* P := pc_set P i r in Ok (P, S i, d)
    end.
  Proof.
    unfold load_point. destruct st as [[P i] d]. rewrite row_skipped. destruct (row_of_line conv l) as [r|] eqn:E; [|reflexivity].
    pose proof (split_nonempty cloud_sep (trim l)) as Hs.
    assert (Er : map conv (split cloud_sep (trim l)) = r).
    { unfold row_of_line in E. destruct (trim l) as [|c t]; [discriminate|]. destruct (Ascii.eqb c hash); [discriminate|]. injection E as E. exact E. }
    assert (Lr : length (split cloud_sep (trim l)) = length r) by (rewrite <- Er, map_length; reflexivity).
    destruct (split cloud_sep (trim l)) as [|t ts]; [contradiction|]. cbn [orb]. rewrite Lr, Er. reflexivity.
  Qed.

  (** the lines after the first point *)
  Lemma load_rest n d lines : 0 < d -> forall (P : cloud A) done, pc_d P = d -> length done + length (rows_of conv lines) <= n ->
    (forall r, In r (rows_of conv lines) -> length r = d) ->
    has_points P (done ++ repeat (repeat dflt d) (n - length done)) ->
    exists Q, foldM (load_point dflt conv n) lines (P, length done, d) = Ok (Q, length done + length (rows_of conv lines), d) /\ pc_d Q = d /\
      has_points Q (done ++ rows_of conv lines ++ repeat (repeat dflt d) (n - length done - length (rows_of conv lines))).
  Proof.
    intro Hd. induction lines as [|l lines IH]; intros P done HPd Hn Hl HP.
    - exists P. cbn [foldM rows_of flat_map app length] in *. rewrite Nat.add_0_r, Nat.sub_0_r. auto.
    - cbn [foldM]. rewrite load_point_eq. unfold rows_of in *. cbn [flat_map] in *. destruct (row_of_line conv l) as [r|] eqn:E; cbn [app] in *.
      2: { cbn [bind]. apply IH; auto. }
      destruct (Nat.eqb_spec d 0); [lia|]. cbn [length] in Hn.
      destruct (set_points P _ (length done) r HP) as (Q & F & F1 & F2).
      + rewrite app_length, repeat_length. lia.
      + rewrite HPd. apply Hl. simpl. auto.
      + rewrite F. cbn [bind].
        assert (U : upd (done ++ repeat (repeat dflt d) (n - length done)) (length done) r = (done ++ [r]) ++ repeat (repeat dflt d) (n - length (done ++ [r]))).
        { rewrite app_length. cbn [length]. replace (n - length done) with (S (n - (length done + 1))) by lia. cbn [repeat]. rewrite CombinationFacts.upd_app, <- app_assoc. reflexivity. }
        rewrite U in F2. destruct (IH Q (done ++ [r])) as (R & G & G1 & G2); [congruence|rewrite app_length; simpl; lia|intros; apply Hl; simpl; auto|exact F2|].
        rewrite app_length in G, G2. cbn [length] in G, G2. exists R. replace (length done + 1) with (S (length done)) in G by lia. rewrite G.
        refine (conj _ (conj G1 _)); [do 2 f_equal; cbn [length]; f_equal; lia|]. rewrite <- app_assoc in G2. cbn [app] in G2 |- *. cbn [length].
        replace (n - length done - S (length (flat_map (fun l0 => match row_of_line conv l0 with Some r0 => [r0] | None => [] end) lines))) with
          (n - (length done + 1) - length (flat_map (fun l0 => match row_of_line conv l0 with Some r0 => [r0] | None => [] end) lines)) by lia. exact G2.
  Qed.

  (** a line of another dimension, or one too many *)
  Lemma load_bad n d lines : 0 < d -> forall (P : cloud A) done, pc_d P = d -> length done <= n ->
    has_points P (done ++ repeat (repeat dflt d) (n - length done)) ->
    (exists r, In r (rows_of conv lines) /\ length r <> d) \/ n < length done + length (rows_of conv lines) ->
    foldM (load_point dflt conv n) lines (P, length done, d) = Throw RuntimeError.
  Proof.
    intro Hd. induction lines as [|l lines IH]; intros P done HPd Hn HP Hbad.
    - destruct Hbad as [(r & [] & _)|H]. cbn [rows_of flat_map length] in H. lia.
    - cbn [foldM]. rewrite load_point_eq. unfold rows_of in *. cbn [flat_map] in *. destruct (row_of_line conv l) as [r|] eqn:E; cbn [app] in *.
      2: { cbn [bind]. apply IH; auto. }
      destruct (Nat.eqb_spec d 0); [lia|]. cbn [length] in *.
      assert (EN : pc_n P = n). { destruct HP as (-> & _ & _). rewrite app_length, repeat_length. lia. }
      destruct (Nat.eq_dec (length r) d) as [Lr|Lr].
      2: { unfold pc_set. destruct (pc_n P <=? length done); [reflexivity|]. rewrite HPd. apply Nat.eqb_neq in Lr. rewrite Lr. reflexivity. }
      destruct (Nat.eq_dec (length done) n) as [Ln|Ln].
      { unfold pc_set. rewrite EN, Ln, Nat.leb_refl. reflexivity. }
      destruct (set_points P _ (length done) r HP) as (Q & F & F1 & F2); [rewrite app_length, repeat_length; lia|congruence|].
      rewrite F. cbn [bind].
      assert (U : upd (done ++ repeat (repeat dflt d) (n - length done)) (length done) r = (done ++ [r]) ++ repeat (repeat dflt d) (n - length (done ++ [r]))).
      { rewrite app_length. cbn [length]. replace (n - length done) with (S (n - (length done + 1))) by lia. cbn [repeat]. rewrite CombinationFacts.upd_app, <- app_assoc. reflexivity. }
      rewrite U in F2. specialize (IH Q (done ++ [r])). rewrite app_length in IH. cbn [length] in IH. replace (length done + 1) with (S (length done)) in IH by lia.
      apply IH; [congruence|lia|rewrite app_length in F2; cbn [length] in F2; replace (length done + 1) with (S (length done)) in F2 by lia; exact F2|].
      destruct Hbad as [(r' & [<-|Hr'] & Hne)|Hlt]; [contradiction|left; exists r'; auto|right; lia].
  Qed.

  Lemma rows_positive lines r : In r (rows_of conv lines) -> 0 < length r.
  Proof.
    unfold rows_of. intro H. apply in_flat_map in H. destruct H as (l & _ & H). destruct (row_of_line conv l) as [r'|] eqn:E; [|destruct H].
    destruct H as [<-|[]]. apply (row_length l _ E).
  Qed.

  (** all lines, from the start *)
  Lemma load_lines n lines :
    (rows_of conv lines = [] -> foldM (load_point dflt conv n) lines (pc_empty, 0, 0) = Ok (pc_empty, 0, 0)) /\
    (forall r rs, rows_of conv lines = r :: rs -> (forall r', In r' rs -> length r' = length r) -> n = length (rows_of conv lines) ->
       exists Q, foldM (load_point dflt conv n) lines (pc_empty, 0, 0) = Ok (Q, n, length r) /\ pc_d Q = length r /\ has_points Q (r :: rs)) /\
    (forall r rs, rows_of conv lines = r :: rs -> (exists r', In r' rs /\ length r' <> length r) \/ n < length (r :: rs) ->
       foldM (load_point dflt conv n) lines (pc_empty, 0, 0) = Throw RuntimeError).
  Proof.
    induction lines as [|l lines (I1 & I2 & I3)]; [refine (conj (fun _ => eq_refl) (conj _ _)); discriminate|].
    cbn [foldM]. rewrite load_point_eq. unfold rows_of in *. cbn [flat_map]. destruct (row_of_line conv l) as [r|] eqn:E; cbn [app].
    2: { cbn [bind]. auto. }
    pose proof (row_length l r E) as Hr. cbn [Nat.eqb]. refine (conj _ (conj _ _)); [discriminate| |].
    - intros r0 rs Q H Hn. injection Q as <- <-. cbn [length] in Hn.
      destruct (set_points (pc_make dflt n (length r)) _ 0 r (make_points dflt n (length r))) as (P & F & F1 & F2); [rewrite repeat_length; lia|reflexivity|].
      rewrite F. cbn [bind]. cbn [pc_d pc_make] in F1.
      destruct n as [|n]; [lia|]. cbn [repeat upd] in F2.
      destruct (load_rest (S n) (length r) lines Hr P [r] F1) as (R & G & G1 & G2); unfold rows_of; cbn [length]; [lia|exact H|cbn [app]; replace (S n - 1) with n by lia; exact F2|].
      unfold rows_of in *. cbn [length] in G, G2. exists R. rewrite G. refine (conj _ (conj G1 _)); [do 3 f_equal; lia|]. cbn [app] in G2.
      replace (S n - 1 - length (flat_map (fun l0 => match row_of_line conv l0 with Some r0 => [r0] | None => [] end) lines)) with 0 in G2 by lia. cbn [repeat] in G2. rewrite app_nil_r in G2. exact G2.
    - intros r0 rs Q H. injection Q as <- <-. destruct n as [|n]; [reflexivity|].
      destruct (set_points (pc_make dflt (S n) (length r)) _ 0 r (make_points dflt (S n) (length r))) as (P & F & F1 & F2); [rewrite repeat_length; lia|reflexivity|].
      rewrite F. cbn [bind]. cbn [pc_d pc_make] in F1. cbn [repeat upd] in F2.
      apply (load_bad (S n) (length r) lines Hr P [r] F1); cbn [length]; [lia|cbn [app]; replace (S n - 1) with n by lia; exact F2|]. unfold rows_of. destruct H as [H|H]; [left; exact H|right; cbn [length] in H; lia].
  Qed.

  Lemma skipped_count lines : length (filter (fun line => skipped (trim line)) lines) + length (rows_of conv lines) = length lines.
  Proof.
    unfold rows_of. induction lines as [|l lines IH]; [reflexivity|]. cbn [filter flat_map length]. rewrite row_skipped, app_length. destruct (row_of_line conv l); cbn [length]; lia.
  Qed.

  Lemma newlines_none l : ~ In newline l -> filter (Ascii.eqb newline) l = [].
  Proof.
    intro H. apply HomologyFacts.filter_nil. intros c Hc. apply Ascii.eqb_neq. intros <-. contradiction.
  Qed.
  Lemma newline_count lines last : (forall l, In l (lines ++ [last]) -> ~ In newline l) -> length (filter (Ascii.eqb newline) (text_of lines last)) = length lines.
  Proof.
    unfold text_of. intro H. induction lines as [|l lines IH]; cbn [flat_map].
    - cbn [app]. rewrite newlines_none; [reflexivity|]. apply H. simpl. auto.
    - rewrite <- app_assoc, filter_app, app_length, filter_app, app_length. rewrite (newlines_none l) by (apply H; simpl; auto).
      cbn [app filter]. change ("010"%char) with newline in *. rewrite Ascii.eqb_refl. cbn [length plus]. f_equal. apply IH. intros; apply H; simpl; auto.
  Qed.
End Files.

(** A file all of whose lines are terminated is read correctly: there is a point for
    each line that is neither blank nor a comment. *)
Theorem C85_load : forall A (dflt : A) conv lines, (forall l, In l lines -> ~ In newline l) ->
  match rows_of conv lines with
  | [] => load_cloud dflt conv (text_of lines []) = Ok pc_empty
  | r :: rs => ((forall r', In r' rs -> length r' = length r) ->
                exists P, load_cloud dflt conv (text_of lines []) = Ok P /\ pc_d P = length r /\ has_points P (r :: rs)) /\
               ((exists r', In r' rs /\ length r' <> length r) -> load_cloud dflt conv (text_of lines []) = Throw RuntimeError)
  end.
Proof.
  intros A dflt conv lines Hl. assert (Hl' : forall l, In l (lines ++ [[]]) -> ~ In newline l).
  { intros l H. apply in_app_or in H. destruct H as [H|[<-|[]]]; [auto|simpl; tauto]. }
  unfold load_cloud. rewrite (newline_count lines [] Hl'), (getlines_text lines [] Hl'), app_nil_r.
  pose proof (skipped_count conv lines) as C.
  set (n := Z.to_nat (Z.of_nat (length lines) - Z.of_nat (length (filter (fun line => skipped (trim line)) lines)))).
  assert (Hn : n = length (rows_of conv lines)) by (unfold n, str in *; lia).
  destruct (load_lines dflt conv n lines) as (L1 & L2 & L3). destruct (rows_of conv lines) as [|r rs] eqn:E.
  - destruct (Z.leb_spec (Z.of_nat (length lines)) 0); [reflexivity|]. rewrite (L1 eq_refl). reflexivity.
  - cbn [length] in C. destruct (Z.leb_spec (Z.of_nat (length lines)) 0); [unfold str in *; lia|]. split; intro H0.
    + destruct (L2 r rs eq_refl H0 Hn) as (P & F & F1 & F2). rewrite F. exists P. auto.
    + rewrite (L3 r rs eq_refl (or_introl H0)). reflexivity.
Qed.

(** FINDING: if the last line is not terminated and describes a point, then the file
    is rejected; if there is no other line, the point is ignored. *)
Theorem C85_last_line_refuted : forall A (dflt : A) conv lines last r, (forall l, In l (lines ++ [last]) -> ~ In newline l) ->
  row_of_line conv last = Some r ->
  load_cloud dflt conv (text_of lines last) = match lines with [] => Ok pc_empty | _ => Throw RuntimeError end.
Proof.
  intros A dflt conv lines last r Hl Hr. unfold load_cloud. rewrite (newline_count lines last Hl), (getlines_text lines last Hl).
  destruct last as [|c last]; [discriminate|]. set (ls := lines ++ [c :: last]).
  destruct lines as [|l0 lines]; [reflexivity|]. set (ls0 := l0 :: lines) in *.
  destruct (Z.leb_spec (Z.of_nat (length ls0)) 0) as [F|_]; [unfold ls0 in F; cbn [length] in F; lia|].
  assert (Er : rows_of conv ls = rows_of conv ls0 ++ [r]) by (unfold ls, rows_of; rewrite flat_map_app; cbn [flat_map]; rewrite Hr; reflexivity).
  pose proof (skipped_count conv ls) as C. unfold ls in C at 3. rewrite app_length in C. cbn [length] in C.
  set (n := Z.to_nat _). assert (Hn : n < length (rows_of conv ls)) by (rewrite Er, app_length; rewrite Er, app_length in C; unfold n, str in *; cbn [length] in *; lia).
  destruct (load_lines dflt conv n ls) as (_ & _ & L3). destruct (rows_of conv ls) as [|r' rs]; [simpl in Hn; lia|].
  rewrite (L3 r' rs eq_refl (or_intror Hn)). reflexivity.
Qed.

(** ** Reading what has been written *)
(** a representation of elements that can be read again *)
Definition readable {A} (conv : str -> A) (show : A -> str) (x : A) : Prop :=
  conv (show x) = x /\ show x <> [] /\ word cloud_sep (show x) /\ ~ In hash (show x).

Section Print.
  Context {A : Type}.
  Variables (conv : str -> A) (show : A -> str).

  Lemma show_word x : readable conv show x -> word cloud_sep (show x). Proof. intro H. apply H. Qed.
  Lemma space_sep c : cloud_sep c = false -> isspace c = false.
  Proof. unfold cloud_sep. rewrite !orb_false_iff. tauto. Qed.
  Lemma show_space x c : readable conv show x -> In c (show x) -> isspace c = false.
  Proof. intros Hx H. apply space_sep. pose proof (show_word x Hx) as W. unfold word in W. rewrite Forall_forall in W. auto. Qed.

  Lemma row_split x p : Forall (readable conv show) (x :: p) -> forall cur, word cloud_sep cur -> split_token cloud_sep cur (print_row show (x :: p)) = (cur ++ show x) :: map show p.
  Proof.
    revert x. induction p as [|y p IH]; intros x HF cur Hc; (assert (Hx := Forall_inv HF); assert (Hp := Forall_inv_tail HF)).
    - cbn [print_row map]. rewrite <- (app_nil_r (show x)) at 1. rewrite split_word by (apply show_word; exact Hx). reflexivity.
    - change (print_row show (x :: y :: p)) with (show x ++ "009"%char :: print_row show (y :: p)). rewrite split_word by (apply show_word; exact Hx).
      cbn [split_token map]. change (cloud_sep "009") with true. cbv iota. f_equal.
      destruct (Forall_inv Hp) as (_ & Hy & Wy & _).
      assert (G : forall s, (exists c t, s = c :: t /\ cloud_sep c = false) -> split_run cloud_sep s = split_token cloud_sep [] s).
      { intros s (c & t & -> & E). cbn [split_run split_token]. rewrite E. reflexivity. }
      rewrite G; [apply IH; [exact Hp|constructor]|].
      destruct (show y) as [|c t] eqn:E; [easy|]. inversion Wy; subst. exists c. destruct p; cbn [print_row]; rewrite E; cbn [app]; eauto.
  Qed.

  Lemma row_chars p c : In c (print_row show p) -> (exists x, In x p /\ In c (show x)) \/ c = "009"%char.
  Proof.
    induction p as [|x p IH]; [easy|]. intro H. destruct p as [|y p].
    - left. exists x. simpl in *. auto.
    - change (print_row show (x :: y :: p)) with (show x ++ "009"%char :: print_row show (y :: p)) in H.
      apply in_app_or in H. destruct H as [H|[<-|H]]; [left; exists x; simpl; auto|auto|].
      destruct (IH H) as [(z & Hz & Hc)|Q]; [left; exists z; split; [right; exact Hz|exact Hc]|auto].
  Qed.
  Lemma row_no_newline p : Forall (readable conv show) p -> ~ In newline (print_row show p).
  Proof.
    intros HF H. destruct (row_chars p _ H) as [(x & Hp & Hx)|E]; [|discriminate]. rewrite Forall_forall in HF. apply show_space in Hx; [discriminate|auto].
  Qed.
  Lemma row_first x p : Forall (readable conv show) (x :: p) -> exists c t, print_row show (x :: p) = c :: t /\ isspace c = false /\ Ascii.eqb c hash = false.
  Proof.
    intro HF. pose proof (Forall_inv HF) as Hr. pose proof Hr as (_ & Hx & _ & Hh). pose proof (fun c => show_space x c Hr) as Hsp. destruct (show x) as [|c t] eqn:E; [easy|]. exists c.
    assert (H1 : isspace c = false) by (apply Hsp; simpl; auto). assert (H2 : Ascii.eqb c hash = false) by (apply Ascii.eqb_neq; intros ->; apply Hh; simpl; auto).
    destruct p as [|y p]; cbn [print_row]; rewrite E; cbn [app]; eauto.
  Qed.
  Lemma row_last x p : Forall (readable conv show) (x :: p) -> exists c t, print_row show (x :: p) = t ++ [c] /\ isspace c = false.
  Proof.
    revert x. induction p as [|y p IH]; intros x HF; (assert (Hr := Forall_inv HF); assert (Hp := Forall_inv_tail HF)).
    - cbn [print_row]. pose proof Hr as (_ & Hx & _ & _). destruct (exists_last Hx) as (t & c & E). exists c, t. split; [exact E|]. apply (show_space x); [exact Hr|]. rewrite E. apply in_or_app. simpl. auto.
    - destruct (IH y Hp) as (c & t & E & F). exists c, (show x ++ "009"%char :: t). split; [|exact F].
      change (print_row show (x :: y :: p)) with (show x ++ "009"%char :: print_row show (y :: p)). rewrite E, <- app_assoc. reflexivity.
  Qed.

  Lemma row_read x p : Forall (readable conv show) (x :: p) -> row_of_line conv (print_row show (x :: p)) = Some (x :: p).
  Proof.
    intro HF. assert (T : trim (print_row show (x :: p)) = print_row show (x :: p)).
    { apply (C84_trim_unique _ _ [] []); [|constructor|constructor|cbn [app]; rewrite app_nil_r; reflexivity]. split.
      - intros c t E. destruct (row_first x p HF) as (c' & t' & E' & F & _). rewrite E in E'. injection E' as <- <-. exact F.
      - intros c t E. destruct (row_last x p HF) as (c' & t' & E' & F). rewrite E in E'. apply app_inj_tail in E'. destruct E' as [_ <-]. exact F. }
    unfold row_of_line. rewrite T. destruct (row_first x p HF) as (c & t & E & _ & F). rewrite E, F, <- E. f_equal.
    unfold split. rewrite row_split by (exact HF || constructor). cbn [app map]. f_equal; [apply (Forall_inv HF)|]. rewrite map_map. rewrite (map_ext_in _ (fun x => x)); [apply map_id|]. intros a Ha. rewrite Forall_forall in HF. apply (HF a). right. exact Ha.
  Qed.

  Lemma print_ok (P : cloud A) rows : has_points P rows -> print_cloud show P = Ok (text_of (map (print_row show) rows) []).
  Proof.
    intro HP. pose proof HP as (Hn & _ & _). unfold print_cloud, text_of. rewrite Hn, app_nil_r.
    assert (G : forall k, k <= length rows -> foldM (fun o i => let* p := pc_get P i in Ok (o ++ print_row show p ++ [newline])) (seq 0 k) [] =
      Ok (flat_map (fun l => l ++ ["010"%char]) (map (print_row show) (firstn k rows)))).
    { induction k as [|k IH]; intro Hk; [reflexivity|]. rewrite seq_S, foldM_app, IH by lia. cbn [bind plus foldM]. rewrite (get_points P rows k HP).
      destruct (Nat.ltb_spec k (length rows)); [|lia]. cbn [bind].
      assert (FS : firstn (S k) rows = firstn k rows ++ [nth k rows []]).
      { clear -H. revert k H. induction rows as [|r rows IH]; intros k Hk; [simpl in Hk; lia|]. destruct k as [|k]; [reflexivity|]. cbn [firstn nth app]. f_equal. apply IH. simpl in Hk. lia. }
      rewrite FS, map_app, flat_map_app. cbn [map flat_map]. rewrite app_nil_r. reflexivity. }
    rewrite (G (length rows) (le_n _)), firstn_all. reflexivity.
  Qed.
End Print.

(** Writing a non-empty cloud of positive dimension and reading it yields an equal one. *)
Theorem C85_round_trip : forall A (dflt : A) conv show (P : cloud A), (forall x, In x (pc_data P) -> readable conv show x) -> pc_wf P -> 0 < pc_n P -> 0 < pc_d P ->
  exists text, print_cloud show P = Ok text /\ load_cloud dflt conv text = Ok P.
Proof.
  intros A dflt conv show P Hs Hw Hn Hd. destruct (wf_points P Hw) as (rows & HP). pose proof HP as (E1 & E2 & E3).
  assert (HF : forall r, In r rows -> Forall (readable conv show) r).
  { intros r Hr. apply Forall_forall. intros x Hx. apply Hs. rewrite E2. apply in_concat. exists r. auto. }
  exists (text_of (map (print_row show) rows) []). split; [apply print_ok; exact HP|].
  assert (Hrows : rows_of conv (map (print_row show) rows) = rows).
  { assert (Hne : forall r, In r rows -> r <> []) by (intros r Hr ->; specialize (E3 [] Hr); simpl in E3; lia). clear -HF Hne. unfold rows_of.
    induction rows as [|r rows IH]; [reflexivity|]. cbn [map flat_map]. destruct r as [|x p]; [exfalso; apply (Hne [] (or_introl eq_refl)); reflexivity|].
    rewrite (row_read conv show x p) by (apply HF; simpl; auto). cbn [app]. f_equal. apply IH; intros; [apply HF|apply Hne]; simpl; auto. }
  pose proof (C85_load A dflt conv (map (print_row show) rows)) as L. rewrite Hrows in L.
  destruct rows as [|r rs]; [simpl in E1; lia|].
  destruct L as [L _]; [intros l Hl; apply in_map_iff in Hl; destruct Hl as (r' & <- & Hr'); apply (row_no_newline conv show); auto|].
  destruct L as (Q & F & F1 & (Q1 & Q2 & Q3)); [intros r' Hr'; rewrite (E3 r'), (E3 r) by (simpl; auto); reflexivity|].
  rewrite F. f_equal. destruct P as [n d data], Q as [n' d' data']. cbn [pc_n pc_d pc_data] in *. rewrite E1, Q1, E2, Q2, F1, (E3 r) by (simpl; auto). reflexivity.
Qed.

(** integers in the range of the type can be read again *)
Lemma digit_char d c : In c (uint_chars d) -> exists k, digit c = Some k.
Proof. induction d; cbn [uint_chars]; intro H; [destruct H|..]; (destruct H as [<-|H]; [eexists; reflexivity|auto]). Qed.

Lemma print_chars z c : In c (print_Z z) -> c = "-"%char \/ exists k, digit c = Some k.
Proof.
  unfold print_Z. destruct (Z.to_int z) as [d|d]; intro H; [right; apply (digit_char d c H)|]. destruct H as [<-|H]; [auto|right; apply (digit_char d c H)].
Qed.

Lemma digit_plain c k : digit c = Some k -> cloud_sep c = false /\ c <> hash.
Proof.
  intro H. split; [|intros ->; discriminate]. unfold cloud_sep, isspace. unfold digit in H. destruct (_ && _)%bool eqn:E; [|discriminate].
  apply andb_true_iff in E. destruct E as [E1 E2]. apply N.leb_le in E1, E2.
  assert (Hc : nat_of_ascii c = N.to_nat (N_of_ascii c)) by reflexivity.
  rewrite !orb_false_iff. repeat split.
  - apply Nat.eqb_neq. lia.
  - apply andb_false_iff. right. apply Nat.leb_gt. lia.
  - apply Ascii.eqb_neq. intros ->. cbn in E2. lia.
  - apply Ascii.eqb_neq. intros ->. cbn in E2. lia.
  - apply Ascii.eqb_neq. intros ->. cbn in E1. lia.
Qed.

Theorem C85_integers : forall lo hi x, (lo <= x <= hi)%Z -> readable (fun s => fst (convert lo hi s)) print_Z x.
Proof.
  intros lo hi x Hx. refine (conj _ (conj _ (conj _ _))).
  - pose proof (proj1 (C84_convert lo hi [] x [] Hx (Forall_nil _) ltac:(discriminate))) as E. cbn [app] in E. rewrite app_nil_r in E. rewrite E. reflexivity.
  - unfold print_Z. pose proof (to_uint_not_nil x) as Hn. destruct (Z.to_int x) as [d|d]; [|discriminate]. destruct d; easy.
  - apply Forall_forall. intros c Hc. destruct (print_chars x c Hc) as [->|(k & Hk)]; [reflexivity|apply (digit_plain c k Hk)].
  - intro Hc. destruct (print_chars x _ Hc) as [F|(k & Hk)]; [discriminate|]. apply (digit_plain _ k Hk). reflexivity.
Qed.

(** numbers of eight bits *)
Definition byte (s : str) : Z := fst (convert (-128) 127 s).
Definition example_text : str := chars "# a comment" ++ [newline] ++ chars " 1, 2" ++ [newline] ++ [newline] ++ chars "3;-4" ++ [newline].
Example C85_example :
  load_cloud 0%Z byte example_text = Ok (Cloud 2 2 [1; 2; 3; -4]%Z) /\
  load_cloud 0%Z byte (example_text ++ chars "5 6") = Throw RuntimeError /\
  load_cloud 0%Z byte (chars "5 6") = Ok pc_empty /\
  load_cloud 0%Z byte (chars ",5" ++ [newline]) = Ok (Cloud 1 2 [0; 5]%Z) /\
  print_cloud print_Z (Cloud 2 2 [1; 2; 3; -4]%Z) = Ok (chars "1" ++ ["009"%char] ++ chars "2" ++ [newline] ++ chars "3" ++ ["009"%char] ++ chars "-4" ++ [newline]) /\
  pc_append 0%Z (Cloud 2 2 [1; 2; 3; -4]%Z) (Cloud 1 2 [5; 6]%Z) = Ok (Cloud 3 2 [1; 2; 3; -4; 5; 6]%Z).
Proof. repeat split; vm_compute; reflexivity. Qed.

Print Assumptions C85_access.
Print Assumptions C85_storage.
Print Assumptions C85_equality.
Print Assumptions C85_append.
Print Assumptions C85_load.
Print Assumptions C85_last_line_refuted.
Print Assumptions C85_round_trip.
Print Assumptions C85_integers.
