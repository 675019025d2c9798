(** * Facts about half-edge meshes *)

From Coq Require Import List Arith Bool ZArith Lia.
From Verif Require Import Base BaseFacts UnionFind Mesh.
Import ListNotations.

Tactic Notation "inv_bind" hyp(H) "as" ident(x) ident(E) := apply bind_ok in H; destruct H as (x & E & H).

(** ** Specification *)
(** an edge between two vertices that are next to each other in one of the faces *)
Definition adjacent (F : list (list nat)) (u v : nat) : Prop :=
  exists vs, In vs F /\ (In (u, v) (cyclic vs) \/ In (v, u) (cyclic vs)).

Notation hget m e := (nth_error (m_half m) e).
Definition edge_uv (m : mesh) (e u v : nat) : Prop :=
  exists h p hp, hget m e = Some h /\ h_pair h = Some p /\ hget m p = Some hp /\ h_vertex hp = Some u /\ h_vertex h = Some v.

(** the half-edges of a face *)
Definition is_face (m : mesh) (f : nat) (vs : list nat) : Prop :=
  exists es, length es = length vs /\ NoDup es /\ nth_error (m_faces m) f = Some (hd_error es) /\
    forall i e, nth_error es i = Some e -> exists h u v, hget m e = Some h /\ h_face h = Some f /\ h_next h = nth_error es (S i mod length es) /\
      edge_uv m e u v /\ nth_error vs i = Some u.

(** the second mesh extends the first one; half-edges of the first [k] faces stay *)
Definition ext (k : nat) (m m' : mesh) : Prop :=
  (forall e h, hget m e = Some h -> exists h', hget m' e = Some h' /\ h_pair h' = h_pair h /\ (h_vertex h <> None -> h_vertex h' = h_vertex h) /\
     forall f, h_face h = Some f -> h_face h' = Some f /\ (f < k -> h' = h)) /\
  (forall f e, nth_error (m_faces m) f = Some (Some e) -> nth_error (m_faces m') f = Some (Some e)).

Record Inv (F : list (list nat)) (k : nat) (m : mesh) : Prop := {
  I_len : length (m_faces m) = length F;
  I_edge : forall e, e < length (m_half m) -> exists u v, edge_uv m e u v /\ adjacent F u v;
  I_face : forall e h f, hget m e = Some h -> h_face h = Some f -> f < length F;
  I_faces : forall f vs, f < k -> nth_error F f = Some vs -> vs <> [] -> is_face m f vs;
  I_vedge : forall v x e, vfind m v = Some x -> v_edge x = Some e -> exists w, edge_uv m e v w }.

(** ** Extensions *)
Lemma ext_refl k m : ext k m m.
Proof. split; [|auto]. intros e h H. exists h. auto 10. Qed.
Lemma ext_trans k m1 m2 m3 : ext k m1 m2 -> ext k m2 m3 -> ext k m1 m3.
Proof.
  intros [A1 A2] [B1 B2]. split; [|auto]. intros e h H. destruct (A1 e h H) as (h1 & H1 & P1 & V1 & F1). destruct (B1 e h1 H1) as (h2 & H2 & P2 & V2 & F2).
  exists h2. refine (conj H2 (conj _ (conj _ _))); [congruence| |].
  - intro X. specialize (V1 X). rewrite V2; congruence.
  - intros f Hf. destruct (F1 f Hf) as [G1 G2]. destruct (F2 f G1) as [G3 G4]. split; [exact G3|]. intro Hk. rewrite (G4 Hk). apply G2. exact Hk.
Qed.
Lemma ext_weaken j k m m' : j <= k -> ext k m m' -> ext j m m'.
Proof.
  intros Hjk [A1 A2]. split; [|exact A2]. intros e h H. destruct (A1 e h H) as (h1 & H1 & P1 & V1 & F1). exists h1. refine (conj H1 (conj P1 (conj V1 _))).
  intros f Hf. destruct (F1 f Hf) as [G1 G2]. split; [exact G1|]. intro X. apply G2. lia.
Qed.
Lemma ext_edge_uv k m m' e u v : ext k m m' -> edge_uv m e u v -> edge_uv m' e u v.
Proof.
  intros [A1 A2] (h & p & hp & H1 & H2 & H3 & H4 & H5). destruct (A1 e h H1) as (h' & G1 & G2 & G3 & _). destruct (A1 p hp H3) as (hp' & G4 & G5 & G6 & _).
  exists h', p, hp'. refine (conj G1 (conj _ (conj G4 (conj _ _)))); [congruence|rewrite G6; congruence|rewrite G3; congruence].
Qed.
Lemma ext_is_face k m m' f vs : ext k m m' -> f < k -> vs <> [] -> is_face m f vs -> is_face m' f vs.
Proof.
  intros X Hf Hne (es & H1 & H2 & H3 & H4). exists es. refine (conj H1 (conj H2 (conj _ _))).
  - destruct es as [|e es]; [destruct vs; [contradiction|discriminate]|]. apply (proj2 X). exact H3.
  - intros i e Hi. destruct (H4 i e Hi) as (h & u & v & G1 & G2 & G3 & G4 & G5). destruct (proj1 X e h G1) as (h' & K1 & K2 & K3 & K4). destruct (K4 f G2) as [K5 K6]. rewrite (K6 Hf) in K1.
    exists h, u, v. refine (conj K1 (conj G2 (conj G3 (conj (ext_edge_uv k m m' e u v X G4) G5)))).
Qed.

Lemma hget_set m e g e' : hget (set_half m e g) e' = if e =? e' then option_map g (hget m e') else hget m e'.
Proof.
  unfold set_half. cbn [m_half]. destruct (Nat.eqb_spec e e') as [->|N].
  - destruct (hget m e') as [h|] eqn:E; [|rewrite E; reflexivity]. cbn [option_map]. apply nth_error_upd_eq. apply nth_error_Some. congruence.
  - destruct (hget m e) as [h|]; [apply nth_error_upd_neq; exact N|reflexivity].
Qed.
Lemma len_set m e g : length (m_half (set_half m e g)) = length (m_half m).
Proof. unfold set_half. cbn [m_half]. destruct (hget m e); [apply upd_length|reflexivity]. Qed.
Lemma ext_set k m e g : (forall h, hget m e = Some h -> h_pair (g h) = h_pair h /\ (h_vertex h <> None -> h_vertex (g h) = h_vertex h) /\
    forall f, h_face h = Some f -> h_face (g h) = Some f /\ (f < k -> g h = h)) -> ext k m (set_half m e g).
Proof.
  intro H. split; [|auto]. intros e' h He. rewrite hget_set. destruct (Nat.eqb_spec e e') as [<-|N]; [|exists h; auto 10]. rewrite He. cbn [option_map]. exists (g h). destruct (H h He) as (A & B & C). auto.
Qed.

(** an extension by the same half-edges and the same vertices *)
Lemma Inv_ext F k m m' : Inv F k m -> ext k m m' -> length (m_half m') = length (m_half m) -> length (m_faces m') = length (m_faces m) -> m_verts m' = m_verts m ->
  (forall e h f, hget m' e = Some h -> h_face h = Some f -> f < length F) -> Inv F k m'.
Proof.
  intros [A B C D E] X L1 L2 L3 L4. constructor.
  - congruence.
  - intros e He. rewrite L1 in He. destruct (B e He) as (u & v & H1 & H2). exists u, v. split; [eapply ext_edge_uv; eauto|exact H2].
  - exact L4.
  - intros f vs Hf Hvs Hne. eapply ext_is_face; eauto.
  - intros v x e Hv He. unfold vfind in Hv. rewrite L3 in Hv. destruct (E v x e Hv He) as [w Hw]. exists w. eapply ext_edge_uv; eauto.
Qed.

(** ** Setting pointers *)
Lemma ext_nextprev k m e g : (forall h, h_pair (g h) = h_pair h /\ h_vertex (g h) = h_vertex h /\ h_face (g h) = h_face h) ->
  (forall h f, hget m e = Some h -> h_face h = Some f -> k <= f) -> ext k m (set_half m e g).
Proof.
  intros Hg Hk. apply ext_set. intros h Hh. destruct (Hg h) as (A & B & C). refine (conj A (conj (fun _ => B) _)). intros f Hf. split; [congruence|]. intro X. specialize (Hk h f Hh Hf). lia.
Qed.
Lemma Inv_nextprev F k m e g : (forall h, h_pair (g h) = h_pair h /\ h_vertex (g h) = h_vertex h /\ h_face (g h) = h_face h) ->
  (forall h f, hget m e = Some h -> h_face h = Some f -> k <= f) -> Inv F k m -> Inv F k (set_half m e g).
Proof.
  intros Hg Hk HI. apply (Inv_ext F k m); auto; [apply ext_nextprev; assumption|apply len_set|].
  intros e' h f He Hf. rewrite hget_set in He. destruct (e =? e'); [|eapply I_face; eauto]. destruct (hget m e') as [h'|] eqn:E; [|discriminate]. cbn [option_map] in He. injection He as <-.
  destruct (Hg h') as (_ & _ & C). rewrite C in Hf. eapply I_face; eauto.
Qed.
Lemma face_set_half m e g e' h' : (forall h, h_face (g h) = h_face h) -> hget (set_half m e g) e' = Some h' -> exists h, hget m e' = Some h /\ h_face h = h_face h'.
Proof.
  intros Hg H. rewrite hget_set in H. destruct (e =? e'); [|eauto]. destruct (hget m e') as [h|]; [|discriminate]. injection H as <-. exists h. split; [reflexivity|symmetry; apply Hg].
Qed.

(** ** The boundary *)
Lemma find_ifM_some {A} (f : A -> outcome bool) l x : find_ifM f l = Ok (Some x) -> In x l /\ f x = Ok true.
Proof.
  induction l as [|a l IH]; cbn [find_ifM]; intro H; [discriminate|]. inv_bind H as b E. destruct b; [injection H as <-; auto using in_eq|]. destruct (IH H). auto using in_cons.
Qed.
Lemma half_ok m e h : half m e = Ok h <-> hget m e = Some h.
Proof. unfold half. apply get_ok. Qed.
Lemma pair_ok m e p : pair_of m e = Ok p -> exists h, hget m e = Some h /\ h_pair h = Some p.
Proof. unfold pair_of. intro H. inv_bind H as x E. apply half_ok in E. exists x. split; [exact E|]. destruct (h_pair x); [injection H as <-; reflexivity|discriminate]. Qed.
Lemma face_ok m e f : face_of m e = Ok f -> exists h, hget m e = Some h /\ h_face h = f.
Proof. unfold face_of. intro H. inv_bind H as x E. apply half_ok in E. exists x. split; [exact E|]. congruence. Qed.
Lemma target_ok m e t : target m e = Ok t -> exists h, hget m e = Some h /\ h_vertex h = t.
Proof. unfold target. intro H. inv_bind H as x E. apply half_ok in E. exists x. split; [exact E|]. congruence. Qed.
Lemma ptr_ok o x : ptr o = Ok x -> o = Some x.
Proof. destruct o; cbn; congruence. Qed.

Lemma np_next o : forall h, h_pair (set_next o h) = h_pair h /\ h_vertex (set_next o h) = h_vertex h /\ h_face (set_next o h) = h_face h.
Proof. intro h. auto. Qed.
Lemma np_prev o : forall h, h_pair (set_prev o h) = h_pair h /\ h_vertex (set_prev o h) = h_vertex h /\ h_face (set_prev o h) = h_face h.
Proof. intro h. auto. Qed.

Definition same_faces (m m' : mesh) : Prop := forall e h', hget m' e = Some h' -> exists h, hget m e = Some h /\ h_face h = h_face h'.
Lemma sf_refl m : same_faces m m.
Proof. intros e h H. eauto. Qed.
Lemma sf_trans m1 m2 m3 : same_faces m1 m2 -> same_faces m2 m3 -> same_faces m1 m3.
Proof. intros A B e h H. destruct (B e h H) as (h1 & H1 & E1). destruct (A e h1 H1) as (h2 & H2 & E2). exists h2. split; [exact H2|congruence]. Qed.
Lemma sf_none m m' e : same_faces m m' -> (forall h f, hget m e = Some h -> h_face h = Some f -> False) -> forall h f, hget m' e = Some h -> h_face h = Some f -> False.
Proof. intros A H h f Hh Hf. destruct (A e h Hh) as (h1 & H1 & E1). apply (H h1 f H1). congruence. Qed.

Lemma boundary_loop_ok F k fuel : forall m v curr edge m' edge', boundary_loop fuel m v curr edge = Ok (m', edge') -> Inv F k m ->
  Inv F k m' /\ ext k m m' /\ same_faces m m' /\ m_verts m' = m_verts m /\ (forall h f, hget m' edge' = Some h -> h_face h = Some f -> False).
Proof.
  induction fuel as [|fuel IH]; intros m v curr edge m' edge' H HI; cbn [boundary_loop] in H; inv_bind H as f0 E0; (destruct f0 as [|]; [discriminate|]); apply face_ok in E0; destruct E0 as (h0 & Eh & Ef); inv_bind H as x E1; inv_bind H as es E2; inv_bind H as fnd E3; inv_bind H as st E4; destruct st as [[m1 edge1] curr1].
  all: assert (S1 : Inv F k m1 /\ ext k m m1 /\ same_faces m m1 /\ m_verts m1 = m_verts m /\ (forall h f, hget m1 edge1 = Some h -> h_face h = Some f -> False)).
  1,3: destruct fnd as [e|]; [|injection E4 as <- <- <-; refine (conj HI (conj (ext_refl k m) (conj (sf_refl m) (conj eq_refl _)))); congruence].
  1,2: apply find_ifM_some in E3; destruct E3 as [_ E3]; inv_bind E3 as x2 E5; inv_bind E3 as fp E6; rewrite E5 in E4; cbn [bind] in E4; inv_bind E4 as q E7; inv_bind E4 as t0 E8; inv_bind E4 as t1 E9; injection E4 as <- <- <-;
    apply face_ok in E6; destruct E6 as (hp & Ep & Efp); (destruct fp; [discriminate|]);
    set (m2 := set_half m x2 (set_next (Some edge))) in *;
    assert (N1 : forall h f, hget m x2 = Some h -> h_face h = Some f -> k <= f) by (intros; congruence);
    assert (SF : same_faces m m2) by (intros e' h' H'; apply (face_set_half m x2 (set_next (Some edge)) e' h' (fun _ => eq_refl) H'));
    assert (N2 : forall h f, hget m2 edge = Some h -> h_face h = Some f -> False) by (apply (sf_none m m2 edge SF); intros; congruence);
    assert (SF2 : same_faces m2 (set_half m2 edge (set_prev (Some x2)))) by (intros e' h' H'; apply (face_set_half m2 edge (set_prev (Some x2)) e' h' (fun _ => eq_refl) H'));
    assert (N3 : forall h f, hget m2 edge = Some h -> h_face h = Some f -> k <= f) by (intros h f X Y; destruct (N2 h f X Y));
    refine (conj _ (conj _ (conj (sf_trans _ _ _ SF SF2) (conj eq_refl _)))).
  1,4: apply Inv_nextprev; [apply np_prev|exact N3|]; apply Inv_nextprev; [apply np_next|exact N1|exact HI].
  1,3: apply ext_trans with m2; apply ext_nextprev; [apply np_next|exact N1|apply np_prev|exact N3].
  1,2: apply (sf_none m _ x2 (sf_trans _ _ _ SF SF2)); intros; congruence.
  - destruct (curr1 =? v); [|discriminate]. injection H as <- <-. exact S1.
  - destruct (curr1 =? v); [injection H as <- <-; exact S1|]. destruct S1 as (A1 & A2 & A3 & A4 & A5). destruct (IH _ _ _ _ _ _ H A1) as (B1 & B2 & B3 & B4 & B5).
    refine (conj B1 (conj (ext_trans _ _ _ _ A2 B2) (conj (sf_trans _ _ _ A3 B3) (conj _ B5)))). congruence.
Qed.

Lemma boundary_step_ok F k fuel m v m' : boundary_step fuel m v = Ok m' -> Inv F k m -> Inv F k m' /\ ext k m m' /\ m_verts m' = m_verts m.
Proof.
  unfold boundary_step. intros H HI. inv_bind H as x E. destruct (v_edge x) as [e|]; [|injection H as <-; auto using ext_refl]. inv_bind H as x0 E0. inv_bind H as f1 E1. destruct f1 as [f|]; [injection H as <-; auto using ext_refl|].
  apply face_ok in E1. destruct E1 as (hp & Ep & Efp). inv_bind H as t0 E2. inv_bind H as t1 E2'. inv_bind H as st E3. destruct st as [m1 edge]. injection H as <-. destruct (boundary_loop_ok F k _ _ _ _ _ _ _ E3 HI) as (A1 & A2 & A3 & A4 & A5).
  set (m2 := set_half m1 x0 (set_next (Some edge))).
  assert (N1 : forall h f, hget m1 x0 = Some h -> h_face h = Some f -> k <= f) by (intros h f X Y; exfalso; revert h f X Y; apply (sf_none m m1 x0 A3); intros; congruence).
  assert (SF : same_faces m1 m2) by (intros e' h' H'; apply (face_set_half m1 x0 (set_next (Some edge)) e' h' (fun _ => eq_refl) H')).
  assert (N3 : forall h f, hget m2 edge = Some h -> h_face h = Some f -> k <= f) by (intros h f X Y; exfalso; revert h f X Y; apply (sf_none m1 m2 edge SF); exact A5).
  refine (conj _ (conj _ A4)).
  - apply Inv_nextprev; [apply np_prev|exact N3|]. apply Inv_nextprev; [apply np_next|exact N1|exact A1].
  - apply ext_trans with m1; [exact A2|]. apply ext_trans with m2; apply ext_nextprev; [apply np_next|exact N1|apply np_prev|exact N3].
Qed.

Lemma boundary_ok F k fuel l : forall m m', foldM (boundary_step fuel) l m = Ok m' -> Inv F k m -> Inv F k m' /\ ext k m m' /\ m_verts m' = m_verts m.
Proof.
  induction l as [|v l IH]; intros m m' H HI; cbn [foldM] in H; [injection H as <-; auto using ext_refl|]. inv_bind H as m1 E. destruct (boundary_step_ok F k _ _ _ _ E HI) as (A1 & A2 & A3).
  destruct (IH _ _ H A1) as (B1 & B2 & B3). refine (conj B1 (conj (ext_trans _ _ _ _ A2 B2) _)). congruence.
Qed.

(** ** Cyclic sequences *)
Lemma nth_error_combine {A B} (l : list A) (m : list B) i a b : nth_error l i = Some a -> nth_error m i = Some b -> nth_error (combine l m) i = Some (a, b).
Proof. revert m i. induction l as [|x l IH]; intros [|y m] [|i] H1 H2; cbn in *; try discriminate; [congruence|apply IH; assumption]. Qed.
Lemma cyclic_length {A} (l : list A) : length (cyclic l) = length l.
Proof. destruct l as [|a l]; [reflexivity|]. cbn [cyclic]. rewrite combine_length, app_length. cbn [length]. lia. Qed.
Lemma cyclic_fst {A} (l : list A) : map fst (cyclic l) = l.
Proof.
  destruct l as [|a l]; [reflexivity|]. cbn [cyclic]. assert (G : forall (l : list A) (m : list A), length m = length l -> map fst (combine l m) = l).
  { induction l0 as [|x l0 IH]; intros [|y m] H; cbn in *; try discriminate; [reflexivity|]. f_equal. apply IH. lia. }
  apply G. rewrite app_length. cbn [length]. lia.
Qed.
Lemma cyclic_nth {A} (l : list A) i a : nth_error l i = Some a -> exists b, nth_error (cyclic l) i = Some (a, b) /\ nth_error l (S i mod length l) = Some b.
Proof.
  intro H. assert (Hi : i < length l) by (apply nth_error_Some; congruence). destruct l as [|x r]; [destruct i; discriminate|]. cbn [cyclic length] in *.
  destruct (Nat.eq_dec (S i) (S (length r))) as [E|N].
  - exists x. rewrite E, Nat.mod_same by lia. split; [|reflexivity]. apply nth_error_combine; [exact H|]. injection E as ->. rewrite nth_error_app2, Nat.sub_diag by lia. reflexivity.
  - rewrite Nat.mod_small by lia. destruct (nth_error (x :: r) (S i)) as [b|] eqn:E; [|apply nth_error_None in E; cbn [length] in E; lia]. exists b. split; [|reflexivity].
    apply nth_error_combine; [exact H|]. cbn [nth_error] in E. rewrite nth_error_app1 by (apply nth_error_Some; congruence). exact E.
Qed.

(** ** [next] and [prev] of a new face *)
Lemma link_fold_other l : forall m e, ~ In e (map (fun q : nat * (nat * nat) => fst (snd q)) l) ->
  hget (fold_left (fun m q => let '(p, (e, n)) := q in set_half m e (fun h => set_prev (Some p) (set_next (Some n) h))) l m) e = hget m e.
Proof.
  induction l as [|[p [e1 n]] l IH]; intros m e H; cbn [fold_left]; [reflexivity|]. cbn [map fst snd In] in H. rewrite IH by tauto. rewrite hget_set. destruct (Nat.eqb_spec e1 e) as [->|]; [tauto|reflexivity].
Qed.
Lemma link_fold_in l : NoDup (map (fun q : nat * (nat * nat) => fst (snd q)) l) -> forall m p e n h, In (p, (e, n)) l -> hget m e = Some h ->
  hget (fold_left (fun m q => let '(p, (e, n)) := q in set_half m e (fun h => set_prev (Some p) (set_next (Some n) h))) l m) e = Some (set_prev (Some p) (set_next (Some n) h)).
Proof.
  induction l as [|[p1 [e1 n1]] l IH]; intros Hn m p e n h Hin He; [destruct Hin|]. cbn [map fst snd] in Hn. inversion Hn as [|? ? N1 N2]; subst. cbn [fold_left]. destruct Hin as [E|Hin].
  - injection E as -> -> ->. rewrite link_fold_other by exact N1. rewrite hget_set, Nat.eqb_refl, He. reflexivity.
  - apply IH; [exact N2|exact Hin|]. rewrite hget_set. destruct (Nat.eqb_spec e1 e) as [->|]; [|exact He]. exfalso. apply N1. apply in_map_iff. exists (p, (e, n)). auto.
Qed.
Definition link_list (es : list nat) := combine (match es with [] => [] | _ => last es 0 :: es end) (cyclic es).
Lemma link_list_edges es : map (fun q : nat * (nat * nat) => fst (snd q)) (link_list es) = es.
Proof.
  unfold link_list. assert (G : forall (l : list nat) (c : list (nat * nat)), length c <= length l -> map (fun q : nat * (nat * nat) => fst (snd q)) (combine l c) = map fst c).
  { induction l as [|x l IH]; intros [|y c] H; cbn in *; try lia; [reflexivity|reflexivity|]. f_equal. apply IH. lia. }
  rewrite G, cyclic_fst; [reflexivity|]. rewrite cyclic_length. destruct es; cbn [length]; lia.
Qed.
Lemma link_list_nth es i e : nth_error es i = Some e -> exists p n, In (p, (e, n)) (link_list es) /\ nth_error es (S i mod length es) = Some n.
Proof.
  intro H. destruct (cyclic_nth es i e H) as (n & H1 & H2). assert (Hi : i < length es) by (apply nth_error_Some; congruence).
  destruct es as [|a es]; [destruct i; discriminate|]. destruct (nth_error (last (a :: es) 0 :: a :: es) i) as [p|] eqn:E; [|apply nth_error_None in E; cbn [length] in *; lia].
  exists p, n. split; [|exact H2]. apply (nth_error_In _ i). unfold link_list. apply nth_error_combine; assumption.
Qed.

Lemma link_fold_ext F k l : forall m, (forall q h f, In q l -> hget m (fst (snd q)) = Some h -> h_face h = Some f -> k <= f) ->
  let m' := fold_left (fun m (q : nat * (nat * nat)) => let '(p, (e, n)) := q in set_half m e (fun h => set_prev (Some p) (set_next (Some n) h))) l m in
  ext k m m' /\ (Inv F k m -> Inv F k m') /\ m_verts m' = m_verts m /\ m_faces m' = m_faces m.
Proof.
  induction l as [|[p [e n]] l IH]; intros m H; cbn [fold_left]; [auto using ext_refl|]. cbv zeta.
  set (g := fun h => set_prev (Some p) (set_next (Some n) h)). assert (Hg : forall h, h_pair (g h) = h_pair h /\ h_vertex (g h) = h_vertex h /\ h_face (g h) = h_face h) by (intro h; auto).
  assert (He : forall h f, hget m e = Some h -> h_face h = Some f -> k <= f) by (intros h f; apply (H (p, (e, n))); simpl; auto).
  destruct (IH (set_half m e g)) as (A1 & A2 & A3 & A4).
  - intros q h f Hq Hh Hf. destruct (face_set_half m e g _ h (fun h => proj2 (proj2 (Hg h))) Hh) as (h1 & Hh1 & E1). apply (H q h1 f); [simpl; auto|exact Hh1|congruence].
  - refine (conj _ (conj _ (conj _ _))); [|intro HI; apply A2; apply Inv_nextprev; assumption|rewrite A3; reflexivity|rewrite A4; reflexivity]. eapply ext_trans; [apply (ext_nextprev k m e g Hg He)|exact A1].
Qed.

(** ** Half-edges of a new face *)
Definition Cur (m : mesh) (f : nat) (es : list nat) (done : list (nat * nat)) : Prop :=
  NoDup es /\ nth_error (m_faces m) f = Some (hd_error es) /\
  Forall2 (fun e q => edge_uv m e (fst q) (snd q) /\ exists h, hget m e = Some h /\ h_face h = Some f) es done.

Lemma vfind_set m v e w : vfind (set_vedge m v e) w = if w =? v then option_map (fun x => mkV (v_x x) (v_y x) (v_z x) (v_data x) (Some e)) (vfind m w) else vfind m w.
Proof.
  unfold vfind, set_vedge. cbn [m_verts]. induction (m_verts m) as [|[k x] l IH]; cbn [map find fst snd]; [destruct (w =? v); reflexivity|].
  destruct (Nat.eqb_spec k v) as [->|N]; cbn [fst snd].
  - rewrite (Nat.eqb_sym v w). destruct (Nat.eqb_spec w v) as [->|N]; cbn [option_map snd]; [reflexivity|exact IH].
  - destruct (Nat.eqb_spec k w) as [->|N2]; cbn [option_map snd]; [|exact IH]. destruct (Nat.eqb_spec w v) as [->|]; [contradiction|reflexivity].
Qed.
Lemma vat_ok m v x : vat m v = Ok x <-> vfind m v = Some x.
Proof. unfold vat. destruct (vfind m v); split; congruence. Qed.

(** the new edge and its pair, once the target is set *)
Lemma new_edge_ok F k m u v m1 e g f : new_edge m u v = Ok (m1, e) -> Inv F k m -> adjacent F u v -> k <= f -> f < length F ->
  (forall h, g h = set_vertex (Some v) (set_face (Some f) h)) ->
  let m2 := set_half m1 e g in
  Inv F k m2 /\ ext (length F) m m2 /\ edge_uv m2 e u v /\ hget m e = None /\ m_faces m2 = m_faces m /\ (exists h, hget m2 e = Some h /\ h_face h = Some f) /\
  hget m1 e = Some (mkH None None None None (Some (S e))) /\ map fst (m_verts m2) = map fst (m_verts m).
Proof.
  unfold new_edge. intros H HI Hadj Hkf HfF Hg. set (e0 := length (m_half m)) in *.
  set (ma := mkM (m_half m ++ [mkH None None None None (Some (S e0)); mkH None (Some u) None None (Some e0)]) (m_faces m) (m_verts m) (m_largest m)) in *.
  inv_bind H as s Es. set (mb := match v_edge s with None => set_vedge ma u e0 | Some _ => ma end) in *. inv_bind H as t Et. set (mc := match v_edge t with None => set_vedge mb v (S e0) | Some _ => mb end) in *. injection H as <- <-.
  assert (Hh : m_half mc = m_half ma) by (unfold mc, mb; destruct (v_edge t), (v_edge s); reflexivity).
  assert (Hf : m_faces mc = m_faces m) by (unfold mc, mb; destruct (v_edge t), (v_edge s); reflexivity).
  assert (Hv : map fst (m_verts mc) = map fst (m_verts m)).
  { assert (G : forall m v e, map fst (m_verts (set_vedge m v e)) = map fst (m_verts m)) by (intros m0 v0 e1; unfold set_vedge; cbn [m_verts]; rewrite map_map; apply map_ext; intros [a b]; cbn [fst snd]; destruct (a =? v0); reflexivity).
    unfold mc, mb. destruct (v_edge t), (v_edge s); rewrite ?G; reflexivity. }
  cbv zeta. set (m2 := set_half mc e0 g).
  assert (A0 : hget mc e0 = Some (mkH None None None None (Some (S e0)))) by (rewrite Hh; unfold ma; cbn [m_half]; rewrite nth_error_app2, Nat.sub_diag by lia; reflexivity).
  assert (A1 : hget m2 e0 = Some (mkH (Some f) (Some v) None None (Some (S e0)))) by (unfold m2; rewrite hget_set, Nat.eqb_refl, A0; cbn [option_map]; rewrite Hg; reflexivity).
  assert (A2 : hget m2 (S e0) = Some (mkH None (Some u) None None (Some e0))).
  { unfold m2. rewrite hget_set. destruct (Nat.eqb_spec e0 (S e0)); [lia|]. rewrite Hh. unfold ma. cbn [m_half]. rewrite nth_error_app2 by lia. replace (S e0 - length (m_half m)) with 1 by (unfold e0; lia). reflexivity. }
  assert (A3 : forall e h, hget m e = Some h -> hget m2 e = Some h).
  { intros e h He. assert (He' : e < e0) by (apply nth_error_Some; congruence). unfold m2. rewrite hget_set. destruct (Nat.eqb_spec e0 e); [lia|]. rewrite Hh. unfold ma. cbn [m_half]. rewrite nth_error_app1 by exact He'. exact He. }
  assert (A4 : length (m_half m2) = S (S e0)) by (unfold m2; rewrite len_set, Hh; unfold ma; cbn [m_half]; rewrite app_length; cbn [length]; unfold e0; lia).
  assert (X : forall j, ext j m m2) by (intro j; split; [intros e h He; exists h; refine (conj (A3 e h He) (conj eq_refl (conj (fun _ => eq_refl) _))); auto|intros f0 e Hfe; unfold m2, set_half; cbn [m_faces]; rewrite Hf; exact Hfe]).
  assert (E1 : edge_uv m2 e0 u v) by (do 3 eexists; refine (conj A1 (conj eq_refl (conj A2 (conj eq_refl eq_refl))))).
  assert (E2 : edge_uv m2 (S e0) v u) by (do 3 eexists; refine (conj A2 (conj eq_refl (conj A1 (conj eq_refl eq_refl))))).
  assert (Hadj' : adjacent F v u) by (destruct Hadj as (vs & K1 & K2); exists vs; tauto).
  refine (conj _ (conj (X _) (conj E1 (conj _ (conj Hf (conj _ (conj A0 Hv))))))); [|apply nth_error_None; unfold e0; lia|eexists; split; [exact A1|reflexivity]].
  destruct HI as [I1 I2 I3 I4 I5]. constructor.
  - unfold m2, set_half. cbn [m_faces]. rewrite Hf. exact I1.
  - intros e He. rewrite A4 in He. destruct (Nat.eq_dec e e0) as [->|]; [exists u, v; auto|]. destruct (Nat.eq_dec e (S e0)) as [->|]; [exists v, u; auto|]. destruct (I2 e) as (a & b & K1 & K2); [unfold e0 in *; lia|].
    exists a, b. split; [apply (ext_edge_uv 0 m m2 e a b (X 0) K1)|exact K2].
  - intros e h f0 He Hf0. assert (He' : e < S (S e0)) by (rewrite <- A4; apply nth_error_Some; congruence). destruct (Nat.eq_dec e e0) as [->|]; [rewrite A1 in He; injection He as <-; cbn in Hf0; congruence|].
    destruct (Nat.eq_dec e (S e0)) as [->|]; [rewrite A2 in He; injection He as <-; discriminate|]. destruct (hget m e) as [h1|] eqn:E; [rewrite (A3 e h1 E) in He; injection He as <-; eapply I3; eauto|]. apply nth_error_None in E. unfold e0 in *. lia.
  - intros f0 vs Hf0 Hvs Hne. apply (ext_is_face k m m2); auto.
  - intros w x e Hw He.
    assert (K : vfind mc w = Some x) by exact Hw. clear Hw.
    assert (G : exists x0, vfind m w = Some x0 /\ (v_edge x0 = Some e \/ (w = u /\ e = e0) \/ (w = v /\ e = S e0))).
    { assert (Kb : forall x, vfind mb w = Some x -> v_edge x = Some e -> exists x0, vfind m w = Some x0 /\ (v_edge x0 = Some e \/ (w = u /\ e = e0))).
      { intros y Hy Hye. unfold mb in Hy. destruct (v_edge s); [exists y; auto|]. rewrite vfind_set in Hy. change (vfind ma w) with (vfind m w) in Hy. destruct (Nat.eqb_spec w u); [|exists y; auto]. destruct (vfind m w) as [y0|]; [|discriminate]. injection Hy as <-. cbn [v_edge] in Hye. exists y0. split; [reflexivity|]. right. split; congruence. }
      unfold mc in K. destruct (v_edge t); [destruct (Kb x K He) as (x0 & K1 & K2); exists x0; tauto|]. rewrite vfind_set in K. destruct (Nat.eqb_spec w v); [|destruct (Kb x K He) as (x0 & K1 & K2); exists x0; tauto].
      destruct (vfind mb w) as [y|] eqn:Ey; [|discriminate]. injection K as <-. cbn [v_edge] in He. assert (Hm : exists x0, vfind m w = Some x0).
      { unfold mb in Ey. destruct (v_edge s); [exists y; exact Ey|]. rewrite vfind_set in Ey. change (vfind ma w) with (vfind m w) in Ey. destruct (w =? u); [|eauto]. destruct (vfind m w); [eauto|discriminate]. }
      destruct Hm as (x0 & Hx0). exists x0. split; [exact Hx0|]. right. right. split; congruence. }
    destruct G as (x0 & Hx0 & [G|[[-> ->]|[-> ->]]]); [|exists v; exact E1|exists u; exact E2]. destruct (I5 w x0 e Hx0 G) as [z Hz]. exists z. apply (ext_edge_uv 0 m m2 e w z (X 0) Hz).
Qed.

Lemma opt_eqb_eq a b : opt_eqb a b = true -> a = b.
Proof. destruct a, b; cbn; intro H; try discriminate; [apply Nat.eqb_eq in H; congruence|reflexivity]. Qed.
Lemma no_except_ok {A} (o : outcome A) x : no_except o = Ok x -> o = Ok x.
Proof. destruct o; cbn; congruence. Qed.
Lemma source_target_uv m e u v : source m e = Ok (Some u) -> target m e = Ok (Some v) -> edge_uv m e u v.
Proof.
  unfold source. intros H1 H2. inv_bind H1 as p E. apply pair_ok in E. destruct E as (h & Hh & Hp). apply target_ok in H1. destruct H1 as (hp & Hhp & Hu). apply target_ok in H2. destruct H2 as (h' & Hh' & Hv).
  exists h, p, hp. refine (conj Hh (conj Hp (conj Hhp (conj Hu _)))). congruence.
Qed.
Lemma uv_source m e u v : edge_uv m e u v -> source m e = Ok (Some u) /\ target m e = Ok (Some v).
Proof.
  intros (h & p & hp & H1 & H2 & H3 & H4 & H5). unfold source, pair_of, target. rewrite (proj2 (half_ok m e h) H1). cbn [bind]. rewrite H2. cbn [ptr bind]. rewrite (proj2 (half_ok m p hp) H3). cbn [bind]. rewrite H4, H5. auto.
Qed.
Lemma getEdge_some fuel m u v e : getEdge fuel m u v = Ok (Some e) -> edge_uv m e u v.
Proof.
  unfold getEdge. intro H. apply no_except_ok in H. inv_bind H as s E1. inv_bind H as t E2. inv_bind H as es E3. apply find_ifM_some in H. destruct H as [_ H]. inv_bind H as a E4. destruct (opt_eqb a (Some u)) eqn:Ea; [|discriminate]. inv_bind H as b E5. injection H as H.
  apply opt_eqb_eq in Ea. apply opt_eqb_eq in H. subst. apply source_target_uv; assumption.
Qed.

Lemma fedge_nth m f e : f < length (m_faces m) -> nth_error (m_faces (set_fedge m f e)) f = Some (Some e).
Proof. intro H. unfold set_fedge. cbn [m_faces]. apply nth_error_upd_eq. exact H. Qed.
Lemma fedge_other m f e g : g <> f -> nth_error (m_faces (set_fedge m f e)) g = nth_error (m_faces m) g.
Proof. intro H. unfold set_fedge. cbn [m_faces]. apply nth_error_upd_neq. congruence. Qed.
Lemma fedge_ext k m f e : nth_error (m_faces m) f = Some None -> ext k m (set_fedge m f e).
Proof.
  intro H. split; [intros e' h He; exists h; auto 10|]. intros g e' Hg. destruct (Nat.eq_dec g f) as [->|N]; [congruence|]. rewrite fedge_other by exact N. exact Hg.
Qed.
Lemma fedge_Inv F k m f e : nth_error (m_faces m) f = Some None -> Inv F k m -> Inv F k (set_fedge m f e).
Proof.
  intros H HI. apply (Inv_ext F k m); auto; [apply fedge_ext; exact H|unfold set_fedge; cbn [m_faces]; apply upd_length|]. intros e' h f' He. apply (I_face F k m HI e' h f' He).
Qed.

Lemma Forall2_len {A B} (R : A -> B -> Prop) l m : Forall2 R l m -> length l = length m.
Proof. induction 1; cbn [length]; congruence. Qed.
Lemma Forall2_weaken {A B} (R R' : A -> B -> Prop) l m : (forall a b, R a b -> R' a b) -> Forall2 R l m -> Forall2 R' l m.
Proof. intros H. induction 1; constructor; auto. Qed.
Lemma Forall2_nth_error_l {A B} (R : A -> B -> Prop) l m : Forall2 R l m -> forall i a, nth_error l i = Some a -> exists b, nth_error m i = Some b /\ R a b.
Proof. induction 1 as [|a b l m H _ IH]; intros [|i] x Hx; cbn in *; try discriminate; [injection Hx as <-; eauto|apply IH; exact Hx]. Qed.
Lemma Cur_ext m m' f es done : ext (S f) m m' -> es <> [] -> Cur m f es done -> Cur m' f es done.
Proof.
  intros X Hne (H1 & H2 & H3). refine (conj H1 (conj _ _)).
  - destruct es as [|e es]; [contradiction|]. apply (proj2 X). exact H2.
  - eapply Forall2_weaken; [|exact H3]. cbn beta. intros e q [A (h & B & C)]. split; [eapply ext_edge_uv; eauto|]. destruct (proj1 X e h B) as (h' & G1 & _ & _ & G2). exists h'. split; [exact G1|apply G2; exact C].
Qed.
Lemma Forall2_snoc {A B} (R : A -> B -> Prop) l m a b : Forall2 R l m -> R a b -> Forall2 R (l ++ [a]) (m ++ [b]).
Proof. intros H1 H2. apply Forall2_app; [exact H1|]. constructor; [exact H2|constructor]. Qed.

Lemma face_step_ok F f fuel m es done u v m' es' : face_step fuel f (m, es) (u, v) = Ok (m', es') -> Inv F f m -> length F = S f -> adjacent F u v -> Cur m f es done ->
  Inv F f m' /\ ext (S f) m m' /\ Cur m' f es' (done ++ [(u, v)]) /\ map fst (m_verts m') = map fst (m_verts m).
Proof.
  cbn [face_step]. intros H HI HF Hadj HC. inv_bind H as s E1. inv_bind H as t E2. inv_bind H as found E3. inv_bind H as st E4. destruct st as [m1 e]. inv_bind H as fe E5. set (m2 := match fe with None => set_fedge m1 f e | Some _ => m1 end) in *. inv_bind H as h E6.
  destruct (h_face h) eqn:Ehf; [discriminate|]. destruct (h_pair h) as [p|] eqn:Ehp; [|discriminate]. set (g := fun h => set_vertex (Some v) (set_face (Some f) h)) in *. injection H as <- <-.
  apply get_ok in E5. apply half_ok in E6.
  assert (E6' : hget m1 e = Some h) by (unfold m2 in E6; destruct fe; exact E6).
  assert (Q : Inv F f (set_half m1 e g) /\ ext (S f) m (set_half m1 e g) /\ edge_uv (set_half m1 e g) e u v /\ m_faces (set_half m1 e g) = m_faces m /\ (exists h, hget (set_half m1 e g) e = Some h /\ h_face h = Some f) /\ ~ In e es /\ map fst (m_verts (set_half m1 e g)) = map fst (m_verts m)).
  { destruct HC as (C1 & C2 & C3). destruct found as [e1|].
    - injection E4 as <- <-. apply getEdge_some in E3. rename e1 into e.
      assert (Hv : h_vertex h = Some v) by (destruct E3 as (h1 & p1 & hp1 & K1 & K2 & K3 & K4 & K5); congruence).
      assert (X : ext (S f) m (set_half m e g)). { apply ext_set. intros h1 K1. rewrite E6' in K1. injection K1 as <-. refine (conj eq_refl (conj _ _)); [intros _; cbn; congruence|]. intros f1 K. congruence. }
      refine (conj _ (conj X (conj _ (conj eq_refl (conj _ (conj _ eq_refl)))))).
      + apply (Inv_ext F f m); auto; [apply (ext_weaken f (S f)); [lia|exact X]|apply len_set|]. intros e' h' f' He Hf. rewrite hget_set in He. destruct (e =? e'); [|eapply I_face; eauto]. destruct (hget m e'); [|discriminate]. injection He as <-. cbn in Hf. injection Hf as <-. lia.
      + eapply ext_edge_uv; eauto.
      + exists (g h). rewrite hget_set, Nat.eqb_refl, E6'. split; reflexivity.
      + intro Hin. apply In_nth_error in Hin. destruct Hin as [i Hi]. destruct (Forall2_nth_error_l _ _ _ C3 i e Hi) as (q & _ & _ & (h1 & K1 & K2)). congruence.
    - destruct (new_edge_ok F f m u v m1 e g f E4 HI Hadj (le_n f) ltac:(lia) (fun _ => eq_refl)) as (A1 & A2 & A3 & A4 & A5 & A6 & A7 & A8). rewrite HF in A2.
      refine (conj A1 (conj A2 (conj A3 (conj A5 (conj A6 (conj _ A8)))))). intro Hin. apply In_nth_error in Hin. destruct Hin as [i Hi]. destruct (Forall2_nth_error_l _ _ _ C3 i e Hi) as (q & _ & _ & (h1 & K1 & K2)). congruence. }
  destruct Q as (A1 & A2 & A3 & A4 & A5 & A6 & A7). assert (Em : m_faces m1 = m_faces m) by exact A4.
  destruct HC as (C1 & C2 & C3). rewrite Em, C2 in E5.
  destruct fe as [e0|]; unfold m2.
  - refine (conj A1 (conj A2 (conj _ A7))). assert (Hne : es <> []) by (intros ->; discriminate). destruct (Cur_ext m _ f es done A2 Hne (conj C1 (conj C2 C3))) as (B1 & B2 & B3). refine (conj _ (conj _ _)).
    + apply NoDup_rev in B1. rewrite <- (rev_involutive (es ++ [e])). apply NoDup_rev. rewrite rev_app_distr. cbn [rev app]. constructor; [rewrite <- in_rev; exact A6|exact B1].
    + rewrite B2. destruct es; [contradiction|reflexivity].
    + apply Forall2_snoc; [exact B3|]. split; [exact A3|exact A5].
  - assert (Hes : es = []) by (destruct es; [reflexivity|discriminate]). subst es. inversion C3; subst. change (set_half (set_fedge m1 f e) e g) with (set_fedge (set_half m1 e g) f e).
    assert (Hn : nth_error (m_faces (set_half m1 e g)) f = Some None) by (rewrite A4; exact C2).
    refine (conj (fedge_Inv F f _ f e Hn A1) (conj (ext_trans _ _ _ _ A2 (fedge_ext (S f) _ f e Hn)) (conj _ A7))). refine (conj _ (conj _ _)).
    + constructor; [intros []|constructor].
    + cbn [app hd_error]. apply fedge_nth. apply nth_error_Some. congruence.
    + cbn [app]. constructor; [|constructor]. split; [exact A3|exact A5].
Qed.

Lemma face_fold_ok F f fuel l : forall m es done m' es', foldM (face_step fuel f) l (m, es) = Ok (m', es') -> Inv F f m -> length F = S f -> (forall q, In q l -> adjacent F (fst q) (snd q)) -> Cur m f es done ->
  Inv F f m' /\ ext (S f) m m' /\ Cur m' f es' (done ++ l) /\ map fst (m_verts m') = map fst (m_verts m).
Proof.
  induction l as [|[u v] l IH]; intros m es done m' es' H HI HF Hadj HC; cbn [foldM] in H.
  - injection H as <- <-. rewrite app_nil_r. auto using ext_refl.
  - inv_bind H as st E. destruct st as [m1 es1]. destruct (face_step_ok F f fuel m es done u v m1 es1 E HI HF (Hadj (u, v) (or_introl eq_refl)) HC) as (A1 & A2 & A3 & A4).
    destruct (IH m1 es1 (done ++ [(u, v)]) m' es' H A1 HF (fun q Hq => Hadj q (or_intror Hq)) A3) as (B1 & B2 & B3 & B4). rewrite <- app_assoc in B3. refine (conj B1 (conj (ext_trans _ _ _ _ A2 B2) (conj B3 _))). congruence.
Qed.

Lemma adjacent_app F G u v : adjacent F u v -> adjacent (F ++ G) u v.
Proof. intros (vs & H1 & H2). exists vs. split; [apply in_or_app; auto|exact H2]. Qed.
Lemma Inv_new_face F m : Inv F (length F) m -> forall vs, Inv (F ++ [vs]) (length F) (mkM (m_half m) (m_faces m ++ [None]) (m_verts m) (m_largest m)).
Proof.
  intros HI vs. set (m1 := mkM (m_half m) (m_faces m ++ [None]) (m_verts m) (m_largest m)).
  assert (X : forall k, ext k m m1). { intro k. split; [intros e h He; exists h; auto 10|]. intros f e Hf. unfold m1. cbn [m_faces]. rewrite nth_error_app1; [exact Hf|]. apply nth_error_Some. congruence. }
  destruct HI as [I1 I2 I3 I4 I5]. constructor.
  - unfold m1. cbn [m_faces]. rewrite !app_length. cbn [length]. lia.
  - intros e He. destruct (I2 e He) as (u & v & A & B). exists u, v. split; [eapply (ext_edge_uv 0); eauto|apply adjacent_app; exact B].
  - intros e h f He Hf. rewrite app_length. specialize (I3 e h f He Hf). lia.
  - intros f ws Hf Hws Hne. rewrite nth_error_app1 in Hws by exact Hf. apply (ext_is_face (length F) m m1); auto.
  - intros v x e Hv He. destruct (I5 v x e Hv He) as [w Hw]. exists w. eapply (ext_edge_uv 0); eauto.
Qed.

Lemma addFace_ok F fuel order m vs m' : addFace fuel order m vs = Ok m' -> Inv F (length F) m -> Inv (F ++ [vs]) (S (length F)) m' /\ map fst (m_verts m') = map fst (m_verts m).
Proof.
  unfold addFace. intros H HI. set (f := length (m_faces m)) in *. assert (Ef : f = length F) by (apply (I_len F (length F)); exact HI). set (m1 := mkM (m_half m) (m_faces m ++ [None]) (m_verts m) (m_largest m)) in *.
  inv_bind H as st E. destruct st as [m2 es].
  pose proof (Inv_new_face F m HI vs) as H1. fold m1 in H1.
  assert (HF : length (F ++ [vs]) = S f) by (rewrite app_length; cbn [length]; lia).
  assert (HC : Cur m1 f [] []). { refine (conj (NoDup_nil _) (conj _ _)); [|constructor]. unfold m1. cbn [m_faces hd_error]. rewrite nth_error_app2, Ef, <- Ef by lia. unfold f. rewrite Nat.sub_diag. reflexivity. }
  rewrite <- Ef in H1.
  destruct (face_fold_ok (F ++ [vs]) f fuel (cyclic vs) m1 [] [] m2 es E H1 HF) as (A1 & A2 & A3 & A4); [|exact HC|].
  { intros [u v] Hq. exists vs. split; [apply in_or_app; simpl; auto|]. left. exact Hq. }
  cbn [app] in A3. destruct A3 as (C1 & C2 & C3).
  assert (Hfaces : forall e, In e es -> exists h, hget m2 e = Some h /\ h_face h = Some f) by (intros e He; apply In_nth_error in He; destruct He as [i Hi]; destruct (Forall2_nth_error_l _ _ _ C3 i e Hi) as (q & _ & _ & K); exact K).
  set (m3 := link_edges m2 es) in *.
  assert (Hm3 : m3 = fold_left (fun m q => let '(p, (e, n)) := q in set_half m e (fun h => set_prev (Some p) (set_next (Some n) h))) (link_list es) m2) by reflexivity.
  assert (Hin : forall q, In q (link_list es) -> In (fst (snd q)) es) by (intros q Hq; rewrite <- (link_list_edges es); apply (in_map (fun q : nat * (nat * nat) => fst (snd q))); exact Hq).
  destruct (link_fold_ext (F ++ [vs]) f (link_list es) m2) as (B1 & B2 & B3 & B4).
  { intros q h f' Hq Hh Hf. destruct (Hfaces _ (Hin q Hq)) as (h1 & K1 & K2). rewrite K1 in Hh. injection Hh as <-. assert (f' = f) by congruence. lia. }
  rewrite <- Hm3 in B1, B2, B3, B4. specialize (B2 A1).
  assert (I3 : Inv (F ++ [vs]) (S f) m3).
  { destruct B2 as [J1 J2 J3 J4 J5]. constructor; auto. intros g ws Hg Hws Hne. destruct (Nat.eq_dec g f) as [->|N]; [|apply J4; [lia|exact Hws|exact Hne]].
    assert (Ews : ws = vs) by (rewrite nth_error_app2, Ef, Nat.sub_diag in Hws by lia; injection Hws as ->; reflexivity). subst ws.
    assert (Hlen : length es = length vs) by (rewrite (Forall2_len _ _ _ C3), cyclic_length; reflexivity).
    exists es. refine (conj Hlen (conj C1 (conj _ _))); [rewrite B4; exact C2|]. intros i e Hi. destruct (Forall2_nth_error_l _ _ _ C3 i e Hi) as ([u v] & Hq & Huv & (h & Hh & Hhf)). cbn [fst snd] in Huv.
    destruct (link_list_nth es i e Hi) as (p & n & Hpn & Hn). assert (Hnd : NoDup (map (fun q : nat * (nat * nat) => fst (snd q)) (link_list es))) by (rewrite link_list_edges; exact C1).
    pose proof (link_fold_in (link_list es) Hnd m2 p e n h Hpn Hh) as He. rewrite <- Hm3 in He. exists (set_prev (Some p) (set_next (Some n) h)), u, v. refine (conj He (conj Hhf (conj _ (conj (ext_edge_uv f m2 m3 e u v B1 Huv) _)))); [symmetry; exact Hn|].
    destruct (nth_error vs i) as [u'|] eqn:Eu; [|apply nth_error_None in Eu; assert (i < length es) by (apply nth_error_Some; congruence); lia]. destruct (cyclic_nth vs i u' Eu) as (b & K & _). congruence. }
  destruct (boundary_ok (F ++ [vs]) (S f) fuel _ m3 m' H I3) as (D1 & D2 & D3). rewrite <- Ef. split; [exact D1|]. rewrite D3, B3, A4. reflexivity.
Qed.

Lemma addVertex_ok F m x y z d id m' : addVertex m x y z d id = Ok m' -> Inv F (length F) m -> Inv F (length F) m'.
Proof.
  unfold addVertex. set (i := match id with None => _ | Some i => i end). destruct (vfind m i) eqn:E; [discriminate|]. intros H HI. injection H as <-. destruct HI as [I1 I2 I3 I4 I5].
  constructor; auto. intros v w e Hv He. unfold vfind in Hv. cbn [m_verts] in Hv. clearbody i.
  assert (G : vfind m v = Some w). { unfold vfind. clear - Hv He. induction (m_verts m) as [|[k q] l IH]; cbn [app find fst snd] in *; [destruct (i =? v); cbn [option_map snd] in Hv; [injection Hv as <-; discriminate|discriminate]|]. destruct (k =? v); [exact Hv|apply IH; exact Hv]. }
  exact (I5 v w e G He).
Qed.

(** ** Queries *)
Lemma face_loop_ok m f vs es : length es = length vs -> NoDup es ->
  (forall i e, nth_error es i = Some e -> exists h u v, hget m e = Some h /\ h_face h = Some f /\ h_next h = nth_error es (S i mod length es) /\ edge_uv m e u v /\ nth_error vs i = Some u) ->
  forall e0, hd_error es = Some e0 -> forall j fuel i e, i + j = length es -> j <= S fuel -> nth_error es i = Some e -> face_loop fuel m e0 e = Ok (skipn i vs).
Proof.
  intros Hlen Hnd H e0 He0. induction j as [|j IH]; intros fuel i e Hij Hf Hi; [assert (i < length es) by (apply nth_error_Some; congruence); lia|].
  destruct (H i e Hi) as (h & u & v & Hh & _ & Hn & Huv & Hu). assert (Es : skipn i vs = u :: skipn (S i) vs) by (clear - Hu; revert i Hu; induction vs as [|a vs IH]; intros [|i] Hu; cbn in *; try discriminate; [congruence|apply IH; exact Hu]).
  destruct (uv_source m e u v Huv) as [S1 S2].
  assert (E : exists e', h_next h = Some e' /\ nth_error es (S i mod length es) = Some e').
  { rewrite Hn. destruct (nth_error es (S i mod length es)) as [e'|] eqn:E; [eauto|]. apply nth_error_None in E. pose proof (Nat.mod_upper_bound (S i) (length es)). lia. }
  destruct E as (e' & E1 & E2). assert (Hstep : forall fuel, face_loop fuel m e0 e = if e' =? e0 then Ok [u] else match fuel with 0 => OutOfFuel | S fuel => let* l := face_loop fuel m e0 e' in Ok (u :: l) end).
  { intro fu. destruct fu; cbn [face_loop]; rewrite S1; cbn [bind ptr]; rewrite (proj2 (half_ok m e h) Hh); cbn [bind]; rewrite E1; reflexivity. }
  rewrite Hstep, Es. destruct (Nat.eq_dec j 0) as [->|Nj].
  - replace (S i) with (length es) in * by lia. rewrite Nat.mod_same in E2 by lia. assert (e' = e0) by (destruct es; [discriminate|cbn in *; congruence]). subst e'. rewrite Nat.eqb_refl. rewrite skipn_all2 by lia. reflexivity.
  - rewrite Nat.mod_small in E2 by lia. destruct (Nat.eqb_spec e' e0) as [->|_].
    + exfalso. assert (S i = 0); [|lia]. apply (proj1 (NoDup_nth_error es) Hnd); [lia|]. rewrite E2. destruct es; [discriminate|symmetry; exact He0].
    + destruct fuel as [|fuel]; [lia|]. rewrite (IH fuel (S i) e'); [reflexivity|lia|lia|exact E2].
Qed.
Lemma is_face_vertices m f vs : is_face m f vs -> vs <> [] -> forall fuel, length vs <= S fuel -> face_vertices fuel m f = Ok vs.
Proof.
  intros (es & H1 & H2 & H3 & H4) Hne fuel Hf. unfold face_vertices. rewrite (proj2 (get_ok (m_faces m) f _) H3). cbn [bind]. destruct es as [|e0 es]; [destruct vs; [contradiction|discriminate]|]. cbn [hd_error ptr bind].
  apply (face_loop_ok m f vs (e0 :: es) H1 H2 H4 e0 eq_refl (length (e0 :: es)) fuel 0 e0); [reflexivity|lia|reflexivity].
Qed.

Lemma neighbours_ok F k m v start fuel : Inv F k m -> forall e w l, edge_uv m e v w -> neighbours_loop fuel m v start e = Ok l -> forall t, In t l -> adjacent F v t.
Proof.
  intro HI. assert (A : forall e w, edge_uv m e v w -> adjacent F v w).
  { intros e w Hw. assert (He : e < length (m_half m)) by (destruct Hw as (h & p & hp & Hh & _); apply nth_error_Some; congruence). destruct (I_edge F k m HI e He) as (u' & v' & K1 & K2).
    destruct (uv_source _ _ _ _ Hw) as [S1 S2]. destruct (uv_source _ _ _ _ K1) as [S3 S4]. rewrite S1 in S3. rewrite S2 in S4. injection S3 as <-. injection S4 as <-. exact K2. }
  induction fuel as [|fuel IH]; intros e w l He H t Ht; cbn [neighbours_loop] in H; inv_bind H as h E1; inv_bind H as t0 E2; inv_bind H as p E3; inv_bind H as e' E4;
    assert (Ht0 : t0 = w) by (apply half_ok in E1; apply ptr_ok in E2; destruct He as (h' & p' & hp & K1 & K2 & K3 & K4 & K5); congruence); subst t0.
  all: destruct (e' =? start); [injection H as <-; destruct Ht as [<-|[]]; eapply A; eauto|]; inv_bind H as s E5; inv_bind H as s' E6; destruct (Nat.eqb_spec s' v) as [->|]; [|injection H as <-; destruct Ht as [<-|[]]; eapply A; eauto].
  - discriminate.
  - inv_bind H as l' E7. injection H as <-. destruct Ht as [<-|Ht]; [eapply A; eauto|]. apply ptr_ok in E6. subst s.
    assert (Hlt : e' < length (m_half m)). { destruct (pair_ok m p e' E4) as (hp & K1 & K2). unfold source in E5. inv_bind E5 as q E8. apply pair_ok in E8. destruct E8 as (he & K3 & _). apply nth_error_Some. congruence. }
    destruct (I_edge F k m HI e' Hlt) as (a & b & K1 & K2). destruct (uv_source _ _ _ _ K1) as [S1 _]. rewrite E5 in S1. injection S1 as <-. apply (IH e' b l' K1 E7 t Ht).
Qed.
Lemma getNeighbours_ok F k m v x fuel l : Inv F k m -> vfind m v = Some x -> getNeighbours fuel m v x = Ok l -> forall t, In t l -> adjacent F v t.
Proof.
  intros HI Hx H t Ht. unfold getNeighbours in H. destruct (v_edge x) as [e|] eqn:E; [|injection H as <-; destruct Ht]. destruct (I_vedge F k m HI v x e Hx E) as [w Hw]. apply (neighbours_ok F k m v e fuel HI e w l Hw H t Ht).
Qed.

Lemma face_set_ok F k order m s : Inv F k m -> face_set order m = Ok s -> NoDup s /\ (forall f, In f s -> f < length F) /\ length s <= length (order (map fst (m_verts m))).
Proof.
  intros HI. unfold face_set. assert (G : forall l s0 s, foldM (fun s v => let* x := vat m v in let* e := ptr (v_edge x) in let* f := face_of m e in Ok (match f with Some f => if mem f s then s else s ++ [f] | None => s end)) l s0 = Ok s ->
    NoDup s0 -> (forall f, In f s0 -> f < length F) -> NoDup s /\ (forall f, In f s -> f < length F) /\ length s <= length s0 + length l).
  { induction l as [|v l IH]; intros s0 s1 H H1 H2; cbn [foldM] in H; [injection H as <-; refine (conj H1 (conj H2 _)); lia|]. inv_bind H as s2 E. inv_bind E as x E1. inv_bind E as e E2. inv_bind E as f E3. injection E as E.
    apply face_ok in E3. destruct E3 as (h & Hh & Hf). destruct f as [f|]; [|subst s2; destruct (IH s0 s1 H H1 H2) as (B1 & B2 & B3); refine (conj B1 (conj B2 _)); cbn [length]; lia].
    destruct (mem f s0) eqn:Em; subst s2; [destruct (IH s0 s1 H H1 H2) as (B1 & B2 & B3); refine (conj B1 (conj B2 _)); cbn [length]; lia|].
    destruct (IH (s0 ++ [f]) s1 H) as (B1 & B2 & B3).
    - rewrite <- (rev_involutive (s0 ++ [f])). apply NoDup_rev. rewrite rev_app_distr. cbn [rev app]. constructor; [|apply NoDup_rev; exact H1]. rewrite <- in_rev. intro X. unfold mem in Em. assert (existsb (Nat.eqb f) s0 = true) by (apply existsb_exists; exists f; split; [exact X|apply Nat.eqb_refl]). congruence.
    - intros g Hg. apply in_app_or in Hg. destruct Hg as [Hg|[<-|[]]]; [apply H2; exact Hg|]. eapply I_face; eauto.
    - refine (conj B1 (conj B2 _)). rewrite app_length in B3. cbn [length] in *. lia. }
  intro H. destruct (G _ [] s H (NoDup_nil _)) as (A & B & C); [intros f []|]. auto.
Qed.
