(** * Half-edge meshes (C94, C95) *)

From Coq Require Import List Arith Bool ZArith Lia Permutation.
From Verif Require Import Base BaseFacts UnionFind Mesh MeshFacts PolygonFacts.
Import ListNotations.

(** Specification: a mesh that results from calls that return; [F] are the faces, in the
    order in which they were added.  The order of the hash map is arbitrary. *)
Inductive built : mesh -> list (list nat) -> Prop :=
| built_empty : built m_empty []
| built_vertex m F x y z d id m' : built m F -> addVertex m x y z d id = Ok m' -> built m' F
| built_face m F fuel order vs m' : built m F -> vs <> [] -> (forall l, Permutation (order l) l) -> addFace fuel order m vs = Ok m' -> built m' (F ++ [vs]).

Lemma built_Inv m F : built m F -> Inv F (length F) m /\ forall vs, In vs F -> vs <> [].
Proof.
  induction 1 as [|m F x y z d id m' _ [IH IH'] H|m F fuel order vs m' _ [IH IH'] Hne _ H].
  - split; [|intros vs []]. constructor; [reflexivity|intros e He; cbn in He; lia|intros e h f He; destruct e; discriminate|intros f vs Hf; cbn in Hf; lia|intros v x e Hv; discriminate].
  - split; [eapply addVertex_ok; eauto|exact IH'].
  - split; [rewrite app_length, Nat.add_1_r; eapply addFace_ok; eauto|]. intros ws Hw. apply in_app_or in Hw. destruct Hw as [Hw|[<-|[]]]; auto.
Qed.

(** ** Vertices with edges *)
Definition has_edge (m : mesh) (w : nat) : Prop := exists x e, vfind m w = Some x /\ v_edge x = Some e.

Lemma has_edge_verts m m' w : m_verts m' = m_verts m -> has_edge m w -> has_edge m' w.
Proof. intros E (x & e & H1 & H2). exists x, e. unfold vfind in *. rewrite E. auto. Qed.
Lemma has_edge_set m u e w : has_edge m w -> has_edge (set_vedge m u e) w.
Proof. intros (x & e' & H1 & H2). unfold has_edge. rewrite vfind_set, H1. destruct (w =? u); [cbn [option_map]; do 2 eexists; split; reflexivity|eauto]. Qed.
Lemma has_edge_set_eq m u e x : vfind m u = Some x -> has_edge (set_vedge m u e) u.
Proof. intro H. unfold has_edge. rewrite vfind_set, Nat.eqb_refl, H. cbn [option_map]. do 2 eexists. split; reflexivity. Qed.
Lemma new_edge_has m u v m' e : new_edge m u v = Ok (m', e) -> (forall w, has_edge m w -> has_edge m' w) /\ has_edge m' u.
Proof.
  unfold new_edge. intro H. set (ma := mkM _ _ _ _) in *. inv_bind H as s Es. set (mb := match v_edge s with None => set_vedge ma u _ | Some _ => ma end) in *. inv_bind H as t Et. injection H as <- <-.
  assert (A : forall w, has_edge mb w -> has_edge (match v_edge t with None => set_vedge mb v (S (length (m_half m))) | Some _ => mb end) w) by (intros w Hw; destruct (v_edge t); [exact Hw|apply has_edge_set; exact Hw]).
  apply vat_ok in Es. split.
  - intros w Hw. apply A. unfold mb. destruct (v_edge s); [exact Hw|apply has_edge_set; exact Hw].
  - apply A. unfold mb. destruct (v_edge s) as [e'|] eqn:E; [exists s, e'; auto|eapply has_edge_set_eq; eauto].
Qed.
Lemma face_step_has fuel f m es u v m' es' : face_step fuel f (m, es) (u, v) = Ok (m', es') -> (forall w, has_edge m w -> has_edge m' w) /\ has_edge m' u.
Proof.
  cbn [face_step]. intro H. inv_bind H as s E1. inv_bind H as t E2. inv_bind H as found E3. inv_bind H as st E4. destruct st as [m1 e]. inv_bind H as fe E5. inv_bind H as h E6. destruct (h_face h); [discriminate|]. destruct (h_pair h); [|discriminate]. injection H as <- <-.
  assert (B : (forall w, has_edge m w -> has_edge m1 w) /\ has_edge m1 u).
  { destruct found as [e1|]; [|apply (new_edge_has m u v m1 e E4)]. injection E4 as <- <-. split; [auto|]. unfold getEdge in E3. apply no_except_ok in E3. inv_bind E3 as s' F1. inv_bind E3 as t' F2. inv_bind E3 as l F3. apply vat_ok in F1.
    unfold getEdges in F3. destruct (v_edge s') as [e'|] eqn:Ee; [exists s', e'; auto|]. injection F3 as <-. discriminate. }
  destruct B as [B1 B2]. assert (C : forall w, has_edge m1 w -> has_edge (set_half (match fe with None => set_fedge m1 f e | Some _ => m1 end) e (fun h => set_vertex (Some v) (set_face (Some f) h))) w) by (intros w Hw; apply (has_edge_verts m1); [destruct fe; reflexivity|exact Hw]).
  auto.
Qed.
Lemma face_fold_has fuel f l : forall m es m' es', foldM (face_step fuel f) l (m, es) = Ok (m', es') -> (forall w, has_edge m w -> has_edge m' w) /\ forall q, In q l -> has_edge m' (fst q).
Proof.
  induction l as [|[u v] l IH]; intros m es m' es' H; cbn [foldM] in H; [injection H as <- <-; split; [auto|intros q []]|]. inv_bind H as st E. destruct st as [m1 es1]. destruct (face_step_has _ _ _ _ _ _ _ _ E) as [A1 A2]. destruct (IH _ _ _ _ H) as [B1 B2].
  split; [auto|]. intros q [<-|Hq]; [apply B1; exact A2|apply B2; exact Hq].
Qed.
Lemma addFace_has F fuel order m vs m' : Inv F (length F) m -> addFace fuel order m vs = Ok m' -> (forall w, has_edge m w -> has_edge m' w) /\ forall w, In w vs -> has_edge m' w.
Proof.
  intros HI H. unfold addFace in H. set (m1 := mkM (m_half m) (m_faces m ++ [None]) (m_verts m) (m_largest m)) in *. inv_bind H as st E. destruct st as [m2 es].
  assert (Ef : length (m_faces m) = length F) by (apply (I_len F (length F)); exact HI). pose proof (Inv_new_face F m HI vs) as H1. fold m1 in H1. rewrite <- Ef in H1.
  assert (HF : length (F ++ [vs]) = S (length (m_faces m))) by (rewrite app_length; cbn [length]; lia).
  assert (HC : Cur m1 (length (m_faces m)) [] []). { refine (conj (NoDup_nil _) (conj _ _)); [|constructor]. unfold m1. cbn [m_faces hd_error]. rewrite nth_error_app2, Nat.sub_diag by lia. reflexivity. }
  destruct (face_fold_ok (F ++ [vs]) _ fuel (cyclic vs) m1 [] [] m2 es E H1 HF) as (A1 & A2 & (C1 & C2 & C3) & A4); [intros [u v] Hq; exists vs; split; [apply in_or_app; simpl; auto|left; exact Hq]|exact HC|].
  destruct (link_fold_ext (F ++ [vs]) (length (m_faces m)) (link_list es) m2) as (_ & B2 & B3 & _).
  { intros q h f' Hq Hh Hf. assert (Hq' : In (fst (snd q)) es) by (rewrite <- (link_list_edges es); apply (in_map (fun q : nat * (nat * nat) => fst (snd q))); exact Hq). apply In_nth_error in Hq'. destruct Hq' as [i Hi]. destruct (Forall2_nth_error_l _ _ _ C3 i _ Hi) as (q' & _ & _ & (h1 & K1 & K2)). assert (f' = length (m_faces m)) by congruence. lia. }
  destruct (boundary_ok _ _ fuel _ _ m' H (B2 A1)) as (_ & _ & D3).
  assert (Ev : m_verts m' = m_verts m2) by (rewrite D3; exact B3).
  destruct (face_fold_has _ _ _ _ _ _ _ E) as [G1 G2]. split.
  - intros w Hw. apply (has_edge_verts m2 m' w Ev). apply G1. exact Hw.
  - intros w Hw. apply (has_edge_verts m2 m' w Ev). rewrite <- (cyclic_fst vs) in Hw. apply in_map_iff in Hw. destruct Hw as (q & <- & Hq). apply G2. exact Hq.
Qed.
Lemma built_has m F : built m F -> forall vs w, In vs F -> In w vs -> has_edge m w.
Proof.
  induction 1 as [|m F x y z d id m' HB IH H|m F fuel order vs m' HB IH Hne _ H]; intros ws w Hws Hw; [destruct Hws| |].
  - destruct (IH ws w Hws Hw) as (a & e & H1 & H2). exists a, e. split; [|exact H2]. unfold addVertex in H. set (i := match id with None => _ | Some i => i end) in *. destruct (vfind m i); [discriminate|]. injection H as <-. clearbody i. unfold vfind in *. cbn [m_verts]. clear - H1.
    induction (m_verts m) as [|[k q] l IHl]; cbn [app find fst] in *; [discriminate|]. destruct (k =? w); [exact H1|apply IHl; exact H1].
  - destruct (addFace_has F _ _ _ _ _ (proj1 (built_Inv m F HB)) H) as [A B]. apply in_app_or in Hws. destruct Hws as [Hws|[<-|[]]]; [apply A; apply (IH ws); assumption|apply B; exact Hw].
Qed.

Lemma find_app_l {A} (f : A -> bool) l l' x : find f l = Some x -> find f (l ++ l') = Some x.
Proof. induction l as [|a l IH]; cbn [app find]; [discriminate|]. destruct (f a); auto. Qed.
Lemma find_app_r {A} (f : A -> bool) l l' : find f l = None -> find f (l ++ l') = find f l'.
Proof. induction l as [|a l IH]; cbn [app find]; [auto|]. destruct (f a); [discriminate|auto]. Qed.

(** ** C94: vertices and faces *)
(** Vertices without IDs are numbered *)
Theorem C94_vertices : forall ps : list (Z * Z * Z * Z), exists m,
  foldM (fun m q => addVertex m (fst (fst (fst q))) (snd (fst (fst q))) (snd (fst q)) (snd q) None) ps m_empty = Ok m /\
  map fst (m_verts m) = seq 0 (length ps) /\ numVertices m = length ps /\ built m [] /\
  forall i q, nth_error ps i = Some q -> data m i = Ok (snd q).
Proof.
  intro ps. assert (G : forall ps m, map fst (m_verts m) = seq 0 (length (m_verts m)) -> m_largest m = length (m_verts m) - 1 -> built m [] -> exists m',
    foldM (fun m (q : Z * Z * Z * Z) => addVertex m (fst (fst (fst q))) (snd (fst (fst q))) (snd (fst q)) (snd q) None) ps m = Ok m' /\
    map fst (m_verts m') = seq 0 (length (m_verts m) + length ps) /\ length (m_verts m') = length (m_verts m) + length ps /\ built m' [] /\
    (forall i d, data m i = Ok d -> data m' i = Ok d) /\ (forall i q, nth_error ps i = Some q -> data m' (length (m_verts m) + i) = Ok (snd q))).
  { clear ps. induction ps as [|q ps IH]; intros m H1 H2 H3; cbn [foldM length].
    - exists m. rewrite !Nat.add_0_r. refine (conj eq_refl (conj H1 (conj eq_refl (conj H3 (conj (fun _ _ H => H) _))))). intros [|i] q Hq; discriminate.
    - set (n := length (m_verts m)) in *. assert (Hmax : Nat.max n (m_largest m) = n) by lia.
      assert (Hf : vfind m n = None). { unfold vfind. destruct (find (fun q => fst q =? n) (m_verts m)) as [[k y]|] eqn:E; [|reflexivity]. apply find_some in E. destruct E as [E1 E2]. cbn [fst] in E2. apply Nat.eqb_eq in E2. subst k. assert (In n (seq 0 n)) by (rewrite <- H1; apply (in_map fst) in E1; exact E1). rewrite in_seq in H. lia. }
      set (m1 := mkM (m_half m) (m_faces m) (m_verts m ++ [(n, mkV (fst (fst (fst q))) (snd (fst (fst q))) (snd (fst q)) (snd q) None)]) (Nat.max (m_largest m) n)).
      assert (E : addVertex m (fst (fst (fst q))) (snd (fst (fst q))) (snd (fst q)) (snd q) None = Ok m1) by (unfold addVertex; fold n; rewrite Hmax, Hf; reflexivity). rewrite E. cbn [bind].
      assert (L1 : length (m_verts m1) = S n) by (unfold m1; cbn [m_verts]; rewrite app_length; cbn [length]; fold n; lia).
      assert (Hold : forall i x, vfind m i = Some x -> vfind m1 i = Some x). { intros i x Hi. unfold vfind, m1 in *. cbn [m_verts]. destruct (find (fun q => fst q =? i) (m_verts m)) as [r|] eqn:Er; [|discriminate]. rewrite (find_app_l _ _ _ r Er). exact Hi. }
      assert (Hnew : data m1 n = Ok (snd q)). { unfold data, vat. assert (K : vfind m1 n = Some (mkV (fst (fst (fst q))) (snd (fst (fst q))) (snd (fst q)) (snd q) None)); [|rewrite K; reflexivity]. unfold vfind, m1 in *. cbn [m_verts]. destruct (find (fun q => fst q =? n) (m_verts m)) as [r|] eqn:Er; [discriminate|]. rewrite (find_app_r _ _ _ Er). cbn [find fst]. rewrite Nat.eqb_refl. reflexivity. }
      destruct (IH m1) as (m' & A1 & A2 & A3 & A4 & A5 & A6).
      + rewrite L1, seq_S. unfold m1. cbn [m_verts]. rewrite map_app, H1. reflexivity.
      + rewrite L1. unfold m1. cbn [m_largest]. lia.
      + apply (built_vertex m [] _ _ _ _ _ m1 H3 E).
      + rewrite L1 in *. exists m'. refine (conj A1 (conj _ (conj _ (conj A4 (conj _ _))))); [rewrite A2; f_equal; lia|lia| |].
        * intros i d Hd. apply A5. unfold data, vat in *. destruct (vfind m i) as [x|] eqn:Ei; [|discriminate]. rewrite (Hold i x Ei). exact Hd.
        * intros [|i] q' Hq'; [injection Hq' as <-; rewrite Nat.add_0_r; apply A5; exact Hnew|]. replace (n + S i) with (S n + i) by lia. apply A6. exact Hq'. }
  destruct (G ps m_empty eq_refl eq_refl built_empty) as (m & A1 & A2 & A3 & A4 & _ & A6). exists m. refine (conj A1 (conj A2 (conj A3 (conj A4 A6)))).
Qed.

(** Every face keeps the vertices that were given, in their order; [faces] reports
    different faces, at most one for each vertex *)
Theorem C94_faces : forall m F order order2, built m F -> (forall l, Permutation (order l) l) -> (forall l, Permutation (order2 l) l) ->
  (forall w, In w (m_vertices order m) -> exists vs, In vs F /\ In w vs) ->
  exists N is, NoDup is /\ numFaces order m = Ok (length is) /\ length is <= numVertices m /\ length is <= length F /\
    (forall fuel, N <= fuel -> exists r, faces fuel order order2 m = Ok r /\ map Some r = map (nth_error F) is) /\
    forall fuel f vs, N <= fuel -> nth_error F f = Some vs -> face_vertices fuel m f = Ok vs.
Proof.
  intros m F order order2 HB Ho Ho2 Hall. destruct (built_Inv m F HB) as [HI Hne].
  assert (Hf : forall fuel f vs, list_max (map (@length nat) F) <= fuel -> nth_error F f = Some vs -> face_vertices fuel m f = Ok vs).
  { intros fuel f vs Hfu Hvs. assert (Hv : vs <> []) by (apply Hne; eapply nth_error_In; eauto). apply is_face_vertices; [|exact Hv|].
    - apply (I_faces F (length F) m HI); [apply nth_error_Some; congruence|exact Hvs|exact Hv].
    - pose proof (list_max_le (map (@length nat) F) fuel) as [L _]. specialize (L Hfu). rewrite Forall_forall in L. assert (length vs <= fuel) by (apply L; apply in_map; eapply nth_error_In; eauto). lia. }
  assert (Hs : exists s, face_set order m = Ok s).
  { unfold face_set. assert (G : forall l s0, (forall w, In w l -> In w (m_vertices order m)) -> exists s, foldM (fun s v => let* x := vat m v in let* e := ptr (v_edge x) in let* f := face_of m e in Ok (match f with Some f => if mem f s then s else s ++ [f] | None => s end)) l s0 = Ok s).
    { induction l as [|w l IH]; intros s0 Hl; cbn [foldM]; [eauto|]. destruct (Hall w (Hl w (or_introl eq_refl))) as (vs & K1 & K2). destruct (built_has m F HB vs w K1 K2) as (x & e & Hx & He). rewrite (proj2 (vat_ok m w x) Hx). cbn [bind]. rewrite He. cbn [ptr bind].
      destruct (I_vedge F _ m HI w x e Hx He) as (t & (h & p & hp & Hh & _)). unfold face_of. rewrite (proj2 (half_ok m e h) Hh). cbn [bind]. apply IH. intros; apply Hl; simpl; auto. }
    apply G. auto. }
  destruct Hs as (s & Hs). destruct (face_set_ok F _ order m s HI Hs) as (S1 & S2 & S3). assert (Hlen : length (order (map fst (m_verts m))) = numVertices m) by (rewrite (Permutation_length (Ho _)), map_length; reflexivity).
  exists (list_max (map (@length nat) F)), (order2 s). assert (P2 := Ho2 s). refine (conj _ (conj _ (conj _ (conj _ (conj _ Hf))))).
  - apply (Permutation_NoDup (Permutation_sym P2) S1).
  - unfold numFaces. rewrite Hs. cbn [bind]. rewrite (Permutation_length P2). reflexivity.
  - rewrite (Permutation_length P2). lia.
  - rewrite (Permutation_length P2). assert (incl s (seq 0 (length F))) by (intros f Hf'; apply in_seq; specialize (S2 f Hf'); lia). pose proof (NoDup_incl_length S1 H). rewrite seq_length in H0. exact H0.
  - intros fuel Hfu. unfold faces. rewrite Hs. cbn [bind].
    assert (G : forall is r0, (forall f, In f is -> f < length F) -> exists r, foldM (fun r f => let* l := face_vertices fuel m f in Ok (r ++ [l])) is r0 = Ok (r0 ++ r) /\ map Some r = map (nth_error F) is).
    { induction is as [|f is IH]; intros r0 His; cbn [foldM]; [exists []; rewrite app_nil_r; auto|]. destruct (nth_error F f) as [vs|] eqn:E; [|apply nth_error_None in E; specialize (His f (or_introl eq_refl)); lia]. rewrite (Hf fuel f vs Hfu E). cbn [bind].
      destruct (IH (r0 ++ [vs])) as (r & A1 & A2); [intros; apply His; simpl; auto|]. exists (vs :: r). rewrite A1, <- app_assoc. split; [reflexivity|]. cbn [map]. rewrite E, A2. reflexivity. }
    destruct (G (order2 s) []) as (r & A1 & A2); [intros f Hf'; apply S2; apply (Permutation_in _ P2 Hf')|]. exists r. auto.
Qed.

(** ** C95: neighbours *)
Theorem C95_neighbours : forall m F fuel u l, built m F -> link fuel m u = Ok l ->
  (forall w, In w l -> adjacent F u w) /\
  exists d, data m u = Ok d /\ (forall w, In w l -> exists e, data m w = Ok e) /\
  getLowerNeighbours fuel m u = Ok (filter (fun w => match data m w with Ok e => (e <? d)%Z | _ => false end) l) /\
  getHigherNeighbours fuel m u = Ok (filter (fun w => match data m w with Ok e => (d <? e)%Z | _ => false end) l) /\
  (forall w, (exists e, data m w = Ok e) -> hasEdge fuel m u w = Ok (if in_dec Nat.eq_dec w l then true else false)).
Proof.
  intros m F fuel u l HB H. destruct (built_Inv m F HB) as [HI Hne]. unfold link in H. apply no_except_ok in H. inv_bind H as x E. pose proof (proj1 (vat_ok m u x) E) as Hx.
  assert (A : forall w, In w l -> adjacent F u w) by (apply (getNeighbours_ok F _ m u x fuel l HI Hx H)).
  assert (B : forall w, In w l -> exists y, vfind m w = Some y).
  { intros w Hw. destruct (A w Hw) as (vs & K1 & K2). assert (Hin : In w vs).
    { assert (G : forall a b, In (a, b) (cyclic vs) -> In a vs /\ In b vs). { intros a b Hab. split; [rewrite <- (cyclic_fst vs); apply (in_map fst) in Hab; exact Hab|]. destruct vs as [|c vs]; [destruct Hab|]. cbn [cyclic] in Hab. apply in_combine_r in Hab. apply in_app_or in Hab. simpl. destruct Hab as [?|[?|[]]]; auto. }
      destruct K2 as [K2|K2]; apply G in K2; tauto. }
    destruct (built_has m F HB vs w K1 Hin) as (y & e & Hy & _). eauto. }
  split; [exact A|]. exists (v_data x). refine (conj _ (conj _ (conj _ (conj _ _)))).
  - unfold data. rewrite E. reflexivity.
  - intros w Hw. destruct (B w Hw) as (y & Hy). exists (v_data y). unfold data. rewrite (proj2 (vat_ok m w y) Hy). reflexivity.
  - assert (G : forall l, (forall w, In w l -> exists y, vfind m w = Some y) -> filterM (fun w => let* d := data m w in Ok (negb (v_data x <=? d)%Z)) l = Ok (filter (fun w => match data m w with Ok e => (e <? v_data x)%Z | _ => false end) l)).
    { induction l0 as [|w l0 IH]; intro Hl; cbn [filterM filter]; [reflexivity|]. destruct (Hl w (or_introl eq_refl)) as (y & Hy). unfold data at 1 3. rewrite (proj2 (vat_ok m w y) Hy). cbn [bind]. rewrite IH by (intros; apply Hl; simpl; auto). cbn [bind]. rewrite Z.leb_antisym, negb_involutive. reflexivity. }
    unfold getLowerNeighbours. rewrite E. cbn [bind]. rewrite H. cbn [bind]. rewrite (G l B). reflexivity.
  - assert (G : forall l, (forall w, In w l -> exists y, vfind m w = Some y) -> filterM (fun w => let* d := data m w in Ok (negb (d <=? v_data x)%Z)) l = Ok (filter (fun w => match data m w with Ok e => (v_data x <? e)%Z | _ => false end) l)).
    { induction l0 as [|w l0 IH]; intro Hl; cbn [filterM filter]; [reflexivity|]. destruct (Hl w (or_introl eq_refl)) as (y & Hy). unfold data at 1 3. rewrite (proj2 (vat_ok m w y) Hy). cbn [bind]. rewrite IH by (intros; apply Hl; simpl; auto). cbn [bind]. rewrite Z.leb_antisym, negb_involutive. reflexivity. }
    unfold getHigherNeighbours. rewrite E. cbn [bind]. rewrite H. cbn [bind]. rewrite (G l B). reflexivity.
  - intros w (e & Hw). unfold hasEdge. rewrite E. cbn [bind]. unfold data in Hw. inv_bind Hw as y Ey. rewrite Ey. cbn [bind]. rewrite H. cbn [bind]. f_equal. unfold mem. destruct (in_dec Nat.eq_dec w l) as [Hi|Hi].
    + apply existsb_exists. exists w. split; [exact Hi|apply Nat.eqb_refl].
    + destruct (existsb (Nat.eqb w) l) eqn:X; [|reflexivity]. apply existsb_exists in X. destruct X as (z & Hz & Hz'). apply Nat.eqb_eq in Hz'. subst z. contradiction.
Qed.

(** A single polygon, in a mesh without other faces: all links *)
Theorem C95_polygon : forall m vs order, built m [] -> NoDup vs -> 3 <= length vs -> (forall w, In w vs -> exists d, data m w = Ok d) -> (forall l, Permutation (order l) l) ->
  exists N, forall fuel, N <= fuel -> exists m', addFace fuel order m vs = Ok m' /\
    forall a u b, (In (a, u) (cyclic vs) /\ In (u, b) (cyclic vs)) -> exists l, link fuel m' u = Ok l /\ (l = [a; b] \/ l = [b; a]).
Proof.
  intros m vs order HB Hnd Hlen Hin Ho. 
  assert (K : m_half m = [] /\ m_faces m = [] /\ (forall w x, vfind m w = Some x -> v_edge x = None) /\ NoDup (map fst (m_verts m))).
  { clear - HB. remember [] as F eqn:EF in HB. induction HB as [|m F x y z d id m' HB IH H|m F fuel order vs m' HB IH Hne _ H].
    - cbn. refine (conj eq_refl (conj eq_refl (conj _ (NoDup_nil _)))). discriminate.
    - destruct (IH EF) as (A1 & A2 & A3 & A4). unfold addVertex in H. set (i := match id with None => _ | Some i => i end) in *. clearbody i. destruct (vfind m i) eqn:E; [discriminate|]. injection H as <-. cbn [m_half m_faces m_verts]. refine (conj A1 (conj A2 (conj _ _))).
      + intros w q Hw. unfold vfind in Hw. cbn [m_verts] in Hw. unfold vfind in A3. specialize (A3 w). clear - Hw A3. induction (m_verts m) as [|[k r] l IHl]; cbn [app find fst] in *; [destruct (i =? w); [injection Hw as <-; reflexivity|discriminate]|]. destruct (k =? w); [apply A3; exact Hw|apply IHl; assumption].
      + rewrite map_app. cbn [map fst]. rewrite <- (rev_involutive (map fst (m_verts m) ++ [i])). apply NoDup_rev. rewrite rev_app_distr. cbn [rev app]. constructor; [|apply NoDup_rev; exact A4]. rewrite <- in_rev. intro X. apply key_vfind in X. destruct X. congruence.
    - destruct F; discriminate. }
  destruct K as (K1 & K2 & K3 & K4). assert (Hin' : forall w, In w vs -> exists x, vfind m w = Some x) by (intros w Hw; destruct (Hin w Hw) as (d & Hd); unfold data in Hd; inv_bind Hd as x E; apply vat_ok in E; eauto).
  exists (length vs). intros fuel Hf. destruct (polygon_ok vs m Hlen Hnd K1 K2 K3 Hin' fuel order K4 Ho Hf) as (m' & E & L). exists m'. split; [exact E|]. intros a u b [Ha Hb].
  apply In_nth_error in Ha. destruct Ha as [i Hi]. apply In_nth_error in Hb. destruct Hb as [j Hj].
  assert (Li : i < length vs) by (rewrite <- cyclic_length; apply nth_error_Some; congruence). assert (Lj : j < length vs) by (rewrite <- cyclic_length; apply nth_error_Some; congruence).
  destruct (cyclic_nth vs i _ (v_nth vs i Li)) as (c & C1 & C2). destruct (cyclic_nth vs j _ (v_nth vs j Lj)) as (c' & C3 & C4). rewrite Hi in C1. injection C1 as -> ->. rewrite Hj in C3. injection C3 as -> ->.
  fold (succ vs i) in C2. fold (succ vs j) in C4. rewrite v_nth in C2 by (apply succ_lt; assumption). rewrite v_nth in C4 by (apply succ_lt; assumption). injection C2 as C2. injection C4 as C4.
  assert (Ej : succ vs i = j) by (apply (v_inj vs Hnd); [apply succ_lt; assumption|exact Lj|exact C2]).
  rewrite (link_ok vs m Hlen fuel m' j L Lj) by lia. eexists. split; [reflexivity|]. rewrite <- C4. replace (pred vs j) with i by (rewrite <- Ej; symmetry; apply pred_succ; assumption). destruct (j =? 0); auto.
Qed.

(** ** Examples and findings *)
Definition zeros (k : nat) : list (Z * Z * Z * Z) := repeat (0, 0, 0, 0)%Z k.
Definition idl (l : list nat) : list nat := l.
(** a mesh with vertices 0, ..., k-1 *)
Definition make (k : nat) (F : list (list nat)) : outcome mesh :=
  let* m := foldM (fun m q => addVertex m (fst (fst (fst q))) (snd (fst (fst q))) (snd (fst q)) (snd q) None) (zeros k) m_empty in
  foldM (fun m f => addFace 50 idl m f) F m.
Lemma make_built k F m : (forall vs, In vs F -> vs <> []) -> make k F = Ok m -> built m F.
Proof.
  intros Hne H. unfold make in H. inv_bind H as m1 E. destruct (C94_vertices (zeros k)) as (m2 & E2 & _ & _ & HB & _). rewrite E in E2. injection E2 as <-.
  assert (G : forall F F0 m1 m, (forall vs, In vs F -> vs <> []) -> built m1 F0 -> foldM (fun m f => addFace 50 idl m f) F m1 = Ok m -> built m (F0 ++ F)).
  { induction F0 as [|f F0 IH]; intros F1 a b Hn Ha Hb; cbn [foldM] in Hb; [injection Hb as <-; rewrite app_nil_r; exact Ha|]. inv_bind Hb as c E3. replace (F1 ++ f :: F0) with ((F1 ++ [f]) ++ F0) by (rewrite <- app_assoc; reflexivity). apply (IH (F1 ++ [f]) c b); [intros; apply Hn; simpl; auto| |exact Hb].
    apply (built_face a F1 50 idl f c Ha); [apply Hn; simpl; auto|intro; apply Permutation_refl|exact E3]. }
  apply (G F [] m1 m Hne HB H).
Qed.
(** the first test of the project *)
Definition square : list (list nat) := [[0; 1; 2]; [2; 1; 3]].
Example C94_example : exists m, make 4 square = Ok m /\ built m square /\ numFaces idl m = Ok 2 /\ faces 9 idl idl m = Ok square /\ numConnectedComponents idl idl m = Ok 1.
Proof. eexists. split; [vm_compute; reflexivity|]. split; [apply (make_built 4); [cbn [In square]; intros vs [<-|[<-|[]]]; discriminate|vm_compute; reflexivity]|]. vm_compute. auto. Qed.
Example C94_star : exists m s, make 4 square = Ok m /\ star 9 idl idl m 0 = Ok s /\ m_vertices idl s = [0; 1; 2] /\ faces 9 idl idl s = Ok [[0; 1; 2]].
Proof. do 2 eexists. split; [vm_compute; reflexivity|]. split; [vm_compute; reflexivity|]. vm_compute. auto. Qed.
(** the third test of the project: eight triangles, four of which are reported *)
Definition fan : list (list nat) := [[0; 1; 4]; [0; 4; 3]; [1; 2; 4]; [2; 5; 4]; [4; 5; 8]; [4; 8; 7]; [3; 4; 6]; [4; 7; 6]].
Theorem C94_count_refuted : exists m, make 9 fan = Ok m /\ built m fan /\ length fan = 8 /\ numFaces idl m = Ok 4.
Proof. eexists. split; [vm_compute; reflexivity|]. split; [apply (make_built 9); [cbn [In fan]; intros vs H; intros ->; repeat (destruct H as [H|H]; [discriminate|]); exact H|vm_compute; reflexivity]|]. vm_compute. auto. Qed.
(** A vertex that belongs to no face *)
Theorem C94_isolated_refuted : exists m, make 4 [[0; 1; 2]] = Ok m /\ numFaces idl m = UB /\ faces 9 idl idl m = UB /\ numConnectedComponents idl idl m = UB.
Proof. eexists. split; [vm_compute; reflexivity|]. vm_compute. auto. Qed.
(** After a vertex with a chosen ID, a vertex without one cannot be added *)
Theorem C94_id_refuted : exists m, addVertex m_empty 0 0 0 0 (Some 5) = Ok m /\ addVertex m 0 0 0 0 None = Throw RuntimeError.
Proof. eexists. split; vm_compute; reflexivity. Qed.
(** Two triangles, joined by a quadrangle: one component, two are reported *)
Theorem C94_components_refuted : exists m, make 6 [[0; 1; 2]; [3; 4; 5]; [1; 0; 4; 3]] = Ok m /\ numConnectedComponents idl idl m = Ok 2.
Proof. eexists. split; vm_compute; reflexivity. Qed.

Example C95_example : exists m, make 9 fan = Ok m /\ link 50 m 4 = Ok [1; 2; 5; 8; 7; 6; 3; 0] /\ link 50 m 1 = Ok [0; 2; 4] /\ hasEdge 50 m 4 8 = Ok true /\ hasEdge 50 m 1 5 = Ok false.
Proof. eexists. split; [vm_compute; reflexivity|]. vm_compute. auto 10. Qed.
Example C95_polygon_example : exists m, make 5 [[3; 1; 4; 0]] = Ok m /\ link 50 m 3 = Ok [1; 0] /\ link 50 m 0 = Ok [4; 3] /\ link 50 m 2 = Ok [].
Proof. eexists. split; [vm_compute; reflexivity|]. vm_compute. auto 10. Qed.
(** The boundary of a tetrahedron: a null pointer is dereferenced *)
Theorem C95_tetrahedron_refuted : exists m, make 4 [[0; 1; 2]; [0; 2; 3]; [0; 3; 1]; [3; 2; 1]] = Ok m /\ link 50 m 1 = UB /\ hasEdge 50 m 1 0 = UB.
Proof. eexists. split; [vm_compute; reflexivity|]. vm_compute. auto. Qed.
(** also without the last triangle, when the boundary is a single cycle *)
Theorem C95_disk_refuted : exists m, make 4 [[0; 1; 2]; [0; 2; 3]; [0; 3; 1]] = Ok m /\ link 50 m 1 = UB.
Proof. eexists. split; [vm_compute; reflexivity|]. vm_compute. auto. Qed.
(** Two triangles that share a vertex *)
Theorem C95_shared_refuted : exists m, make 5 [[0; 1; 2]; [0; 3; 4]] = Ok m /\ adjacent [[0; 1; 2]; [0; 3; 4]] 0 3 /\ hasEdge 50 m 0 3 = Ok false /\ hasEdge 50 m 3 0 = UB.
Proof. eexists. split; [vm_compute; reflexivity|]. split; [|vm_compute; auto]. exists [0; 3; 4]. split; [simpl; auto|left; simpl; auto]. Qed.
(** Two triangles of the same orientation on one edge violate an assertion *)
Theorem C95_orientation_refuted : make 4 [[0; 1; 2]; [0; 1; 3]] = Throw Terminated.
Proof. vm_compute. reflexivity. Qed.

Print Assumptions C94_vertices.
Print Assumptions C94_faces.
Print Assumptions C95_neighbours.
Print Assumptions C95_polygon.
