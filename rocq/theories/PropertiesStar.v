(** * Stars of vertices in meshes (C95) *)
From Coq Require Import List Arith Bool ZArith Lia Permutation.
From Verif Require Import Base BaseFacts UnionFind Mesh MeshFacts PropertiesMesh.
Import ListNotations.

(** Specification: position and data of a vertex *)
Definition attributes (m : mesh) (w : nat) : option (Z * Z * Z * Z) := option_map (fun x => (v_x x, v_y x, v_z x, v_data x)) (vfind m w).

Lemma attributes_verts m m' : m_verts m' = m_verts m -> forall w, attributes m' w = attributes m w.
Proof. intros E w. unfold attributes, vfind. rewrite E. reflexivity. Qed.
Lemma attributes_set m u e w : attributes (set_vedge m u e) w = attributes m w.
Proof. unfold attributes. rewrite vfind_set. destruct (w =? u); [|reflexivity]. destruct (vfind m w); reflexivity. Qed.
Lemma new_edge_attributes m u v m' e : new_edge m u v = Ok (m', e) -> forall w, attributes m' w = attributes m w.
Proof.
  unfold new_edge. intro H. inv_bind H as s E. inv_bind H as t E'. injection H as <- _. intro w.
  destruct (v_edge s), (v_edge t); rewrite ?attributes_set; reflexivity.
Qed.
Lemma face_step_attributes fuel f m es uv m' es' : face_step fuel f (m, es) uv = Ok (m', es') -> forall w, attributes m' w = attributes m w.
Proof.
  destruct uv as [u v]. cbn [face_step]. intro H. inv_bind H as s E1. inv_bind H as t E2. inv_bind H as fnd E3. inv_bind H as me E4. destruct me as [m1 e]. inv_bind H as fe E5. inv_bind H as h E6.
  assert (A : forall w, attributes m1 w = attributes m w). { destruct fnd; [injection E4 as <- _; reflexivity|]. eapply new_edge_attributes; eauto. }
  destruct (h_face h); [discriminate|]. destruct (h_pair h); [|discriminate]. injection H as <- _. intro w. rewrite <- A. apply attributes_verts. destruct fe; reflexivity.
Qed.
Lemma face_fold_attributes fuel f l : forall st st', foldM (face_step fuel f) l st = Ok st' -> forall w, attributes (fst st') w = attributes (fst st) w.
Proof.
  induction l as [|q l IH]; intros st st' H w; cbn [foldM] in H; [injection H as <-; reflexivity|]. inv_bind H as st1 E. rewrite (IH _ _ H). destruct st as [m es], st1 as [m1 es1]. apply (face_step_attributes _ _ _ _ _ _ _ E).
Qed.
Lemma link_edges_verts m es : m_verts (link_edges m es) = m_verts m.
Proof.
  unfold link_edges. generalize (combine (match es with [] => [] | _ :: _ => last es 0 :: es end) (cyclic es)). intro l. revert m. induction l as [|[p [e n]] l IH]; intro m; cbn [fold_left]; [reflexivity|]. rewrite IH. reflexivity.
Qed.
Lemma boundary_loop_verts fuel : forall m v curr edge m' edge', boundary_loop fuel m v curr edge = Ok (m', edge') -> m_verts m' = m_verts m.
Proof.
  induction fuel as [|fuel IH]; intros m v curr edge m' edge' H; cbn [boundary_loop] in H; inv_bind H as f0 E0; (destruct f0; [discriminate|]); inv_bind H as x E1; inv_bind H as es E2; inv_bind H as fnd E3; inv_bind H as st E4; destruct st as [[m1 edge1] curr1].
  all: assert (V : m_verts m1 = m_verts m) by (destruct fnd as [e|]; [|injection E4 as <- _ _; reflexivity]; inv_bind E4 as p E5; inv_bind E4 as q E7; inv_bind E4 as t0 E8; inv_bind E4 as t1 E9; injection E4 as <- _ _; reflexivity).
  - destruct (curr1 =? v); [|discriminate]. injection H as <- _. exact V.
  - destruct (curr1 =? v); [injection H as <- _; exact V|]. rewrite (IH _ _ _ _ _ _ H). exact V.
Qed.
Lemma boundary_verts fuel l : forall m m', foldM (boundary_step fuel) l m = Ok m' -> m_verts m' = m_verts m.
Proof.
  induction l as [|v l IH]; intros m m' H; cbn [foldM] in H; [injection H as <-; reflexivity|]. inv_bind H as m1 E. rewrite (IH _ _ H). unfold boundary_step in E. inv_bind E as x E1. destruct (v_edge x) as [e|]; [|injection E as <-; reflexivity].
  inv_bind E as p E2. inv_bind E as f E3. destruct f; [injection E as <-; reflexivity|]. inv_bind E as t0 E4. inv_bind E as t1 E5. inv_bind E as st E6. destruct st as [m2 edge]. injection E as <-. cbn [set_half m_verts]. apply (boundary_loop_verts _ _ _ _ _ _ _ E6).
Qed.
Lemma addFace_attributes fuel order m vs m' : addFace fuel order m vs = Ok m' -> forall w, attributes m' w = attributes m w.
Proof.
  unfold addFace. intros H w. inv_bind H as st E. destruct st as [m1 es]. rewrite (attributes_verts _ _ (boundary_verts _ _ _ _ H)), (attributes_verts _ _ (link_edges_verts m1 es)).
  exact (face_fold_attributes _ _ _ _ _ E w).
Qed.

(** ** Termination does not matter *)
Lemma face_loop_more m start fuel : forall e l, face_loop fuel m start e = Ok l -> forall fuel', fuel <= fuel' -> face_loop fuel' m start e = Ok l.
Proof.
  induction fuel as [|fuel IH]; intros e l H fuel' Hf; (destruct fuel' as [|fuel']; [try lia; exact H|]); cbn [face_loop] in *; inv_bind H as s E1; inv_bind H as s' E2; inv_bind H as h E3; inv_bind H as e' E4; rewrite E1; cbn [bind]; rewrite E2; cbn [bind]; rewrite E3; cbn [bind]; rewrite E4; cbn [bind].
  - destruct (e' =? start); [exact H|discriminate].
  - destruct (e' =? start); [exact H|]. inv_bind H as r E5. rewrite (IH _ _ E5 fuel') by lia. exact H.
Qed.
Lemma face_vertices_spec m F fuel f l : built m F -> face_vertices fuel m f = Ok l -> f < length F -> nth_error F f = Some l.
Proof.
  intros HB H Hf. destruct (built_Inv m F HB) as [HI Hne]. destruct (nth_error F f) as [vs|] eqn:E; [|apply nth_error_None in E; lia]. f_equal.
  assert (Hv : vs <> []) by (apply Hne; eapply nth_error_In; eauto). pose proof (is_face_vertices m f vs (I_faces F (length F) m HI f vs Hf E Hv) Hv (Nat.max fuel (length vs))) as G.
  specialize (G ltac:(lia)). unfold face_vertices in H, G. inv_bind H as e0 E0. inv_bind H as e1 E1. rewrite E0 in G. cbn [bind] in G. rewrite E1 in G. cbn [bind] in G.
  rewrite (face_loop_more m e1 fuel e1 l H) in G by lia. congruence.
Qed.
Lemma faces_loop_In F m start fuel : Inv F (length F) m -> forall e l, faces_loop fuel m start e = Ok l -> forall f, In f l -> f < length F.
Proof.
  intro HI. induction fuel as [|fuel IH]; intros e l H; cbn [faces_loop] in H; inv_bind H as f0 E0; destruct f0 as [f0|]; try (injection H as <-; intros f []); apply face_ok in E0; destruct E0 as (h0 & Eh & Ef); pose proof (I_face F _ m HI e h0 f0 Eh Ef) as Hf0; inv_bind H as p E1; inv_bind H as h E2.
  - destruct (h_next h) as [e'|]; [destruct (e' =? start); [|discriminate]|]; injection H as <-; intros f [<-|[]]; exact Hf0.
  - destruct (h_next h) as [e'|]; [destruct (e' =? start)|]; try (injection H as <-; intros f [<-|[]]; exact Hf0). inv_bind H as r E5. injection H as <-. intros f [<-|Hf]; [exact Hf0|]. apply (IH _ _ E5 f Hf).
Qed.

Lemma union_In l : forall s w, In w (fold_left (fun s v => if mem v s then s else s ++ [v]) l s) <-> In w s \/ In w l.
Proof.
  induction l as [|v l IH]; intros s w; cbn [fold_left In]; [tauto|]. rewrite IH. destruct (mem v s) eqn:E.
  - apply mem_In in E. intuition congruence.
  - rewrite in_app_iff. cbn [In]. tauto.
Qed.
Lemma union_NoDup l : forall s, NoDup s -> NoDup (fold_left (fun s v => if mem v s then s else s ++ [v]) l s).
Proof.
  induction l as [|v l IH]; intros s Hs; cbn [fold_left]; [exact Hs|]. apply IH. destruct (mem v s) eqn:E; [exact Hs|]. apply Permutation_NoDup with (v :: s); [apply Permutation_cons_append|]. constructor; [|exact Hs]. intro X. apply mem_In in X. congruence.
Qed.

(** The star of a vertex is a mesh that consists of faces of the given mesh, with the same
    vertices, positions and data. *)
Theorem C95_star : forall m F fuel order order2 v s, built m F -> (forall l, Permutation (order l) l) -> (forall l, Permutation (order2 l) l) -> star fuel order order2 m v = Ok s ->
  exists G, built s G /\ incl G F /\
    (forall w, In w (m_vertices order s) <-> exists vs, In vs G /\ In w vs) /\
    (forall w, In w (m_vertices order s) -> attributes s w = attributes m w) /\
    forall x, vfind m v = Some x -> exists is, getFaces fuel m x = Ok is /\ map Some G = map (nth_error F) is.
Proof.
  intros m F fuel order order2 v s HB Ho Ho2 H. destruct (built_Inv m F HB) as [HI Hne]. unfold star in H. inv_bind H as x E1. inv_bind H as fs E2. inv_bind H as vs E3. inv_bind H as m' E4.
  assert (Hfs : forall f, In f fs -> f < length F). { unfold getFaces in E2. destruct (v_edge x) as [e|]; [exact (faces_loop_In F m e fuel HI e fs E2)|injection E2 as <-; intros f []]. }
  (* the set of vertices *)
  assert (V : exists G, map Some G = map (nth_error F) fs /\ (forall w, In w vs <-> exists l, In l G /\ In w l) /\ NoDup vs).
  { assert (K : forall fs s0 r, (forall f, In f fs -> f < length F) -> NoDup s0 -> foldM (fun s f => let* l := face_vertices fuel m f in Ok (fold_left (fun s v => if mem v s then s else s ++ [v]) l s)) fs s0 = Ok r ->
      exists G, map Some G = map (nth_error F) fs /\ (forall w, In w r <-> In w s0 \/ exists l, In l G /\ In w l) /\ NoDup r).
    { clear - HB. induction fs as [|f fs IH]; intros s0 r Hf Hs H; cbn [foldM] in H.
      - injection H as <-. exists []. refine (conj eq_refl (conj _ Hs)). intro w. split; [auto|]. intros [X|(l & [] & _)]. exact X.
      - inv_bind H as s1 E. inv_bind E as l El. injection E as <-. destruct (IH _ r (fun g Hg => Hf g (or_intror Hg)) (union_NoDup l s0 Hs) H) as (G & G1 & G2 & G3). exists (l :: G). cbn [map]. rewrite (face_vertices_spec m F fuel f l HB El (Hf f (or_introl eq_refl))), G1. refine (conj eq_refl (conj _ G3)).
        intro w. rewrite G2, union_In. cbn [In]. split.
        + intros [[X|X]|(l' & X & Y)]; [auto|right; exists l; auto|right; exists l'; auto].
        + intros [X|(l' & [<-|X] & Y)]; [auto|auto|right; exists l'; auto]. }
    destruct (K fs [] vs Hfs (NoDup_nil _) E3) as (G & G1 & G2 & G3). exists G. refine (conj G1 (conj _ G3)). intro w. rewrite G2. cbn [In]. tauto. }
  destruct V as (G & G1 & G2 & G3). exists G.
  (* the vertices *)
  assert (W : built m' [] /\ map fst (m_verts m') = order2 vs /\ forall w, In w (order2 vs) -> attributes m' w = attributes m w).
  { assert (K : forall l m0 r, NoDup (map fst (m_verts m0) ++ l) -> built m0 [] -> (forall w, In w (map fst (m_verts m0)) -> attributes m0 w = attributes m w) ->
      foldM (fun m' v => let* x := vat m v in addVertex m' (v_x x) (v_y x) (v_z x) (v_data x) (Some v)) l m0 = Ok r ->
      built r [] /\ map fst (m_verts r) = map fst (m_verts m0) ++ l /\ forall w, In w (map fst (m_verts m0) ++ l) -> attributes r w = attributes m w).
    { clear. induction l as [|u l IH]; intros m0 r Hn Hb Ha H; cbn [foldM] in H; [injection H as <-; rewrite app_nil_r; auto|].
      inv_bind H as m1 E. inv_bind E as y Ey. apply vat_ok in Ey. assert (Hb' := built_vertex _ _ _ _ _ _ _ _ Hb E). unfold addVertex in E. destruct (vfind m0 u) eqn:Eu; [discriminate|]. injection E as E.
      assert (Em : m_verts m1 = m_verts m0 ++ [(u, mkV (v_x y) (v_y y) (v_z y) (v_data y) None)]) by (rewrite <- E; reflexivity). clear E.
      assert (Ef : map fst (m_verts m1) = map fst (m_verts m0) ++ [u]) by (rewrite Em, map_app; reflexivity).
      destruct (IH m1 r) as (R1 & R2 & R3); [rewrite Ef, <- app_assoc; exact Hn|exact Hb'| |exact H|].
      - intros w Hw. rewrite Ef in Hw. unfold attributes, vfind. rewrite Em. destruct (find (fun q => fst q =? w) (m_verts m0)) as [q|] eqn:Eq.
        + rewrite (find_app_l _ _ _ _ Eq). assert (In w (map fst (m_verts m0))) as Hin. { apply find_some in Eq. destruct Eq as [Q1 Q2]. apply Nat.eqb_eq in Q2. rewrite <- Q2. apply in_map. exact Q1. }
          specialize (Ha w Hin). unfold attributes, vfind in Ha. rewrite Eq in Ha. exact Ha.
        + rewrite (find_app_r _ _ _ Eq). apply in_app_or in Hw. destruct Hw as [Hw|[<-|[]]].
          * exfalso. apply in_map_iff in Hw. destruct Hw as (q & <- & Hq). pose proof (find_none _ _ Eq q Hq) as Z. cbn in Z. rewrite Nat.eqb_refl in Z. discriminate.
          * cbn [find fst]. rewrite Nat.eqb_refl. cbn [option_map snd v_x v_y v_z v_data]. fold (vfind m u). rewrite Ey. reflexivity.
      - rewrite Ef, <- app_assoc in R2, R3. auto. }
    destruct (K (order2 vs) m_empty m') as (R1 & R2 & R3); [cbn [m_empty m_verts map app]; apply (Permutation_NoDup (Permutation_sym (Ho2 vs)) G3)|constructor|intros w []|exact E4|]. auto. }
  destruct W as (W1 & W2 & W3).
  (* the faces *)
  assert (Fc : built s G /\ map fst (m_verts s) = map fst (m_verts m') /\ forall w, attributes s w = attributes m' w).
  { assert (K : forall fs G F0 m0 r, map Some G = map (nth_error F) fs -> (forall f, In f fs -> f < length F) -> built m0 F0 -> foldM (fun m' f => let* l := face_vertices fuel m f in addFace fuel order m' l) fs m0 = Ok r ->
      built r (F0 ++ G) /\ map fst (m_verts r) = map fst (m_verts m0) /\ forall w, attributes r w = attributes m0 w).
    { clear - HB Hne Ho. induction fs as [|f fs IH]; intros G F0 m0 r HG Hf Hb H; cbn [foldM] in H.
      - injection H as <-. destruct G; [|discriminate]. rewrite app_nil_r. auto.
      - inv_bind H as m1 E. inv_bind E as l El. destruct G as [|l' G]; [discriminate|]. cbn [map] in HG. rewrite (face_vertices_spec m F fuel f l HB El (Hf f (or_introl eq_refl))) in HG. injection HG as -> HG.
        assert (Hl : In l F) by (eapply nth_error_In; apply (face_vertices_spec m F fuel f l HB El (Hf f (or_introl eq_refl)))).
        destruct (IH G (F0 ++ [l]) m1 r HG (fun g Hg => Hf g (or_intror Hg)) (built_face m0 F0 fuel order l m1 Hb (Hne l Hl) Ho E) H) as (R1 & R2 & R3). rewrite <- app_assoc in R1. refine (conj R1 (conj _ _)).
        + rewrite R2. apply (addFace_ok F0 fuel order m0 l m1 E). apply built_Inv. exact Hb.
        + intro w. rewrite R3. apply (addFace_attributes _ _ _ _ _ E). }
    apply (K fs G [] m' s G1 Hfs W1 H). }
  destruct Fc as (Fc1 & Fc2 & Fc3).
  assert (Hv : forall w, In w (m_vertices order s) <-> In w vs). { intro w. unfold m_vertices. rewrite Fc2, W2. split; intro X; [apply (Permutation_in _ (Ho2 vs)), (Permutation_in _ (Ho _)), X|apply (Permutation_in _ (Permutation_sym (Ho _))), (Permutation_in _ (Permutation_sym (Ho2 vs))), X]. }
  refine (conj Fc1 (conj _ (conj _ (conj _ _)))).
  - intros l Hl. assert (In (Some l) (map (nth_error F) fs)) as Q by (rewrite <- G1; apply in_map; exact Hl). apply in_map_iff in Q. destruct Q as (f & Q & _). eapply nth_error_In; eauto.
  - intro w. rewrite Hv. apply G2.
  - intros w Hw. rewrite Fc3. apply W3. apply (Permutation_in _ (Permutation_sym (Ho2 vs))). apply Hv. exact Hw.
  - intros x' Hx'. apply vat_ok in E1. rewrite E1 in Hx'. injection Hx' as <-. exists fs. auto.
Qed.

(** in the mesh of the third test of the project *)
Example C95_star_example : exists m s, make 9 fan = Ok m /\ built m fan /\ star 50 idl idl m 3 = Ok s /\ m_vertices idl s = [3; 4; 6; 0] /\ faces 50 idl idl s = Ok [[3; 4; 6]; [0; 4; 3]].
Proof. do 2 eexists. split; [vm_compute; reflexivity|]. split; [apply (make_built 9); [cbn [In fan]; intros vs H; decompose [or] H; subst; try discriminate; contradiction|vm_compute; reflexivity]|]. split; [vm_compute; reflexivity|]. vm_compute. auto. Qed.

(** In the same mesh, the vertices 0 and 1 are on the boundary.  The star of 0 lacks the triangle
    0, 4, 3, and the star of 1 is empty although 1 is in two triangles. *)
Theorem C95_star_refuted : exists m s t, make 9 fan = Ok m /\ built m fan /\
  In [0; 4; 3] fan /\ star 50 idl idl m 0 = Ok s /\ m_vertices idl s = [0; 1; 4] /\ faces 50 idl idl s = Ok [[0; 1; 4]] /\
  In [0; 1; 4] fan /\ In [1; 2; 4] fan /\ star 50 idl idl m 1 = Ok t /\ m_vertices idl t = [].
Proof.
  do 3 eexists. split; [vm_compute; reflexivity|]. split; [apply (make_built 9); [cbn [In fan]; intros vs H; decompose [or] H; subst; try discriminate; contradiction|vm_compute; reflexivity]|].
  split; [cbn; auto|]. split; [vm_compute; reflexivity|]. split; [reflexivity|]. split; [vm_compute; reflexivity|]. split; [cbn; auto|]. split; [cbn; auto|]. split; [vm_compute; reflexivity|reflexivity].
Qed.

Print Assumptions C95_star.
