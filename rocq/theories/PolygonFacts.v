(** * A mesh that consists of a single polygon *)

From Coq Require Import List Arith Bool ZArith Lia Permutation.
From Verif Require Import Base BaseFacts UnionFind Mesh MeshFacts FloydFacts BarycentricFacts.
Import ListNotations.

Section Polygon.
  Variable vs : list nat.
  Variable m0 : mesh.
  Notation sz := (length vs).
  Notation v j := (nth j vs 0).
  Definition succ (j : nat) : nat := S j mod sz.
  Definition pred (j : nat) : nat := if j =? 0 then sz - 1 else j - 1.
  Hypothesis Hn : 3 <= sz.
  Hypothesis Hnd : NoDup vs.
  Hypothesis Hhalf : m_half m0 = [].
  Hypothesis Hfaces : m_faces m0 = [].
  Hypothesis Hedges : forall w x, vfind m0 w = Some x -> v_edge x = None.
  Hypothesis Hin : forall w, In w vs -> exists x, vfind m0 w = Some x.

  Lemma succ_lt j : j < sz -> succ j < sz.
  Proof. intro. unfold succ. apply Nat.mod_upper_bound. lia. Qed.
  Lemma succ_small j : S j < sz -> succ j = S j.
  Proof. intro. unfold succ. apply Nat.mod_small. assumption. Qed.
  Lemma succ_last j : S j = sz -> succ j = 0.
  Proof. intro H. unfold succ. rewrite H. apply Nat.mod_same. lia. Qed.
  Lemma v_inj i j : i < sz -> j < sz -> v i = v j -> i = j.
  Proof. intros. apply (proj1 (NoDup_nth vs 0) Hnd); assumption. Qed.
  Lemma v_in j : j < sz -> In (v j) vs.
  Proof. intro. apply nth_In. assumption. Qed.
  Lemma v_nth j : j < sz -> nth_error vs j = Some (v j).
  Proof. intro. apply nth_error_nth'. assumption. Qed.
  Lemma pred_succ j : j < sz -> pred (succ j) = j.
  Proof. intro H. unfold pred. destruct (Nat.eq_dec (S j) sz) as [E|N]; [rewrite succ_last by exact E; cbn; lia|rewrite succ_small by lia; cbn; lia]. Qed.
  Lemma succ_pred j : j < sz -> succ (pred j) = j.
  Proof. intro H. unfold pred. destruct (Nat.eqb_spec j 0) as [->|N]; [apply succ_last; lia|rewrite succ_small by lia; lia]. Qed.
  Lemma pred_lt j : j < sz -> pred j < sz.
  Proof. intro H. unfold pred. destruct (Nat.eqb_spec j 0); lia. Qed.

  Record St (i : nat) (m : mesh) : Prop := {
    S_len : length (m_half m) = 2 * i;
    S_even : forall j, j < i -> hget m (2 * j) = Some (mkH (Some 0) (Some (v (succ j))) None None (Some (S (2 * j))));
    S_odd : forall j, j < i -> hget m (S (2 * j)) = Some (mkH None (Some (v j)) None None (Some (2 * j)));
    S_face : m_faces m = [if i =? 0 then None else Some 0];
    S_v : forall j, j < sz -> exists x, vfind m (v j) = Some x /\ v_edge x = if i =? 0 then None else if j =? 0 then Some 0 else if j <=? i then Some (S (2 * (j - 1))) else None;
    S_other : forall w x, ~ In w vs -> vfind m w = Some x -> v_edge x = None;
    S_keys : map fst (m_verts m) = map fst (m_verts m0) }.

  Lemma vat_some m w x : vfind m w = Some x -> vat m w = Ok x.
  Proof. apply vat_ok. Qed.

  Lemma getEdge_none fuel m i : St i m -> i < sz -> getEdge fuel m (v i) (v (succ i)) = Ok None.
  Proof.
    intros HS Hi. destruct (S_v i m HS i Hi) as (x & Hx & Ex). destruct (S_v i m HS (succ i) (succ_lt i Hi)) as (y & Hy & _). unfold getEdge. rewrite (vat_some _ _ _ Hx), (vat_some _ _ _ Hy). cbn [bind].
    unfold getEdges. rewrite Ex. destruct (Nat.eqb_spec i 0) as [E0|N0]; [reflexivity|]. rewrite Nat.leb_refl.
    assert (L : i - 1 < i) by lia. pose proof (S_odd i m HS (i - 1) L) as Ho. pose proof (S_even i m HS (i - 1) L) as He.
    assert (E1 : edges_loop fuel m (S (2 * (i - 1))) (S (2 * (i - 1))) = Ok [S (2 * (i - 1))]).
    { destruct fuel; cbn [edges_loop]; unfold pair_of; rewrite (proj2 (half_ok _ _ _) Ho); cbn [bind h_pair ptr]; rewrite (proj2 (half_ok _ _ _) He); reflexivity. }
    rewrite E1. cbn [bind find_ifM]. unfold source, pair_of, target. rewrite (proj2 (half_ok _ _ _) Ho). cbn [bind h_pair h_vertex ptr]. rewrite (proj2 (half_ok _ _ _) He). cbn [bind h_vertex].
    rewrite succ_small by lia. replace (S (i - 1)) with i by lia. cbn [opt_eqb]. rewrite Nat.eqb_refl. cbn [bind]. destruct (Nat.eqb_spec (v (i - 1)) (v (succ i))) as [E|]; [|reflexivity]. exfalso. apply v_inj in E; [|lia|apply succ_lt; exact Hi].
    destruct (Nat.eq_dec (S i) sz); [rewrite succ_last in E by assumption|rewrite succ_small in E by lia]; lia.
  Qed.

  Lemma step_ok fuel i m : St i m -> i < sz -> exists m', face_step fuel 0 (m, map (fun j => 2 * j) (seq 0 i)) (v i, v (succ i)) = Ok (m', map (fun j => 2 * j) (seq 0 (S i))) /\ St (S i) m'.
  Proof.
    intros HS Hi. destruct (S_v i m HS i Hi) as (x & Hx & Ex). destruct (S_v i m HS (succ i) (succ_lt i Hi)) as (y & Hy & Ey). cbn [face_step]. rewrite (vat_some _ _ _ Hx), (vat_some _ _ _ Hy). cbn [bind]. rewrite (getEdge_none fuel m i HS Hi). cbn [bind].
    unfold new_edge. rewrite (S_len i m HS).
    set (ma := mkM (m_half m ++ [mkH None None None None (Some (S (2 * i))); mkH None (Some (v i)) None None (Some (2 * i))]) (m_faces m) (m_verts m) (m_largest m)).
    assert (Hxa : vat ma (v i) = Ok x) by (apply vat_ok; exact Hx). rewrite Hxa. cbn [bind].
    set (mb := match v_edge x with None => set_vedge ma (v i) (2 * i) | Some _ => ma end).
    assert (Nv : v (succ i) <> v i). { intro E. apply v_inj in E; [|apply succ_lt; exact Hi|exact Hi]. destruct (Nat.eq_dec (S i) sz); [rewrite succ_last in E by assumption|rewrite succ_small in E by lia]; lia. }
    assert (Hyb : vat mb (v (succ i)) = Ok y). { apply vat_ok. unfold mb. destruct (v_edge x); [exact Hy|]. rewrite vfind_set. destruct (Nat.eqb_spec (v (succ i)) (v i)); [contradiction|exact Hy]. }
    rewrite Hyb. cbn [bind]. set (mc := match v_edge y with None => set_vedge mb (v (succ i)) (S (2 * i)) | Some _ => mb end).
    assert (Hh : m_half mc = m_half ma) by (unfold mc, mb; destruct (v_edge y), (v_edge x); reflexivity).
    assert (Hf : m_faces mc = m_faces m) by (unfold mc, mb; destruct (v_edge y), (v_edge x); reflexivity).
    assert (Hk : map fst (m_verts mc) = map fst (m_verts m)).
    { assert (G : forall m v e, map fst (m_verts (set_vedge m v e)) = map fst (m_verts m)) by (intros m1 v1 e1; unfold set_vedge; cbn [m_verts]; rewrite map_map; apply map_ext; intros [a b]; cbn [fst snd]; destruct (a =? v1); reflexivity).
      unfold mc, mb. destruct (v_edge y), (v_edge x); rewrite ?G; reflexivity. }
    rewrite Hf, (S_face i m HS). cbn [get_ nth_error bind]. unfold get_. cbn [nth_error bind].
    set (md := match (if i =? 0 then None else Some 0) with None => set_fedge mc 0 (2 * i) | Some _ => mc end).
    assert (Hd : m_half md = m_half ma) by (unfold md; destruct (i =? 0); exact Hh).
    assert (H0 : hget md (2 * i) = Some (mkH None None None None (Some (S (2 * i))))) by (rewrite Hd; unfold ma; cbn [m_half]; rewrite nth_error_app2, (S_len i m HS), Nat.sub_diag by (rewrite (S_len i m HS); lia); reflexivity).
    rewrite (proj2 (half_ok _ _ _) H0). cbn [bind h_face h_pair]. eexists. split; [f_equal; f_equal; rewrite seq_S, map_app; reflexivity|].
    assert (Hlen : length (m_half ma) = 2 * S i) by (unfold ma; cbn [m_half]; rewrite app_length, (S_len i m HS); cbn [length]; lia).
    assert (Hold : forall e, e < 2 * i -> hget md e = hget m e) by (intros e He; rewrite Hd; unfold ma; cbn [m_half]; rewrite nth_error_app1 by (rewrite (S_len i m HS); exact He); reflexivity).
    assert (H1 : hget md (S (2 * i)) = Some (mkH None (Some (v i)) None None (Some (2 * i)))) by (rewrite Hd; unfold ma; cbn [m_half]; rewrite nth_error_app2 by (rewrite (S_len i m HS); lia); rewrite (S_len i m HS); replace (S (2 * i) - 2 * i) with 1 by lia; reflexivity).
    assert (Hvd : m_verts md = m_verts mc) by (unfold md; destruct (i =? 0); reflexivity).
    constructor.
    - rewrite len_set, Hd. exact Hlen.
    - intros j Hj. rewrite hget_set. destruct (Nat.eqb_spec (2 * i) (2 * j)) as [E|N]; [replace j with i by lia; rewrite H0; reflexivity|]. rewrite Hold by lia. apply (S_even i m HS). lia.
    - intros j Hj. rewrite hget_set. destruct (Nat.eqb_spec (2 * i) (S (2 * j))) as [E|N]; [lia|]. destruct (Nat.eq_dec j i) as [->|]; [exact H1|]. rewrite Hold by lia. apply (S_odd i m HS). lia.
    - change (m_faces md = [Some 0]). unfold md. destruct (Nat.eqb_spec i 0) as [->|N]; [cbn [set_fedge m_faces]; rewrite Hf, (S_face 0 m HS); reflexivity|]. rewrite Hf, (S_face i m HS). destruct (Nat.eqb_spec i 0); [contradiction|reflexivity].
    - intros j Hj. assert (Hvf : forall w, vfind (set_half md (2 * i) (fun h => set_vertex (Some (v (succ i))) (set_face (Some 0) h))) w = vfind mc w) by (intro w; unfold vfind, set_half; cbn [m_verts]; rewrite Hvd; reflexivity). rewrite Hvf.
      destruct (S_v i m HS j Hj) as (z & Hz & Ez). cbn [Nat.eqb].
      assert (Kb : exists z', vfind mb (v j) = Some z' /\ v_edge z' = if (i =? 0) && (j =? 0) then Some 0 else v_edge z).
      { unfold mb. rewrite Ex. destruct (Nat.eqb_spec i 0) as [E0|N0]; cbn [andb].
        - rewrite vfind_set. change (vfind ma (v j)) with (vfind m (v j)). rewrite Hz. destruct (Nat.eqb_spec (v j) (v i)) as [E|N].
          + apply v_inj in E; [|exact Hj|exact Hi]. cbn [option_map]. eexists. split; [reflexivity|]. cbn [v_edge]. destruct (Nat.eqb_spec j 0); [|lia]. f_equal. lia.
          + exists z. split; [reflexivity|]. destruct (Nat.eqb_spec j 0) as [->|]; [subst i; contradiction|reflexivity].
        - assert (v_edge x <> None). { rewrite Ex. destruct (Nat.eqb_spec i 0); [contradiction|]. rewrite Nat.leb_refl. discriminate. }
          rewrite Nat.leb_refl. exists z. split; [exact Hz|reflexivity]. }
      destruct Kb as (z' & Hz' & Ez'). unfold mc. destruct (v_edge y) as [ey|] eqn:Eyy.
      + exists z'. split; [exact Hz'|]. rewrite Ez', Ez.
        assert (Hi0 : i =? 0 = false) by (destruct (Nat.eqb_spec i 0); [discriminate|reflexivity]). rewrite Hi0 in *. cbn [andb].
        destruct (Nat.eqb_spec j 0); [reflexivity|]. destruct (Nat.eq_dec (S i) sz) as [E|N].
        * destruct (Nat.leb_spec j i), (Nat.leb_spec j (S i)); try reflexivity; lia.
        * exfalso. rewrite succ_small in Ey by lia. change (S i =? 0) with false in Ey. cbn iota in Ey. destruct (Nat.leb_spec (S i) i); [lia|discriminate].
      + rewrite vfind_set. rewrite Hz'. destruct (Nat.eqb_spec (v j) (v (succ i))) as [E|N].
        * apply v_inj in E; [|exact Hj|apply succ_lt; exact Hi]. cbn [option_map]. eexists. split; [reflexivity|]. cbn [v_edge]. destruct (Nat.eq_dec (S i) sz) as [E1|N1].
          -- exfalso. rewrite succ_last in Ey by exact E1. destruct (Nat.eqb_spec i 0); [lia|]. discriminate.
          -- rewrite succ_small in E by lia. subst j. change (S i =? 0) with false. cbn iota. rewrite Nat.leb_refl. f_equal. lia.
        * exists z'. split; [reflexivity|]. rewrite Ez', Ez. destruct (Nat.eqb_spec i 0) as [E0|N0]; cbn [andb].
          -- destruct (Nat.eqb_spec j 0); [reflexivity|]. destruct (Nat.leb_spec j (S i)); [|reflexivity]. exfalso. apply N. f_equal. rewrite succ_small by lia. lia.
          -- destruct (Nat.eqb_spec j 0); [reflexivity|]. destruct (Nat.leb_spec j i), (Nat.leb_spec j (S i)); try reflexivity; try lia. exfalso. apply N. f_equal. rewrite succ_small by lia. lia.
    - intros w z Hw Hz. assert (Hz' : vfind mc w = Some z) by (unfold vfind, set_half in Hz; cbn [m_verts] in Hz; rewrite Hvd in Hz; exact Hz).
      assert (Hb : vfind mb w = vfind m w) by (unfold mb; destruct (v_edge x); [reflexivity|]; rewrite vfind_set; destruct (Nat.eqb_spec w (v i)) as [->|]; [exfalso; apply Hw; apply v_in; exact Hi|reflexivity]).
      assert (Hc : vfind mc w = vfind mb w) by (unfold mc; destruct (v_edge y); [reflexivity|]; rewrite vfind_set; destruct (Nat.eqb_spec w (v (succ i))) as [->|]; [exfalso; apply Hw; apply v_in; apply succ_lt; exact Hi|reflexivity]).
      apply (S_other i m HS w z Hw). congruence.
    - change (map fst (m_verts md) = map fst (m_verts m0)). rewrite Hvd, Hk. apply (S_keys i m HS).
  Qed.

  Lemma steps_ok fuel : exists m, foldM (face_step fuel 0) (cyclic vs) (mkM (m_half m0) (m_faces m0 ++ [None]) (m_verts m0) (m_largest m0), []) = Ok (m, map (fun j => 2 * j) (seq 0 sz)) /\ St sz m.
  Proof.
    destruct (foldM_ind (face_step fuel 0) (fun i st => snd st = map (fun j => 2 * j) (seq 0 i) /\ St i (fst st)) (cyclic vs) (mkM (m_half m0) (m_faces m0 ++ [None]) (m_verts m0) (m_largest m0), [])) as ([m es] & E & H1 & H2).
    - split; [reflexivity|]. constructor; cbn [fst m_half m_faces m_verts]; try (intros; lia).
      + rewrite Hhalf. reflexivity.
      + rewrite Hfaces. reflexivity.
      + intros j Hj. destruct (Hin (v j) (v_in j Hj)) as (x & Hx). exists x. split; [exact Hx|apply (Hedges _ _ Hx)].
      + intros w x _ Hx. apply (Hedges w x). exact Hx.
      + reflexivity.
    - intros i q [m es] Hq [E1 E2]. cbn [fst snd] in *. assert (Hi : i < sz) by (rewrite <- cyclic_length; apply nth_error_Some; congruence).
      destruct (cyclic_nth vs i (v i) (v_nth i Hi)) as (b & K1 & K2). rewrite Hq in K1. injection K1 as ->. fold (succ i) in K2. rewrite v_nth in K2 by (apply succ_lt; exact Hi). injection K2 as <-.
      destruct (step_ok fuel i m E2 Hi) as (m' & E & HS'). exists (m', map (fun j => 2 * j) (seq 0 (S i))). rewrite E1. auto.
    - rewrite cyclic_length in *. cbn [fst snd] in *. subst es. exists m. auto.
  Qed.

  (** the polygon with linked edges; [nx] and [pv] for the edges of the boundary *)
  Record Ln (nx pv : nat -> option nat) (m : mesh) : Prop := {
    L_even : forall j, j < sz -> hget m (2 * j) = Some (mkH (Some 0) (Some (v (succ j))) (Some (2 * succ j)) (Some (2 * pred j)) (Some (S (2 * j))));
    L_odd : forall j, j < sz -> hget m (S (2 * j)) = Some (mkH None (Some (v j)) (nx j) (pv j) (Some (2 * j)));
    L_face : m_faces m = [Some 0];
    L_v : forall j, j < sz -> exists x, vfind m (v j) = Some x /\ v_edge x = if j =? 0 then Some 0 else Some (S (2 * (j - 1)));
    L_other : forall w x, ~ In w vs -> vfind m w = Some x -> v_edge x = None;
    L_keys : map fst (m_verts m) = map fst (m_verts m0) }.

  Lemma evens_nth j : j < sz -> nth_error (map (fun j => 2 * j) (seq 0 sz)) j = Some (2 * j).
  Proof. intro H. rewrite nth_error_map, (nth_error_nth' (seq 0 sz) 0) by (rewrite seq_length; exact H). cbn [option_map]. rewrite seq_nth by exact H. reflexivity. Qed.
  Lemma link_In j : j < sz -> In (2 * pred j, (2 * j, 2 * succ j)) (link_list (map (fun j => 2 * j) (seq 0 sz))).
  Proof.
    intro Hj. set (es := map (fun j => 2 * j) (seq 0 sz)). assert (Hl : length es = sz) by (unfold es; rewrite map_length, seq_length; reflexivity).
    destruct (cyclic_nth es j (2 * j) (evens_nth j Hj)) as (b & K1 & K2). rewrite Hl in K2. fold (succ j) in K2. unfold es in K2. rewrite evens_nth in K2 by (apply succ_lt; exact Hj). injection K2 as <-.
    apply (nth_error_In _ j). unfold link_list. assert (Hne : es <> []) by (intro E; rewrite E in Hl; cbn in Hl; lia).
    assert (E : match es with [] => [] | _ => last es 0 :: es end = last es 0 :: es) by (destruct es; [contradiction|reflexivity]). rewrite E. apply nth_error_combine; [|exact K1].
    unfold pred. destruct (Nat.eqb_spec j 0) as [->|N].
    - cbn [nth_error]. unfold es. replace sz with (S (sz - 1)) at 1 by lia. rewrite seq_S, map_app. cbn [map]. rewrite last_last. reflexivity.
    - destruct j as [|j]; [lia|]. cbn [nth_error]. unfold es. rewrite evens_nth by lia. do 2 f_equal. lia.
  Qed.
  Lemma linked m : St sz m -> Ln (fun _ => None) (fun _ => None) (link_edges m (map (fun j => 2 * j) (seq 0 sz))).
  Proof.
    intro HS. set (es := map (fun j => 2 * j) (seq 0 sz)). set (m1 := link_edges m es).
    assert (Hm1 : m1 = fold_left (fun m q => let '(p, (e, k)) := q in set_half m e (fun h => set_prev (Some p) (set_next (Some k) h))) (link_list es) m) by reflexivity.
    assert (Hnds : NoDup es). { unfold es. apply FinFun.Injective_map_NoDup; [intros a b; lia|apply seq_NoDup]. }
    assert (Hnd' : NoDup (map (fun q : nat * (nat * nat) => fst (snd q)) (link_list es))) by (rewrite link_list_edges; exact Hnds).
    destruct (link_fold_ext [] 0 (link_list es) m) as (_ & _ & Hv & Hf); [intros; lia|]. rewrite <- Hm1 in Hv, Hf.
    constructor.
    - intros j Hj. rewrite Hm1. rewrite (link_fold_in (link_list es) Hnd' m _ _ _ _ (link_In j Hj) (S_even sz m HS j Hj)). reflexivity.
    - intros j Hj. rewrite Hm1, link_fold_other; [apply (S_odd sz m HS j Hj)|]. rewrite link_list_edges. unfold es. intro X. apply in_map_iff in X. destruct X as (i & Hi & _). lia.
    - rewrite Hf, (S_face sz m HS). destruct (Nat.eqb_spec sz 0); [lia|reflexivity].
    - intros j Hj. destruct (S_v sz m HS j Hj) as (x & Hx & Ex). exists x. split; [unfold vfind; rewrite Hv; exact Hx|]. rewrite Ex. destruct (Nat.eqb_spec sz 0); [lia|]. destruct (j =? 0); [reflexivity|]. destruct (Nat.leb_spec j sz); [reflexivity|lia].
    - intros w x Hw Hx. apply (S_other sz m HS w x Hw). unfold vfind in *. rewrite Hv in Hx. exact Hx.
    - rewrite Hv. apply (S_keys sz m HS).
  Qed.

  Lemma Ln_ext nx pv nx' pv' m : (forall j, j < sz -> nx j = nx' j /\ pv j = pv' j) -> Ln nx pv m -> Ln nx' pv' m.
  Proof. intros H [A B C D E F]. constructor; auto. intros j Hj. destruct (H j Hj) as [<- <-]. apply B. exact Hj. Qed.
  Lemma Ln_next nx pv m k o : Ln nx pv m -> k < sz -> Ln (fun j => if j =? k then o else nx j) pv (set_half m (S (2 * k)) (set_next o)).
  Proof.
    intros [A B C D E F] Hk. constructor; auto.
    - intros j Hj. rewrite hget_set. destruct (Nat.eqb_spec (S (2 * k)) (2 * j)); [lia|]. apply A. exact Hj.
    - intros j Hj. rewrite hget_set. destruct (Nat.eqb_spec (S (2 * k)) (S (2 * j))) as [X|X]; destruct (Nat.eqb_spec j k) as [Y|Y]; try lia; [subst j; rewrite (B k Hk); reflexivity|apply B; exact Hj].
  Qed.
  Lemma Ln_prev nx pv m k o : Ln nx pv m -> k < sz -> Ln nx (fun j => if j =? k then o else pv j) (set_half m (S (2 * k)) (set_prev o)).
  Proof.
    intros [A B C D E F] Hk. constructor; auto.
    - intros j Hj. rewrite hget_set. destruct (Nat.eqb_spec (S (2 * k)) (2 * j)); [lia|]. apply A. exact Hj.
    - intros j Hj. rewrite hget_set. destruct (Nat.eqb_spec (S (2 * k)) (S (2 * j))) as [X|X]; destruct (Nat.eqb_spec j k) as [Y|Y]; try lia; [subst j; rewrite (B k Hk); reflexivity|apply B; exact Hj].
  Qed.

  Definition nxt (t j : nat) : option nat := if (1 <=? j) && (j <? t) then Some (S (2 * (j - 1))) else None.
  Definition pvt (t j : nat) : option nat := if S j <? t then Some (S (2 * S j)) else None.

  Lemma even_acc nx pv m j : Ln nx pv m -> j < sz -> pair_of m (2 * j) = Ok (S (2 * j)) /\ face_of m (2 * j) = Ok (Some 0) /\ target m (2 * j) = Ok (Some (v (succ j))) /\ source m (2 * j) = Ok (Some (v j)) /\
    half m (2 * j) = Ok (mkH (Some 0) (Some (v (succ j))) (Some (2 * succ j)) (Some (2 * pred j)) (Some (S (2 * j)))).
  Proof.
    intros L Hj. pose proof (proj2 (half_ok _ _ _) (L_even _ _ _ L j Hj)) as H1. pose proof (proj2 (half_ok _ _ _) (L_odd _ _ _ L j Hj)) as H2. unfold source, pair_of, face_of, target. rewrite H1. cbn [bind ptr h_pair h_face h_vertex]. rewrite H2. auto.
  Qed.
  Lemma odd_acc nx pv m j : Ln nx pv m -> j < sz -> pair_of m (S (2 * j)) = Ok (2 * j) /\ face_of m (S (2 * j)) = Ok None /\ target m (S (2 * j)) = Ok (Some (v j)) /\ source m (S (2 * j)) = Ok (Some (v (succ j))) /\
    half m (S (2 * j)) = Ok (mkH None (Some (v j)) (nx j) (pv j) (Some (2 * j))).
  Proof.
    intros L Hj. pose proof (proj2 (half_ok _ _ _) (L_even _ _ _ L j Hj)) as H1. pose proof (proj2 (half_ok _ _ _) (L_odd _ _ _ L j Hj)) as H2. unfold source, pair_of, face_of, target. rewrite H2. cbn [bind ptr h_pair h_face h_vertex]. rewrite H1. auto.
  Qed.

  (** the edges of a vertex before its boundary edges are linked *)
  Lemma edges_at fuel nx pv m t : Ln nx pv m -> 1 <= t -> t < sz -> nx t = None -> edges_loop (S fuel) m (S (2 * (t - 1))) (S (2 * (t - 1))) = Ok [S (2 * (t - 1)); 2 * t].
  Proof.
    intros L H1 H2 Hx. assert (L1 : t - 1 < sz) by lia. destruct (odd_acc nx pv m (t - 1) L L1) as (A1 & _). destruct (even_acc nx pv m (t - 1) L L1) as (_ & _ & _ & _ & A2). cbn [edges_loop]. rewrite A1. cbn [bind]. rewrite A2. cbn [bind h_next].
    rewrite succ_small by lia. replace (S (t - 1)) with t by lia. destruct (Nat.eqb_spec (2 * t) (S (2 * (t - 1)))); [lia|].
    destruct (even_acc nx pv m t L H2) as (A3 & _). destruct (odd_acc nx pv m t L H2) as (_ & _ & _ & _ & A4).
    assert (E : edges_loop fuel m (S (2 * (t - 1))) (2 * t) = Ok [2 * t]). { destruct fuel; cbn [edges_loop]; rewrite A3; cbn [bind]; rewrite A4; cbn [bind h_next]; rewrite Hx; reflexivity. }
    rewrite E. reflexivity.
  Qed.

  Lemma loop_ok d : forall t m fuel, t + d = sz - 1 -> 1 <= t -> S d <= fuel -> Ln (nxt t) (pvt t) m ->
    exists m', boundary_loop fuel m (v 0) (v t) (S (2 * (t - 1))) = Ok (m', S (2 * (sz - 1))) /\ Ln (nxt sz) (pvt sz) m'.
  Proof.
    induction d as [|d IH]; intros t m fuel Ht H1 Hfuel L; assert (L1 : t - 1 < sz) by lia; assert (L2 : t < sz) by lia.
    all: assert (Hx : nxt t t = None) by (unfold nxt; rewrite Nat.ltb_irrefl, andb_false_r; reflexivity).
    all: destruct (odd_acc _ _ m (t - 1) L L1) as (A1 & A2 & A3 & A4 & A5); destruct (even_acc _ _ m (t - 1) L L1) as (B1 & B2 & B3 & B4 & B5); destruct (odd_acc _ _ m t L L2) as (C1 & C2 & C3 & C4 & C5); destruct (even_acc _ _ m t L L2) as (D1 & D2 & D3 & D4 & D5).
    all: destruct (L_v _ _ m L t L2) as (x & Hvx & Ex); destruct (Nat.eqb_spec t 0); [lia|].
    all: set (m1 := set_half m (S (2 * t)) (set_next (Some (S (2 * (t - 1)))))); set (m2 := set_half m1 (S (2 * (t - 1))) (set_prev (Some (S (2 * t))))).
    all: assert (G : Ln (nxt (S t)) (pvt (S t)) m2) by
      (apply (Ln_ext (fun j => if j =? t then Some (S (2 * (t - 1))) else nxt t j) (fun j => if j =? t - 1 then Some (S (2 * t)) else pvt t j));
       [intros j Hj; unfold nxt, pvt; split; [destruct (Nat.eqb_spec j t) as [->|]; [destruct (Nat.leb_spec 1 t), (Nat.ltb_spec t (S t)); cbn [andb]; try lia; reflexivity|]; destruct (Nat.leb_spec 1 j), (Nat.ltb_spec j t), (Nat.ltb_spec j (S t)); cbn [andb]; try lia; reflexivity
         |destruct (Nat.eqb_spec j (t - 1)) as [->|]; [replace (S (t - 1)) with t by lia; destruct (Nat.ltb_spec t (S t)); [reflexivity|lia]|]; destruct (Nat.ltb_spec (S j) t), (Nat.ltb_spec (S j) (S t)); try lia; reflexivity]
       |apply Ln_prev; [apply Ln_next; assumption|assumption]]).
    all: destruct (odd_acc _ _ m2 t G L2) as (P1 & _); destruct (even_acc _ _ m2 t G L2) as (_ & _ & P2 & _).
    all: assert (Hstep : boundary_loop fuel m (v 0) (v t) (S (2 * (t - 1))) = if v (succ t) =? v 0 then Ok (m2, S (2 * t)) else match fuel with 0 => OutOfFuel | S fuel => boundary_loop fuel m2 (v 0) (v (succ t)) (S (2 * t)) end) by
      (destruct fuel as [|fuel]; [lia|]; cbn [boundary_loop]; rewrite A2; cbn [bind]; rewrite Hvx; cbn [bind]; unfold getEdges; rewrite Ex; rewrite (edges_at fuel _ _ m t L H1 L2 Hx); cbn [bind find_ifM]; rewrite A1; cbn [bind]; rewrite B2; cbn [bind]; rewrite D1; cbn [bind]; rewrite C2; cbn [bind];
       rewrite D1; cbn [bind]; fold m1; fold m2; rewrite P1; cbn [bind]; rewrite P2; reflexivity).
    - exists m2. rewrite Hstep. replace t with (sz - 1) in * by lia. rewrite succ_last by lia. rewrite Nat.eqb_refl. split; [reflexivity|]. replace sz with (S (sz - 1)) by lia. exact G.
    - rewrite Hstep. rewrite succ_small by lia. destruct (Nat.eqb_spec (v (S t)) (v 0)) as [E|_]; [apply v_inj in E; lia|]. destruct fuel as [|fuel]; [lia|].
      destruct (IH (S t) m2 fuel ltac:(lia) ltac:(lia) ltac:(lia) G) as (m' & E & L'). replace (S t - 1) with t in E by lia. exists m'. auto.
  Qed.

  Definition nxf (j : nat) : option nat := Some (S (2 * pred j)).
  Definition pvf (j : nat) : option nat := Some (S (2 * succ j)).

  Lemma first_ok fuel m : sz <= fuel -> Ln (fun _ => None) (fun _ => None) m -> exists m', boundary_step fuel m (v 0) = Ok m' /\ Ln nxf pvf m'.
  Proof.
    intros Hf L. assert (L0 : 0 < sz) by lia. destruct (L_v _ _ m L 0 L0) as (x & Hx & Ex). cbn in Ex. unfold boundary_step. rewrite (vat_some _ _ _ Hx). cbn [bind]. rewrite Ex.
    destruct (even_acc _ _ m 0 L L0) as (A1 & A2 & A3 & A4 & A5). destruct (odd_acc _ _ m 0 L L0) as (B1 & B2 & B3 & B4 & B5). change (2 * 0) with 0 in A1, A2, A3, A4, B1, B2, B3, B4. rewrite A1. cbn [bind]. rewrite B2. cbn [bind]. rewrite A3. cbn [bind ptr]. rewrite succ_small by lia.
    assert (L' : Ln (nxt 1) (pvt 1) m). { apply (Ln_ext (fun _ => None) (fun _ => None)); [|exact L]. intros j Hj. unfold nxt, pvt. split; [destruct (Nat.leb_spec 1 j), (Nat.ltb_spec j 1); cbn [andb]; try lia; reflexivity|]. destruct (Nat.ltb_spec (S j) 1); [lia|reflexivity]. }
    destruct (loop_ok (sz - 2) 1 m fuel ltac:(lia) ltac:(lia) ltac:(lia) L') as (m' & E & G). cbn [Nat.sub Nat.mul Nat.add] in E. rewrite E. cbn [bind]. eexists. split; [reflexivity|].
    change 1 with (S (2 * 0)) at 2. pose proof (Ln_prev _ _ _ (sz - 1) (Some 1) (Ln_next _ _ _ 0 (Some (S (2 * (sz - 1)))) G L0) ltac:(lia)) as K.
    apply (Ln_ext (fun j => if j =? 0 then Some (S (2 * (sz - 1))) else nxt sz j) (fun j => if j =? sz - 1 then Some 1 else pvt sz j)); [|exact K].
    intros j Hj. unfold nxf, pvf, nxt, pvt, pred. split.
    - destruct (Nat.eqb_spec j 0); [reflexivity|]. destruct (Nat.leb_spec 1 j), (Nat.ltb_spec j sz); cbn [andb]; try lia. reflexivity.
    - destruct (Nat.eqb_spec j (sz - 1)) as [->|]; [rewrite succ_last by lia; reflexivity|]. destruct (Nat.ltb_spec (S j) sz); [|lia]. rewrite succ_small by lia. reflexivity.
  Qed.
  Lemma skip_ok fuel nx pv m w : Ln nx pv m -> w <> v 0 -> (exists x, vfind m w = Some x) -> boundary_step fuel m w = Ok m.
  Proof.
    intros L Hw (x & Hx). unfold boundary_step. rewrite (vat_some _ _ _ Hx). cbn [bind]. destruct (in_dec Nat.eq_dec w vs) as [Hi|Ho].
    - apply (In_nth vs w 0) in Hi. destruct Hi as (j & Hj & <-). destruct (L_v _ _ m L j Hj) as (y & Hy & Ey). rewrite Hy in Hx. injection Hx as <-. rewrite Ey. destruct (Nat.eqb_spec j 0) as [->|Nj]; [contradiction|].
      assert (L1 : j - 1 < sz) by lia. destruct (odd_acc _ _ m (j - 1) L L1) as (A1 & _). destruct (even_acc _ _ m (j - 1) L L1) as (_ & B2 & _). rewrite A1. cbn [bind]. rewrite B2. reflexivity.
    - rewrite (L_other _ _ m L w x Ho Hx). reflexivity.
  Qed.
  Lemma skips_ok fuel nx pv m l : Ln nx pv m -> ~ In (v 0) l -> (forall w, In w l -> exists x, vfind m w = Some x) -> foldM (boundary_step fuel) l m = Ok m.
  Proof.
    intros L. induction l as [|w l IH]; intros H1 H2; cbn [foldM]; [reflexivity|]. rewrite (skip_ok fuel nx pv m w L); [|intros ->; apply H1; simpl; auto|apply H2; simpl; auto]. cbn [bind]. apply IH; [intro; apply H1; simpl; auto|intros; apply H2; simpl; auto].
  Qed.

  Lemma key_vfind m w : In w (map fst (m_verts m)) -> exists x, vfind m w = Some x.
  Proof.
    unfold vfind. induction (m_verts m) as [|[k x] l IH]; cbn [map In fst find]; [intros []|]. intros [->|H]; [rewrite Nat.eqb_refl; cbn; eauto|]. destruct (k =? w); [cbn; eauto|apply IH; exact H].
  Qed.

  Lemma vfind_key m w x : vfind m w = Some x -> In w (map fst (m_verts m)).
  Proof.
    unfold vfind. induction (m_verts m) as [|[k y] l IH]; cbn [map In fst find option_map]; [discriminate|]. destruct (Nat.eqb_spec k w) as [->|]; [auto|]. intro H. right. apply IH. exact H.
  Qed.

  Theorem polygon_ok fuel order : NoDup (map fst (m_verts m0)) -> (forall l, Permutation (order l) l) -> sz <= fuel -> exists m, addFace fuel order m0 vs = Ok m /\ Ln nxf pvf m.
  Proof.
    intros Hkeys Ho Hf. unfold addFace. cbv zeta. assert (Hl0 : length (m_faces m0) = 0) by (rewrite Hfaces; reflexivity). rewrite Hl0. destruct (steps_ok fuel) as (m1 & E & HS). rewrite E. cbn [bind]. pose proof (linked m1 HS) as L. rewrite (S_keys sz m1 HS).
    set (m2 := link_edges m1 _) in *. set (l := order (map fst (m_verts m0))).
    assert (Hl : forall w, In w l -> In w (map fst (m_verts m0))) by (intros w Hw; apply (Permutation_in _ (Ho _) Hw)).
    assert (Hndl : NoDup l) by (apply (Permutation_NoDup (Permutation_sym (Ho _)) Hkeys)).
    assert (H0 : In (v 0) l). { apply (Permutation_in _ (Permutation_sym (Ho _))). destruct (Hin (v 0) (v_in 0 ltac:(lia))) as (x & Hx). apply (vfind_key _ _ _ Hx). }
    apply in_split in H0. destruct H0 as (l1 & l2 & El). rewrite El in *. apply NoDup_remove_2 in Hndl.
    assert (Hk2 : forall nx pv m, Ln nx pv m -> forall w, In w (l1 ++ v 0 :: l2) -> exists x, vfind m w = Some x) by (intros nx pv m L' w Hw; apply key_vfind; rewrite (L_keys _ _ m L'); apply Hl; exact Hw).
    rewrite foldM_app. rewrite (skips_ok fuel _ _ m2 l1 L); [|intro; apply Hndl; apply in_or_app; auto|intros w Hw; apply (Hk2 _ _ m2 L); apply in_or_app; auto]. cbn [bind foldM].
    destruct (first_ok fuel m2 Hf L) as (m3 & E3 & L3). rewrite E3. cbn [bind]. exists m3. split; [|exact L3]. apply (skips_ok fuel _ _ m3 l2 L3); [intro; apply Hndl; apply in_or_app; auto|]. intros w Hw. apply (Hk2 _ _ m3 L3). apply in_or_app. simpl. auto.
  Qed.

  Lemma link_ok fuel m j : Ln nxf pvf m -> j < sz -> 1 <= fuel -> link fuel m (v j) = Ok (if j =? 0 then [v (succ j); v (pred j)] else [v (pred j); v (succ j)]).
  Proof.
    intros L Hj Hf. destruct (L_v _ _ m L j Hj) as (x & Hx & Ex). unfold link. rewrite (vat_some _ _ _ Hx). cbn [bind]. unfold getNeighbours. rewrite Ex. destruct fuel as [|fuel]; [lia|].
    destruct (Nat.eqb_spec j 0) as [->|Nj].
    - assert (L0 : 0 < sz) by lia. assert (L1 : sz - 1 < sz) by lia. destruct (even_acc _ _ m 0 L L0) as (A1 & A2 & A3 & A4 & A5). destruct (odd_acc _ _ m (sz - 1) L L1) as (B1 & B2 & B3 & B4 & B5). destruct (even_acc _ _ m (sz - 1) L L1) as (C1 & C2 & C3 & C4 & C5). destruct (odd_acc _ _ m 0 L L0) as (D1 & _).
      change (2 * 0) with 0 in A1, A2, A3, A4, A5, D1. cbn [neighbours_loop]. rewrite A5. cbn [bind h_vertex h_prev ptr]. unfold pred at 1. cbn [Nat.eqb]. rewrite C1. cbn [bind]. change (S (2 * (sz - 1)) =? 0) with false. cbn iota. rewrite B4. cbn [bind ptr]. rewrite succ_last by lia. rewrite Nat.eqb_refl.
      assert (E : neighbours_loop fuel m (v 0) 0 (S (2 * (sz - 1))) = Ok [v (sz - 1)]).
      { destruct fuel; cbn [neighbours_loop]; rewrite B5; cbn [bind h_vertex h_prev ptr pvf]; rewrite succ_last by lia; cbn [Nat.mul Nat.add]; rewrite D1; reflexivity. }
      rewrite E. reflexivity.
    - assert (L1 : j - 1 < sz) by lia. destruct (odd_acc _ _ m (j - 1) L L1) as (A1 & A2 & A3 & A4 & A5). destruct (odd_acc _ _ m j L Hj) as (B1 & B2 & B3 & B4 & B5). destruct (even_acc _ _ m j L Hj) as (C1 & C2 & C3 & C4 & C5). destruct (even_acc _ _ m (j - 1) L L1) as (D1 & _).
      cbn [neighbours_loop]. rewrite A5. cbn [bind h_vertex h_prev ptr pvf]. rewrite (succ_small (j - 1)) by lia. replace (S (j - 1)) with j by lia. rewrite B1. cbn [bind]. destruct (Nat.eqb_spec (2 * j) (S (2 * (j - 1)))); [lia|]. rewrite C4. cbn [bind ptr]. rewrite Nat.eqb_refl.
      assert (Ep : pred j = j - 1) by (unfold pred; destruct (Nat.eqb_spec j 0); [contradiction|reflexivity]).
      assert (E : neighbours_loop fuel m (v j) (S (2 * (j - 1))) (2 * j) = Ok [v (succ j)]).
      { destruct fuel; cbn [neighbours_loop]; rewrite C5; cbn [bind h_vertex h_prev ptr]; rewrite Ep, D1; cbn [bind]; rewrite Nat.eqb_refl; reflexivity. }
      rewrite E. rewrite Ep. reflexivity.
  Qed.
End Polygon.
