(** * Property C177: the output of the tool for triangulations. *)
From Coq Require Import String Ascii.
From Coq Require Import List Arith Bool ZArith Lia Sorted Permutation Factorial.
From Verif Require Import Base BaseFacts LoadMatrix SpecText LoadFacts StringUtilities Simplex SimplexFacts SpecComplex Complex ComplexFacts ClosureFacts FiltrationFacts Subcomplex SubcomplexFacts History PropertiesComplex
  PropertiesString ReadFacts PropertiesReadEdges PropertiesPointCloud DiagramIO Matrix SpecMatrix ReductionFacts SpecHomology HomologyFacts PropertiesHomology SpecDiagram Diagram DiagramFacts PropertiesDiagram
  PropertiesDiagramDims PropertiesDowker RipsFacts Perversity IntersectionHomology Barycentric BarycentricFacts PropertiesBarycentric PropertiesBettiNumbers Triangulations PropertiesTriangulations Signatures PropertiesSignatures
  RepFacts SpecSimplicial SimplicialFacts PropertiesSpineHomology WickedTool.
Import ListNotations.
Local Open Scope list_scope.
Local Open Scope nat_scope.

(** ** Specification *)
(** the complex of all non-empty subsets of the given sets, all with weight zero *)
Definition generated (L : list (list nat)) (K : complex) : Prop :=
  reachable K /\ closed (by_index K) /\ filtration_order (by_index K) /\ (forall s, In s (by_index K) -> data s = 0%Z) /\
  forall vs, has (by_index K) vs <-> vs <> [] /\ exists t, In t L /\ subset vs t.
(** the Betti numbers from dimension zero up to the dimension of the complex, and the Euler characteristic *)
Definition homology_of (K : complex) (q : list nat * Z) : Prop :=
  (exists s, In s (by_index K) /\ length (verts s) = length (fst q)) /\ (forall s, In s (by_index K) -> length (verts s) <= length (fst q)) /\
  (forall d n, nth_error (fst q) d = Some n -> simplicial_betti (by_index K) d n) /\
  snd q = sumZ (map (fun s => sgn (length (verts s) - 1)) (by_index K)) /\
  snd q = sumZ (map (fun d => sgn d * Z.of_nat (nth d (fst q) 0%nat))%Z (seq 0 (length (fst q)))).
(** the points at infinity of the diagrams, by dimension *)
Definition counts (inf : Z) (ds : list diagram) (b : list nat) : Prop :=
  forall d n, nth_error b d = Some n -> n = list_sum (map (fun D => if dgm_dim D =? d then d_betti inf D else 0) ds).
(** the perversities for the dimension of the complex, each of them once, with the numbers for the barycentric subdivision and the skeletons *)
Definition perversities_of (inf : Z) (order : list nat -> list nat) (sorder : submap -> submap) (a : algorithm) (K : complex) (qs : list (list Z * list nat)) : Prop :=
  exists d L, subdivide sorder empty_functor K = Ok L /\ 0 < d /\ (exists s, In s (by_index K) /\ length (verts s) = S d) /\ (forall s, In s (by_index K) -> length (verts s) <= S d) /\
    length qs = fact (d + 1) /\ NoDup (map fst qs) /\
    (forall p, In p (map fst qs) <-> length p = d /\ forall k x, nth_error p k = Some x -> (-1 <= x <= Z.of_nat k)%Z) /\
    forall q, In q qs -> length (snd q) = S d /\
      exists ds, calculateIntersectionHomology inf order a false (perversity_at (fst q)) L (map (fun e => skeleton e K) (seq 0 (S d))) true = Ok ds /\ counts inf ds (snd q).
(** texts by lines *)
Definition text_of (l : list str) : str := flat_map (fun s => s ++ [newline]) l.
Fixpoint with_commas (l : list str) : str := match l with [] => [] | [s] => s | s :: t => s ++ chars "," ++ with_commas t end.
Definition array (l : list str) : str := chars "[" ++ with_commas l ++ chars "]".
Definition member (n : nat) (name value : str) : str := repeat " "%char n ++ chars """" ++ name ++ chars """:  " ++ value.
Definition ending (n total i : nat) : str := repeat " "%char n ++ (if S i =? total then chars "}" else chars "},").
Definition numbered {A} (l : list A) : list (nat * A) := combine (seq 0 (length l)) l.
Definition homology_lines (total : nat) (e : nat * (list nat * Z)) : list str :=
  [member 4 (print_nat (fst e)) (chars "{"); member 6 (chars "betti") (array (map print_nat (fst (snd e))) ++ chars ","); member 6 (chars "euler") (print_Z (snd (snd e))); ending 4 total (fst e)].
Definition perversity_lines (total : nat) (e : nat * (list Z * list nat)) : list str :=
  [member 6 (print_nat (fst e)) (chars "{"); member 8 (chars "perversity") (array (map print_Z (fst (snd e))) ++ chars ","); member 8 (chars "betti") (array (map print_nat (snd (snd e)))); ending 6 total (fst e)].
Definition intersection_lines (total : nat) (e : nat * list (list Z * list nat)) : list str :=
  member 4 (print_nat (fst e)) (chars "{") :: flat_map (perversity_lines (length (snd e))) (numbered (snd e)) ++ [ending 4 total (fst e)].
Definition first_lines (hs : list (list nat * Z)) : list str :=
  chars "{" :: member 2 (chars "homology") (chars "{") :: flat_map (homology_lines (length hs)) (numbered hs).
Definition last_lines (is : list (list (list Z * list nat))) : list str :=
  chars "  }," :: member 2 (chars "intersection_homology") (chars "{") :: flat_map (intersection_lines (length is)) (numbered is) ++ [chars "  }"; chars "}"].

(** ** Facts *)
Lemma missing_reachable K K' : reachable K -> createMissingFaces K = Ok K' -> reachable K'.
Proof. intros (lo & hi & h & ->) E. exists lo, hi, (h ++ [CreateMissingFaces]). unfold k_run in *. rewrite fold_left_app. cbn [fold_left k_exec]. rewrite E. reflexivity. Qed.
Lemma listed_in L K : listed L K -> forall vs, (exists s, In s (by_index K) /\ subset vs (verts s)) <-> exists t, In t L /\ subset vs t.
Proof.
  intros (_ & _ & Ds & F & FO) vs. destruct FO as (_ & FI & _). split.
  - intros (s & Hs & S). assert (I : In (verts s) Ds) by (apply FI; apply (in_map verts); exact Hs). clear - F I S. induction F as [|t u L Ds [_ E] F IH]; [destruct I|]. destruct I as [->|I]; [exists t; split; [left; reflexivity|]; intros v Hv; apply E, S, Hv|destruct (IH I) as (t' & Ht & St); exists t'; split; [right; exact Ht|exact St]].
  - intros (t & Ht & S). assert (I : exists u, In u Ds /\ set_eq u t). { clear - F Ht. induction F as [|t' u L Ds [_ E] F IH]; [destruct Ht|]. destruct Ht as [->|Ht]; [exists u; split; [left; reflexivity|exact E]|destruct (IH Ht) as (u' & Hu & Eu); exists u'; split; [right; exact Hu|exact Eu]]. }
    destruct I as (u & Hu & E). apply FI in Hu. apply in_map_iff in Hu. destruct Hu as (s & <- & Hs). exists s. split; [exact Hs|]. intros v Hv. apply E, S, Hv.
Qed.
Lemma prepare_ok L K : listed L K -> exists C, prepare K = Ok C /\ generated L C.
Proof.
  intro HL. pose proof HL as (HR & HD & _). destruct (missing_faces_correct K (reachable_kwf K HR)) as (K' & added & E & _ & Ea & Hd & HC & Hh).
  assert (HR' : reachable K') by (apply (missing_reachable K); assumption).
  assert (HA : a_complex 1 K'). { split; [exact HR'|]. split; [exact HC|]. intros s Hs. rewrite Ea in Hs. apply in_app_or in Hs. destruct Hs as [Hs|Hs]; [rewrite HD by exact Hs; reflexivity|]. destruct (Hd s Hs) as (t & Ht & _ & ->). rewrite HD by exact Ht. reflexivity. }
  destruct (default_complex 1 K' HA) as ((R & C & _) & F & P). exists (k_sort_default K'). split; [unfold prepare; rewrite E; reflexivity|]. split; [exact R|]. split; [exact C|]. split; [exact F|]. split.
  - intros s Hs. apply (Permutation_in _ P) in Hs. rewrite Ea in Hs. apply in_app_or in Hs. destruct Hs as [Hs|Hs]; [apply HD; exact Hs|]. destruct (Hd s Hs) as (t & Ht & _ & ->). apply HD. exact Ht.
  - intro vs. rewrite <- (listed_in L K HL vs). rewrite <- Hh. split; intros (s & Hs & Es); exists s; (split; [|exact Es]); [apply (Permutation_in _ P)|apply (Permutation_in _ (Permutation_sym P))]; exact Hs.
Qed.
Lemma prepare_all : forall Ls Ks acc, Forall2 listed Ls Ks -> exists Cs, foldM (fun l K => let* L := prepare K in Ok (l ++ [L])) Ks acc = Ok (acc ++ Cs) /\ Forall2 generated Ls Cs.
Proof.
  intros Ls Ks acc H. revert acc. induction H as [|L K Ls Ks HL H IH]; intro acc; [exists []; rewrite app_nil_r; split; [reflexivity|constructor]|].
  destruct (prepare_ok L K HL) as (C & EC & HC). cbn [foldM]. rewrite EC. cbn [bind]. destruct (IH (acc ++ [C])) as (Cs & E & F). exists (C :: Cs). split; [rewrite E, <- app_assoc; reflexivity|constructor; assumption].
Qed.
Lemma comma_first l : comma_list true l = with_commas l.
Proof.
  destruct l as [|s l]; [reflexivity|]. cbn [comma_list]. rewrite app_nil_l. revert s. induction l as [|t l IH]; intro s; [apply app_nil_r|]. cbn [with_commas comma_list]. f_equal. f_equal. apply IH.
Qed.
Lemma close_ending n total i : i < total -> close_object (repeat " "%char n) i total = ending n total i ++ [newline].
Proof.
  intro H. unfold close_object, ending. rewrite <- app_assoc. f_equal. rewrite Nat.add_1_r. destruct (Nat.ltb_spec (S i) total), (Nat.eqb_spec (S i) total); try lia; reflexivity.
Qed.
Definition homology_text (total : nat) (i : nat) (b : list nat) : str := text_of (homology_lines total (i, (b, signature_euler b))).
Lemma entry_homology inf order a total i C L : (forall l, Permutation (order l) l) -> (0 < inf)%Z -> i < total -> generated L C -> by_index C <> [] ->
  exists b, homology_entry inf order a total i C = Ok (homology_text total i b) /\ homology_of C (b, signature_euler b).
Proof.
  intros Ho Hi Lt (HR & HC & HF & HD & _) Hne. assert (HI : forall s, In s (by_index C) -> (data s < inf)%Z) by (intros s Hs; rewrite HD by exact Hs; exact Hi).
  destruct (C143_euler_poincare inf order a C true Ho HR HC HF Hne HI) as (ds & n & b & Ed & En & Eb & Ee).
  destruct (C174_diagrams inf order a C true Ho HR HC HF HI) as (ds' & Ed' & B). rewrite Ed in Ed'. injection Ed' as <-.
  destruct (C159_dimensions inf order a C true true Ho HR HC HF) as (M & ds' & _ & Ed' & Es & _). rewrite Ed in Ed'. injection Ed' as <-.
  destruct (dimension_spec C (reachable_kwf C HR)) as [_ D2]. destruct (D2 Hne) as (n' & En' & Dn & Dm). rewrite En in En'. injection En' as <-.
  assert (ND : NoDup (map dgm_dim ds)) by (rewrite Es; apply seq_NoDup).
  destruct (C143_signature inf ds n ND) as (b' & Eb' & Lb & B1 & B2).
  { intros D HD'. destruct (le_lt_dec (dgm_dim D) n) as [G|G]; [exact G|]. exfalso. rewrite (C143_signature_fails inf ds n) in Eb by eauto. discriminate Eb. }
  rewrite Eb in Eb'. injection Eb' as <-.
  assert (HB : forall d, nth d b 0 = d_betti inf (Diagram d (points_of ds d))).
  { intro d. destruct (in_dec Nat.eq_dec d (map dgm_dim ds)) as [Hd|Hd].
    - apply in_map_iff in Hd. destruct Hd as (D & <- & HD'). rewrite (B1 D HD'). unfold d_betti. cbn [points]. rewrite points_of_one; [reflexivity|rewrite Es; apply RepFacts.seq_sorted|exact HD'].
    - rewrite (B2 d Hd), points_of_none; [reflexivity|]. intros D HD' E. apply Hd. rewrite <- E. apply in_map. exact HD'. }
  exists b. split.
  - unfold homology_entry. rewrite Ed. cbn [bind]. rewrite En. cbn [bind]. rewrite Eb. cbn [bind]. f_equal. change (level ++ level) with (repeat " "%char 4). rewrite (close_ending 4 total i Lt).
    unfold homology_text, text_of, homology_lines, open_object, print_signature, member, array, quoted, level. cbn [fst snd flat_map]. rewrite comma_first. cbn [repeat chars list_ascii_of_string]. repeat (rewrite <- app_assoc || cbn [app] || rewrite app_nil_r). reflexivity.
  - unfold homology_of. cbn [fst snd]. rewrite Lb, Nat.add_1_r. split; [exact Dn|]. split; [exact Dm|]. split; [|split; [exact Ee|rewrite C143_euler, Lb, Nat.add_1_r; reflexivity]].
    intros d m Hd. apply (nth_error_nth _ _ 0) in Hd. rewrite <- Hd, HB. apply B.
Qed.

Lemma flat_map_text {A} (f : A -> list str) l : flat_map (fun x => text_of (f x)) l = text_of (flat_map f l).
Proof. unfold text_of. induction l as [|x l IH]; [reflexivity|]. cbn [flat_map]. rewrite IH, flat_map_app. reflexivity. Qed.
(** a loop over numbered elements *)
Lemma numbered_loop {A B} (f : nat -> A -> outcome str) (g : nat -> B -> list str) (R : A -> B -> Prop) n : forall l k acc,
  (forall i x, k <= i < k + length l -> In x l -> exists y, f i x = Ok (text_of (g i y)) /\ R x y) -> k + length l = n ->
  exists ys, foldM (fun out q => let* s := f (fst q) (snd q) in Ok (out ++ s)) (combine (seq k (length l)) l) acc = Ok (acc ++ text_of (flat_map (fun e => g (fst e) (snd e)) (combine (seq k (length ys)) ys))) /\ Forall2 R l ys.
Proof.
  induction l as [|x l IH]; intros k acc H E; [exists []; cbn; rewrite app_nil_r; split; [reflexivity|constructor]|]. cbn [length seq combine foldM fst snd].
  destruct (H k x) as (y & Ef & Ry); [cbn [length]; lia|left; reflexivity|]. rewrite Ef. cbn [bind].
  destruct (IH (S k) (acc ++ text_of (g k y))) as (ys & Ey & Fy); [intros i z Hi Hz; apply H; [cbn [length]; lia|right; exact Hz]|cbn [length] in E; lia|].
  exists (y :: ys). split; [|constructor; assumption]. rewrite Ey. cbn [length seq combine flat_map fst snd]. unfold text_of. rewrite flat_map_app, <- app_assoc. reflexivity.
Qed.
(** the same for a loop that has succeeded *)
Lemma numbered_done {A B} (f : nat -> A -> outcome str) (g : nat -> B -> list str) (R : A -> B -> Prop) : forall l k acc out,
  (forall i x s, k <= i < k + length l -> In x l -> f i x = Ok s -> exists y, s = text_of (g i y) /\ R x y) ->
  foldM (fun out q => let* s := f (fst q) (snd q) in Ok (out ++ s)) (combine (seq k (length l)) l) acc = Ok out ->
  exists ys, out = acc ++ text_of (flat_map (fun e => g (fst e) (snd e)) (combine (seq k (length ys)) ys)) /\ Forall2 R l ys.
Proof.
  induction l as [|x l IH]; intros k acc out H E; [exists []; cbn in *; rewrite app_nil_r; split; [congruence|constructor]|]. cbn [length seq combine foldM fst snd] in E.
  apply bind_ok in E. destruct E as (acc' & E & Er). apply bind_ok in E. destruct E as (s & Es & E). injection E as <-.
  destruct (H k x s) as (y & -> & Ry); [cbn [length]; lia|left; reflexivity|exact Es|].
  destruct (IH (S k) (acc ++ text_of (g k y)) out) as (ys & Ey & Fy); [intros i z s' Hi Hz; apply H; [cbn [length]; lia|right; exact Hz]|exact Er|].
  exists (y :: ys). split; [|constructor; assumption]. rewrite Ey. cbn [length seq combine flat_map fst snd]. unfold text_of. rewrite flat_map_app, <- app_assoc. reflexivity.
Qed.
Lemma Forall2_len {A B} (R : A -> B -> Prop) l m : Forall2 R l m -> length l = length m.
Proof. induction 1; cbn; auto. Qed.
Lemma generated_nonempty L C : generated L C -> Forall (fun t => t <> []) L -> L <> [] -> by_index C <> [].
Proof.
  intros (_ & _ & _ & _ & H) HN HL E. destruct L as [|t L]; [easy|]. inversion HN; subst. destruct (proj2 (H t)) as (s & Hs & _); [split; [assumption|exists t; split; [left; reflexivity|intros v Hv; exact Hv]]|]. rewrite E in Hs. destruct Hs.
Qed.

(** ** The theorems *)
Theorem C177_homology : forall inf order a Ls Cs, (forall l, Permutation (order l) l) -> (0 < inf)%Z -> Forall2 generated Ls Cs ->
  Forall (fun L => L <> [] /\ Forall (fun t => t <> []) L) Ls ->
  exists hs, homology_section inf order a Cs = Ok (text_of (first_lines hs)) /\ Forall2 homology_of Cs hs.
Proof.
  intros inf order a Ls Cs Ho Hi HG HN. assert (HC : forall C, In C Cs -> exists L, generated L C /\ by_index C <> []).
  { intros C HC. clear - HG HN HC. induction HG as [|L K Ls Ks HL H IH]; [destruct HC|]. inversion HN as [|? ? [N1 N2] HN']; subst. destruct HC as [->|HC]; [exists L; split; [exact HL|apply (generated_nonempty L); assumption]|apply IH; assumption]. }
  destruct (numbered_loop (homology_entry inf order a (length Cs)) (fun i h => homology_lines (length Cs) (i, h)) homology_of (length Cs) Cs 0 []) as (hs & E & F); [|reflexivity|].
  - intros i C Hi' HIn. destruct (HC C HIn) as (L & HL & Hne). destruct (entry_homology inf order a (length Cs) i C L Ho Hi) as (b & Eb & Hb); [lia|exact HL|exact Hne|]. exists (b, signature_euler b). split; [exact Eb|exact Hb].
  - exists hs. split; [|exact F]. unfold homology_section. rewrite E. cbn [bind]. f_equal. unfold first_lines, numbered, text_of, member, quoted, level. rewrite <- (Forall2_len _ _ _ F). cbn [flat_map repeat chars list_ascii_of_string].
    rewrite (flat_map_ext (fun e : nat * (list nat * Z) => homology_lines (length Cs) (fst e, snd e)) (homology_lines (length Cs))) by (intros [? ?]; reflexivity). repeat (rewrite <- app_assoc || cbn [app] || rewrite app_nil_r). reflexivity.
Qed.

Lemma signature_length inf : forall ds b b', foldM (signature_step inf) ds b = Ok b' -> length b' = length b.
Proof.
  induction ds as [|D ds IH]; intros b b' E; [cbn in E; congruence|]. cbn [foldM] in E. apply bind_ok in E. destruct E as (b1 & E1 & E). rewrite (IH b1 b' E). unfold signature_step in E1. apply bind_ok in E1. destruct E1 as (x & _ & E1). injection E1 as <-. apply upd_length.
Qed.
Lemma intersection_dims inf order a gm p K X dual ds : kwf K -> calculateIntersectionHomology inf order a gm p K X dual = Ok ds -> NoDup (map dgm_dim ds).
Proof.
  intros HK E. unfold calculateIntersectionHomology in E. apply bind_ok in E. destruct E as (u & _ & E). apply bind_ok in E. destruct E as (u' & _ & E). apply bind_ok in E. destruct E as (phi & _ & E).
  destruct (partition_correct K (fun t => match phi_at phi t with Some b => b | None => false end) HK) as (HL & _). destruct (partition_phi K _) as [L s]. cbn [fst] in HL.
  apply bind_ok in E. destruct E as (M & _ & E). apply bind_ok in E. destruct E as (B & _ & E). apply bind_ok in E. destruct E as (pp & _ & E).
  destruct (existsb (fun q => k_size L <=? fst q) pp) eqn:X0.
  - apply existsb_exists in X0. destruct X0 as (q & Hq & G). apply Nat.leb_le in G. rewrite make_diagrams_throw in E by eauto. discriminate E.
  - destruct (make_diagrams inf L pp HL) as (ds' & E' & S & _).
    { intros q Hq. destruct (Nat.lt_ge_cases (fst q) (k_size L)) as [G|G]; [exact G|]. apply Nat.leb_le in G. rewrite <- not_true_iff_false in X0. exfalso. apply X0, existsb_exists. exists q. split; assumption. }
    rewrite E in E'. injection E' as <-. clear - S. induction S as [|x l S IH H]; constructor; [|exact IH]. intro I. rewrite Forall_forall in H. specialize (H x I). lia.
Qed.
Lemma signature_counts inf ds n b : NoDup (map dgm_dim ds) -> makeSignature inf ds n = Ok b -> counts inf ds b.
Proof.
  intros ND E d m Hm. destruct (C143_signature inf ds n ND) as (b' & Eb & Lb & B1 & B2).
  { intros D HD'. destruct (le_lt_dec (dgm_dim D) n) as [G|G]; [exact G|]. exfalso. rewrite (C143_signature_fails inf ds n) in E by eauto. discriminate E. }
  rewrite E in Eb. injection Eb as <-. apply (nth_error_nth _ _ 0) in Hm. subst m. clear Lb E.
  assert (Z0 : forall l, ~ In d (map dgm_dim l) -> list_sum (map (fun D => if dgm_dim D =? d then d_betti inf D else 0) l) = 0).
  { induction l as [|D l IH]; intro H; [reflexivity|]. cbn [map list_sum fold_right] in *. destruct (Nat.eqb_spec (dgm_dim D) d) as [G|G]; [exfalso; apply H; left; exact G|]. apply IH. intro I. apply H. right. exact I. }
  destruct (in_dec Nat.eq_dec d (map dgm_dim ds)) as [Hd|Hd]; [|rewrite (B2 d Hd), Z0 by exact Hd; reflexivity].
  apply in_map_iff in Hd. destruct Hd as (D & <- & HD). rewrite (B1 D HD). clear B1 B2. induction ds as [|D' ds IH]; [destruct HD|]. cbn [map] in ND. inversion ND as [|? ? N1 N2]; subst. cbn [map list_sum fold_right].
  destruct HD as [->|HD].
  - rewrite Nat.eqb_refl. fold (list_sum (map (fun E => if dgm_dim E =? dgm_dim D then d_betti inf E else 0) ds)). rewrite Z0 by exact N1. lia.
  - destruct (Nat.eqb_spec (dgm_dim D') (dgm_dim D)) as [G|G]; [exfalso; apply N1; rewrite G; apply in_map; exact HD|]. apply IH; assumption.
Qed.
Lemma ok_inj {A} (x y : A) : Ok x = Ok y -> x = y.
Proof. congruence. Qed.
Lemma entry_perversity inf order a L X d total i p s : kwf L -> i < total -> perversity_entry inf order a L X d total i p = Ok s ->
  exists q, s = text_of (perversity_lines total (i, q)) /\ fst q = p /\ length (snd q) = S d /\ exists ds, calculateIntersectionHomology inf order a false (perversity_at p) L X true = Ok ds /\ counts inf ds (snd q).
Proof.
  intros HK Lt E. unfold perversity_entry in E. apply bind_ok in E. destruct E as (ds & EI & E). apply bind_ok in E. destruct E as (b & Eb & E). apply ok_inj in E. subst s. exists (p, b). split; [|split; [reflexivity|split; [|exists ds; split; [exact EI|apply (signature_counts inf ds d); [apply (intersection_dims _ _ _ _ _ _ _ _ _ HK EI)|exact Eb]]]]].
  - change (level ++ level ++ level) with (repeat " "%char 6). rewrite (close_ending 6 total i Lt). unfold text_of, perversity_lines, open_object, print_signature, print_perversity, member, array, quoted, level. cbn [fst snd flat_map]. rewrite !comma_first. cbn [repeat chars list_ascii_of_string]. repeat (rewrite <- app_assoc || cbn [app] || rewrite app_nil_r). reflexivity.
  - cbn [snd]. unfold makeSignature in Eb. rewrite (signature_length _ _ _ _ Eb), repeat_length. apply Nat.add_1_r.
Qed.
Lemma entry_intersection inf order sorder a total i C s : (forall m, Permutation (sorder m) m) -> i < total -> reachable C -> closed (by_index C) -> by_index C <> [] -> intersection_entry inf order sorder a total i C = Ok s ->
  exists qs, s = text_of (intersection_lines total (i, qs)) /\ perversities_of inf order sorder a C qs.
Proof.
  intros Hso Lt HR HC Hne E. unfold intersection_entry in E. destruct (dimension_spec C (reachable_kwf C HR)) as [_ D2]. destruct (D2 Hne) as (d & Ed & Dn & Dm). rewrite Ed in E. cbn [bind] in E.
  apply bind_ok in E. destruct E as (L & EL & E). destruct (C73_subdivision sorder empty_functor C Hso HR HC Hne) as (L' & _ & _ & EL' & HRL & _). rewrite EL in EL'. injection EL' as <-. apply bind_ok in E. destruct E as (ps & Ep & E). apply bind_ok in E. destruct E as (body & Eb & E). apply ok_inj in E. subst s.
  assert (Hd : 0 < d) by (destruct d; [rewrite C143_dimension_zero_refuted in Ep; discriminate|lia]). destruct (C143_perversities d Hd) as (ps' & Ep' & P1 & P2 & P3). rewrite Ep in Ep'. injection Ep' as <-.
  destruct (numbered_done (perversity_entry inf order a L (map (fun e => skeleton e C) (seq 0 (d + 1))) d (length ps)) (fun j q => perversity_lines (length ps) (j, q)) (fun p q => fst q = p /\ length (snd q) = S d /\ exists ds, calculateIntersectionHomology inf order a false (perversity_at p) L (map (fun e => skeleton e C) (seq 0 (d + 1))) true = Ok ds /\ counts inf ds (snd q)) ps 0 [] body) as (qs & -> & F); [|exact Eb|].
  { intros j p s' Hj _ Es. apply (entry_perversity inf order a L (map (fun e => skeleton e C) (seq 0 (d + 1)))) in Es; [|apply reachable_kwf; exact HRL|lia]. exact Es. }
  assert (Eq : map fst qs = ps) by (clear - F; induction F as [|p q ps qs [E _] F IH]; [reflexivity|]; cbn [map]; congruence).
  exists qs. split.
  - change (level ++ level) with (repeat " "%char 4). rewrite (close_ending 4 total i Lt). unfold intersection_lines, numbered. cbn [fst snd]. rewrite <- (Forall2_len _ _ _ F).
    rewrite (flat_map_ext (fun e : nat * (list Z * list nat) => perversity_lines (length ps) (fst e, snd e)) (perversity_lines (length ps))) by (intros [? ?]; reflexivity).
    unfold text_of, open_object, member, quoted, level. cbn [flat_map app]. rewrite flat_map_app. cbn [flat_map repeat chars list_ascii_of_string]. repeat (rewrite <- app_assoc || cbn [app] || rewrite app_nil_r). reflexivity.
  - exists d, L. split; [exact EL|]. split; [exact Hd|]. split; [exact Dn|]. split; [exact Dm|]. rewrite Eq. split; [rewrite <- (map_length fst), Eq; exact P1|]. split; [exact P2|]. split; [exact P3|].
    intros q Hq. rewrite (Nat.add_1_r d) in F. clear - F Hq. induction F as [|p q' ps qs [E0 E] F IH]; [destruct Hq|]. destruct Hq as [<-|Hq]; [rewrite E0; exact E|apply IH; exact Hq].
Qed.
Theorem C177_output : forall fuel vmax inf order sorder a lines Ls text out, (forall l, Permutation (order l) l) -> (forall m, Permutation (sorder m) m) -> (0 < inf)%Z ->
  file_of lines text -> triangulations vmax lines Ls -> length (concat lines) < fuel -> Forall (fun L => L <> [] /\ Forall (fun t => t <> []) L) Ls ->
  wicked fuel vmax inf order sorder a text = Ok out ->
  exists Cs hs is, Forall2 generated Ls Cs /\ Forall2 homology_of Cs hs /\ Forall2 (perversities_of inf order sorder a) Cs is /\ out = text_of (first_lines hs ++ last_lines is).
Proof.
  intros fuel vmax inf order sorder a lines Ls text out Ho Hso Hi Hf HT Hl HN E. destruct (C90_triangulations vmax lines Ls text fuel Hf HT Hl) as (Ks & ER & FL).
  unfold wicked in E. rewrite ER in E. cbn [bind] in E. destruct (prepare_all Ls Ks [] FL) as (Cs & EC & FC). rewrite EC in E. cbn [bind app] in E.
  destruct (C177_homology inf order a Ls Cs Ho Hi FC HN) as (hs & EH & FH). rewrite EH in E. cbn [bind] in E. apply bind_ok in E. destruct E as (i & EI & E). apply ok_inj in E. subst out.
  unfold intersection_section in EI. apply bind_ok in EI. destruct EI as (body & Eb & EI). apply ok_inj in EI. subst i.
  destruct (numbered_done (intersection_entry inf order sorder a (length Cs)) (fun j q => intersection_lines (length Cs) (j, q)) (perversities_of inf order sorder a) Cs 0 [] body) as (is & -> & FI); [|exact Eb|].
  { intros j C s Hj HIn Es. assert (G : reachable C /\ closed (by_index C) /\ by_index C <> []). { clear - FC HN HIn. induction FC as [|L K Ls Ks HL H IH]; [destruct HIn|]. inversion HN as [|? ? [N1 N2] HN']; subst. destruct HIn as [->|HIn]; [split; [apply HL|split; [apply HL|apply (generated_nonempty L); assumption]]|apply IH; assumption]. }
    apply (entry_intersection inf order sorder a (length Cs) j C s); [exact Hso|lia|apply G|apply G|apply G|exact Es]. }
  exists Cs, hs, is. split; [exact FC|]. split; [exact FH|]. split; [exact FI|]. unfold last_lines, numbered. rewrite <- (Forall2_len _ _ _ FI).
  rewrite (flat_map_ext (fun e : nat * list (list Z * list nat) => intersection_lines (length Cs) (fst e, snd e)) (intersection_lines (length Cs))) by (intros [? ?]; reflexivity).
  unfold text_of. rewrite !flat_map_app. f_equal. unfold member, quoted, level. cbn [flat_map]. rewrite !flat_map_app. cbn [flat_map repeat chars list_ascii_of_string]. repeat (rewrite <- app_assoc || cbn [app] || rewrite app_nil_r). reflexivity.
Qed.

(** FINDING: a triangulation without edges ends the program with an exception, after the first part of the output. *)
Theorem C177_points_refuted : forall fuel vmax inf order sorder a lines L Ls text, (forall l, Permutation (order l) l) -> (forall m, Permutation (sorder m) m) -> (0 < inf)%Z ->
  file_of lines text -> triangulations vmax lines (L :: Ls) -> length (concat lines) < fuel -> Forall (fun L => L <> [] /\ Forall (fun t => t <> []) L) (L :: Ls) ->
  (forall t, In t L -> exists v, set_eq t [v]) ->
  wicked fuel vmax inf order sorder a text = Throw OutOfRange.
Proof.
  intros fuel vmax inf order sorder a lines L Ls text Ho Hso Hi Hf HT Hl HN HV. destruct (C90_triangulations vmax lines (L :: Ls) text fuel Hf HT Hl) as (Ks & ER & FL).
  unfold wicked. rewrite ER. cbn [bind]. destruct (prepare_all _ Ks [] FL) as (Cs & EC & FC). rewrite EC. cbn [bind app].
  destruct (C177_homology inf order a _ Cs Ho Hi FC HN) as (hs & EH & FH). rewrite EH. cbn [bind]. inversion FC as [|? C ? Cs' HG FC']; subst. inversion HN as [|? ? [N1 N2] HN']; subst.
  pose proof (generated_nonempty L C HG N2 N1) as Hne. destruct HG as (HR & HC & HF & HD & HH). destruct (dimension_spec C (reachable_kwf C HR)) as [_ D2]. destruct (D2 Hne) as (d & Ed & (s & Hs & Ls') & Dm).
  assert (d = 0). { destruct (proj1 (HH (verts s))) as (_ & t & Ht & St); [exists s; split; [exact Hs|intro v; tauto]|]. destruct (HV t Ht) as (v & Ev). destruct (kwf_good C (reachable_kwf C HR) s Hs) as [Hw _]. apply SSgt_NoDup in Hw.
    assert (length (verts s) <= length [v]) by (apply NoDup_incl_length; [exact Hw|intros u Hu; apply Ev, St, Hu]). cbn in H. lia. }
  subst d. unfold intersection_section. cbn [length seq combine foldM fst snd]. unfold intersection_entry. rewrite Ed. cbn [bind].
  destruct (C73_subdivision sorder empty_functor C Hso HR HC Hne) as (Lc & _ & _ & EL & _). rewrite EL. reflexivity.
Qed.
(** FINDING: so does an empty list. *)
Theorem C177_empty_refuted : forall inf order a Cs, (forall l, Permutation (order l) l) -> (0 < inf)%Z ->
  (forall C, In C Cs -> exists L, generated L C) -> (exists C, In C Cs /\ by_index C = []) -> homology_section inf order a Cs = Throw RuntimeError.
Proof.
  intros inf order a Cs Ho Hi HG HE. unfold homology_section. assert (G : forall l k acc, (forall C, In C l -> exists L, generated L C) -> (exists C, In C l /\ by_index C = []) -> k + length l <= length Cs ->
    foldM (fun out q => let* s := homology_entry inf order a (length Cs) (fst q) (snd q) in Ok (out ++ s)) (combine (seq k (length l)) l) acc = Throw RuntimeError).
  { induction l as [|C l IH]; intros k acc H (C0 & I & E) Lk; [destruct I|]. cbn [length seq combine foldM fst snd] in *. destruct (H C (or_introl eq_refl)) as (L & HL). destruct (by_index C) as [|s0 l0] eqn:EC.
    - destruct HL as (HR & HC & HF & _). unfold homology_entry. destruct (C159_dimensions inf order a C true true Ho HR HC HF) as (M & ds & _ & Ed & _). rewrite Ed. cbn [bind]. destruct (dimension_spec C (reachable_kwf C HR)) as [D1 _]. rewrite (D1 EC). reflexivity.
    - destruct (entry_homology inf order a (length Cs) k C L Ho Hi) as (b & Eb & _); [lia|exact HL|rewrite EC; discriminate|]. rewrite Eb. cbn [bind]. apply IH; [intros; apply H; right; assumption| |lia]. destruct I as [->|I]; [congruence|eauto]. }
  rewrite G; auto.
Qed.

(** ** A circle and the boundary of a tetrahedron *)
Example C177_circle : exists out, wicked 100 65535 1 (fun l => l) (fun l => l) AStandard (chars "circle = [[1,2],[1,3],[2,3]]") = Ok out /\
  out = text_of (first_lines [([1; 1], 0%Z)] ++ last_lines [[([(-1)%Z], [3; 0]); ([0%Z], [1; 1])]]).
Proof. eexists. split; vm_compute; reflexivity. Qed.
Example C177_sphere : exists C out, prepare (mk [PushBack [1; 2; 3] 0; PushBack [1; 2; 4] 0; PushBack [1; 3; 4] 0; PushBack [2; 3; 4] 0]) = Ok C /\ length (by_index C) = 14 /\
  homology_section 1 (fun l => l) ATwist [C] = Ok out /\ out = text_of (first_lines [([1; 0; 1], 2%Z)]).
Proof. do 2 eexists. split; [vm_compute; reflexivity|]. split; [vm_compute; reflexivity|]. split; vm_compute; reflexivity. Qed.
Example C177_throws : wicked 100 65535 1 (fun l => l) (fun l => l) AStandard (chars "points = [[1],[2]]") = Throw OutOfRange /\
  wicked 100 65535 1 (fun l => l) (fun l => l) AStandard (chars "nothing = []") = Throw RuntimeError.
Proof. split; vm_compute; reflexivity. Qed.

Print Assumptions C177_homology.
Print Assumptions C177_output.
Print Assumptions C177_points_refuted.
Print Assumptions C177_empty_refuted.
