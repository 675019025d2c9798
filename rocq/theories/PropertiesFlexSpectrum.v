(** * Spectra (C128) *)
From Coq Require Import String Ascii List Arith Bool ZArith QArith Lia Lqa Permutation Sorted.
From Verif Require Import Base BaseFacts SpecText LoadMatrix LoadFacts StringUtilities Simplex SimplexFacts FiltrationFacts FlexSpectrum.
Import ListNotations.
Local Open Scope list_scope.
Local Open Scope nat_scope.

(** Specification: a filtration by superlevel sets: data does not increase, and faces precede cofaces *)
Definition superlevel (K : list qsimplex) : Prop :=
  (forall i j s t, i < j -> nth_error K i = Some s -> nth_error K j = Some t -> (snd t <= snd s)%Q) /\
  (forall i j s t, nth_error K i = Some s -> nth_error K j = Some t -> incl (fst s) (fst t) -> fst s <> fst t -> i < j).
Fixpoint sumQ (l : list Q) : Q := match l with [] => 0%Q | x :: t => (x + sumQ t)%Q end.
Definition vertex_data (K : list qsimplex) : list Q := map (@snd (list nat) Q) (filter (fun s : qsimplex => length (fst s) =? 1) K).
(** the simplices of a path with data [f] *)
Definition path_vertices (f : list Q) : list qsimplex := map (fun i => ([i], nth i f 0%Q)) (seq 0 (length f)).
Definition path_edge (f : list Q) (s : qsimplex) : Prop :=
  exists i, S i < length f /\ fst s = [S i; i] /\ (snd s <= nth i f 0)%Q /\ (snd s <= nth (S i) f 0)%Q /\ (snd s == nth i f 0 \/ snd s == nth (S i) f 0)%Q.
(** [K] consists of all vertices and one edge for every pair of neighbours, with the minimum of their data *)
Definition path_complex (f : list Q) (K : list qsimplex) : Prop :=
  exists E, Permutation K (path_vertices f ++ E) /\ map fst E = map (fun i => [S i; i]) (seq 0 (length f - 1)) /\ Forall (path_edge f) E.

Lemma Qltb_spec x y : reflect (x < y)%Q (Qltb x y).
Proof. unfold Qltb. destruct (Qle_bool y x) eqn:E; constructor; [apply Qle_bool_iff in E; lra|]. apply Qnot_le_lt. intro H. apply Qle_bool_iff in H. congruence. Qed.
Lemma Qeqb_spec x y : reflect (x == y)%Q (Qeq_bool x y).
Proof. destruct (Qeq_bool x y) eqn:E; constructor; [apply Qeq_bool_iff; exact E|]. apply Qeq_bool_neq. exact E. Qed.
Lemma qmin_spec a b : (qmin a b <= a)%Q /\ (qmin a b <= b)%Q /\ (qmin a b == a \/ qmin a b == b)%Q.
Proof. unfold qmin. destruct (Qltb_spec b a); refine (conj _ (conj _ _)); first [lra|left; reflexivity|right; reflexivity]. Qed.

Lemma spectrum_swo : swo spectrum_cmp.
Proof.
  destruct lex_swo as [A B]. split; unfold spectrum_cmp.
  - intros x y. destruct (Qeqb_spec (snd x) (snd y)) as [E|E], (Qeqb_spec (snd y) (snd x)) as [E'|E']; try (exfalso; lra).
    + rewrite (Nat.eqb_sym (length (fst y))). destruct (Nat.eqb_spec (length (fst x)) (length (fst y))); [apply A|]. rewrite Nat.ltb_lt, Nat.ltb_ge. lia.
    + destruct (Qltb_spec (snd y) (snd x)), (Qltb_spec (snd x) (snd y)); auto; intros; try discriminate. exfalso. lra.
  - intros x y z. destruct (Qeqb_spec (snd y) (snd x)), (Qeqb_spec (snd z) (snd y)), (Qeqb_spec (snd z) (snd x)); try (exfalso; lra).
    + destruct (Nat.eqb_spec (length (fst y)) (length (fst x))), (Nat.eqb_spec (length (fst z)) (length (fst y))), (Nat.eqb_spec (length (fst z)) (length (fst x))); try lia; rewrite ?Nat.ltb_ge; try lia. apply B.
    + destruct (Qltb_spec (snd x) (snd z)); [|auto]. destruct (Qltb_spec (snd y) (snd z)); [discriminate|]. intros _ _. exfalso. lra.
    + destruct (Qltb_spec (snd x) (snd z)); [|auto]. destruct (Qltb_spec (snd x) (snd y)); [discriminate|]. intros _ _. exfalso. lra.
    + destruct (Qltb_spec (snd x) (snd y)); [discriminate|]. destruct (Qltb_spec (snd y) (snd z)); [discriminate|]. intros _ _. exfalso. lra.
    + destruct (Qltb_spec (snd x) (snd y)); [discriminate|]. destruct (Qltb_spec (snd y) (snd z)); [discriminate|]. intros _ _. destruct (Qltb_spec (snd x) (snd z)); [exfalso; lra|reflexivity].
Qed.

Lemma map_nth_seq {A} (l : list A) d : map (fun i => nth i l d) (seq 0 (length l)) = l.
Proof. apply (nth_ext _ _ d d); rewrite map_length, seq_length; [reflexivity|]. intros n Hn. rewrite (nth_indep _ d (nth 0 l d)) by (rewrite map_length, seq_length; exact Hn). rewrite (map_nth (fun i => nth i l d)), seq_nth by exact Hn. reflexivity. Qed.
Lemma sumQ_perm l l' : Permutation l l' -> (sumQ l == sumQ l')%Q.
Proof. induction 1; cbn [sumQ]; lra. Qed.
Lemma filter_perm' {A} (f : A -> bool) l l' : Permutation l l' -> Permutation (filter f l) (filter f l').
Proof. induction 1; cbn [filter]; [constructor|destruct (f x); auto|destruct (f x), (f y); auto; apply perm_swap|eapply perm_trans; eassumption]. Qed.

Lemma path_superlevel f K : path_complex f K -> StronglySorted (fun a b => spectrum_cmp b a = false) K -> superlevel K.
Proof.
  intros (E & HP & HE & HF) HS. assert (Hin : forall i s, nth_error K i = Some s -> (exists a, a < length f /\ s = ([a], nth a f 0%Q)) \/ path_edge f s).
  { intros i s Hi. apply nth_error_In in Hi. apply (Permutation_in _ HP) in Hi. apply in_app_or in Hi. destruct Hi as [Hi|Hi].
    - apply in_map_iff in Hi. destruct Hi as (a & <- & Ha). apply in_seq in Ha. left. exists a. split; [lia|reflexivity].
    - right. rewrite Forall_forall in HF. apply HF. exact Hi. }
  split.
  - intros i j s t Hij Hi Hj. pose proof (StronglySorted_nth _ _ _ _ _ _ HS Hij Hi Hj) as C. cbn beta in C. unfold spectrum_cmp in C. destruct (Qeqb_spec (snd t) (snd s)) as [E0|E0]; [lra|]. destruct (Qltb_spec (snd s) (snd t)); [discriminate|]. lra.
  - intros i j s t Hi Hj Hinc Hne. destruct (Nat.lt_trichotomy i j) as [H|[H|H]]; [exact H|subst; congruence|]. exfalso.
    pose proof (StronglySorted_nth _ _ _ _ _ _ HS H Hj Hi) as C. cbn beta in C.
    assert (Hd : (snd t <= snd s)%Q /\ length (fst s) < length (fst t)).
    { destruct (Hin i s Hi) as [(a & Ha & ->)|(a & Ha & Ea & L1 & L2 & _)], (Hin j t Hj) as [(b & Hb & ->)|(b & Hb & Eb & M1 & M2 & _)]; cbn [fst snd] in *.
      - exfalso. apply Hne. destruct (Hinc a (or_introl eq_refl)) as [->|[]]. reflexivity.
      - rewrite Eb in *. destruct (Hinc a (or_introl eq_refl)) as [<-|[<-|[]]]; (split; [assumption|cbn [length]; lia]).
      - exfalso. rewrite Ea in *. destruct (Hinc (S a) (or_introl eq_refl)) as [->|[]]. destruct (Hinc a (or_intror (or_introl eq_refl))) as [X|[]]. lia.
      - exfalso. apply Hne. rewrite Ea, Eb in *. destruct (Hinc (S a) (or_introl eq_refl)) as [X|[X|[]]].
        + injection X as ->. reflexivity.
        + destruct (Hinc a (or_intror (or_introl eq_refl))) as [Y|[Y|[]]]; lia. }
    destruct Hd as [Hd Hl]. unfold spectrum_cmp in C. destruct (Qeqb_spec (snd s) (snd t)) as [E0|E0].
    + destruct (Nat.eqb_spec (length (fst s)) (length (fst t))); [lia|]. apply Nat.ltb_ge in C. lia.
    + destruct (Qltb_spec (snd t) (snd s)); [discriminate|]. lra.
Qed.

Lemma fold_sumQ l a : (fold_left Qplus l a == a + sumQ l)%Q.
Proof. revert a. induction l as [|x l IH]; intro a; cbn [fold_left sumQ]; [lra|]. rewrite IH. lra. Qed.
Lemma sumQ_div l c : (~ c == 0 -> sumQ (map (fun y => y / c) l) == sumQ l / c)%Q.
Proof. intro H. induction l as [|x l IH]; cbn [map sumQ]; [field; exact H|]. rewrite IH. field. exact H. Qed.
Lemma nth_div l c i : i < length l -> nth i (map (fun y => y / c)%Q l) 0%Q = (nth i l 0 / c)%Q.
Proof. intro H. rewrite (nth_indep _ 0%Q ((fun y => y / c)%Q 0%Q)) by (rewrite map_length; exact H). apply (map_nth (fun y => (y / c)%Q)). Qed.

Lemma path_sort f L : path_complex f L -> path_complex f (cpp_sort spectrum_cmp L).
Proof. intros (E & HP & R). exists E. split; [|exact R]. eapply perm_trans; [apply cpp_sort_perm|exact HP]. Qed.
Lemma path_vertex_data f K : path_complex f K -> Permutation (vertex_data K) f.
Proof.
  intros (E & HP & HE & HF). unfold vertex_data. eapply perm_trans; [apply Permutation_map; apply filter_perm'; exact HP|].
  rewrite filter_app, map_app. assert (E1 : filter (fun s : qsimplex => length (fst s) =? 1) E = []).
  { clear - HF. induction HF as [|s l Hs _ IH]; [reflexivity|]. cbn [filter]. destruct Hs as (i & _ & -> & _). cbn [length Nat.eqb]. exact IH. }
  rewrite E1, app_nil_r. assert (E2 : forall l, filter (fun s : qsimplex => length (fst s) =? 1) (map (fun i => ([i], nth i f 0%Q)) l) = map (fun i => ([i], nth i f 0%Q)) l).
  { induction l as [|a l IH]; [reflexivity|]. cbn [map filter fst length Nat.eqb]. rewrite IH. reflexivity. }
  unfold path_vertices. rewrite E2, map_map. cbn [snd]. rewrite map_nth_seq. reflexivity.
Qed.

(** what is read from a file: the values of the lines that start with a digit *)
Definition read_points (parse : str -> Q * Q) (lines : list str) : list (Q * Q) :=
  map parse (filter (fun l => match l with c :: _ => (48 <=? nat_of_ascii c) && (nat_of_ascii c <=? 57) | [] => false end) lines).
Definition normalised (b : bool) (f : list Q) : list Q := if b && (2 <=? length f) then map (fun y => (y / sumQ f)%Q) f else f.

Lemma is_data_spec l : is_data l = match l with c :: _ => (48 <=? nat_of_ascii c) && (nat_of_ascii c <=? 57) | [] => false end.
Proof.
  destruct l as [|c l]; [reflexivity|]. cbn [is_data]. unfold digit, nat_of_ascii.
  destruct (N.leb_spec 48 (N_of_ascii c)), (Nat.leb_spec 48 (N.to_nat (N_of_ascii c))); try lia; cbn [andb]; [|reflexivity].
  destruct (N.leb_spec (N_of_ascii c) 57), (Nat.leb_spec (N.to_nat (N_of_ascii c)) 57); try lia; reflexivity.
Qed.

Section Read.
Variable parse : str -> Q * Q.
Variables (b : bool) (values intensities : list Q) (lines : list str).
Hypothesis no_newline : forall l, In l lines -> ~ In newline l.
Let pts := read_points parse lines.
Let f := map snd pts.

Lemma read_eq : map parse (filter is_data (getlines [] (text_of lines []))) = pts.
Proof.
  rewrite getlines_text by (intros l X; apply in_app_or in X; destruct X as [X|[<-|[]]]; [apply no_newline; exact X|intros []]). rewrite app_nil_r. unfold pts, read_points. f_equal.
  apply filter_ext. exact is_data_spec.
Qed.

Lemma total_eq : (fold_left Qplus f 0 == sumQ f)%Q.
Proof. rewrite fold_sumQ. lra. Qed.
(** The simplices form a filtration by superlevel sets of a path with the intensities as data; these are
    divided by their sum on demand, which has to be positive, so that they sum to one. *)
Theorem C128_filtration : (b = true -> 0 < sumQ f)%Q ->
  exists g, Forall2 Qeq g (normalised b f) /\
    (let K := fst (readSpectrum parse (SpectrumReader b values intensities) (text_of lines [])) in
     path_complex g K /\ superlevel K /\ Permutation (vertex_data K) g).
Proof.
  intro Hpos. unfold readSpectrum. rewrite read_eq. fold f. cbn [sr_normalize sr_values sr_intensities]. assert (Hl : length pts = length f) by (unfold f; rewrite map_length; reflexivity). rewrite Hl.
  destruct (Nat.leb_spec (length f) 1) as [L|L].
  - exists f. assert (P : path_complex f (map (fun i => ([i], nth i f 0%Q)) (seq 0 (length f)))).
    { exists []. refine (conj _ (conj _ (Forall_nil _))); [rewrite app_nil_r; reflexivity|]. replace (length f - 1) with 0 by lia. reflexivity. }
    split; [unfold normalised; replace (2 <=? length f) with false by (symmetry; apply Nat.leb_gt; lia); rewrite andb_false_r; clear; induction f; constructor; auto; reflexivity|]. cbn [fst].
    refine (conj P (conj (path_superlevel _ _ P _) (path_vertex_data _ _ P))). clear - L. clearbody f. destruct f as [|y [|? ?]]; [constructor|repeat constructor|cbn [length] in L; lia].
  - set (V := map (fun i => ([i], nth i f 0%Q)) (seq 0 (length f))). set (E := map (fun i => ([S i; i], qmin (nth i f 0%Q) (nth (S i) f 0%Q))) (seq 0 (length f - 1))).
    assert (Fin : forall g L, path_complex g L -> Forall2 Qeq g (normalised b f) -> exists g, Forall2 Qeq g (normalised b f) /\ path_complex g (cpp_sort spectrum_cmp L) /\ superlevel (cpp_sort spectrum_cmp L) /\ Permutation (vertex_data (cpp_sort spectrum_cmp L)) g).
    { intros g L0 P HQ. exists g. pose proof (path_sort _ _ P) as P'. refine (conj HQ (conj P' (conj (path_superlevel _ _ P' _) (path_vertex_data _ _ P')))). apply cpp_sort_sorted. apply spectrum_swo. }
    destruct b; cbn [fst].
    + set (c := fold_left Qplus f 0%Q). assert (Hc : (c == sumQ f)%Q) by apply total_eq. assert (Hp : (0 < c)%Q) by (rewrite Hc; apply Hpos; reflexivity).
      assert (Hlg : length (map (fun y => (y / c)%Q) f) = length f) by apply map_length.
      assert (Hmono : forall x y, (x <= y -> x / c <= y / c)%Q). { intros x y H. unfold Qdiv. apply Qmult_le_compat_r; [exact H|]. apply Qinv_le_0_compat. lra. }
      apply (Fin (map (fun y => (y / c)%Q) f)).
      * exists (map (fun s : qsimplex => (fst s, (snd s / c)%Q)) E). rewrite map_app. refine (conj (Permutation_app _ _) (conj _ _)); [|reflexivity| |].
        -- unfold V, path_vertices. rewrite Hlg, map_map. cbn [fst snd]. apply Permutation_refl'. apply map_ext_in. intros i Hi. apply in_seq in Hi. rewrite nth_div by lia. reflexivity.
        -- unfold E. rewrite !map_map. rewrite Hlg. reflexivity.
        -- unfold E. rewrite map_map. apply Forall_forall. intros s Hs. apply in_map_iff in Hs. destruct Hs as (i & <- & Hi). apply in_seq in Hi. exists i. cbn [fst snd]. rewrite Hlg, !nth_div by lia.
           destruct (qmin_spec (nth i f 0%Q) (nth (S i) f 0%Q)) as (Q1 & Q2 & Q3). refine (conj _ (conj eq_refl (conj (Hmono _ _ Q1) (conj (Hmono _ _ Q2) _)))); [lia|]. destruct Q3 as [Q3|Q3]; rewrite Q3; [left|right]; reflexivity.
      * unfold normalised. destruct (Nat.leb_spec 2 (length f)); [|lia]. cbn [andb]. clear - Hc. generalize dependent c. intros c Hc. revert Hc. generalize (sumQ f). intros q Hc. induction f as [|y l IH]; [constructor|]. cbn [map]. constructor; [|exact IH]. rewrite Hc. reflexivity.
    + apply (Fin f); [|unfold normalised; cbn [andb]; clear; induction f; constructor; auto; reflexivity].
      exists E. refine (conj (Permutation_refl _) (conj _ _)); [unfold E; rewrite map_map; reflexivity|].
      unfold E. apply Forall_forall. intros s Hs. apply in_map_iff in Hs. destruct Hs as (i & <- & Hi). apply in_seq in Hi. exists i. cbn [fst snd].
      destruct (qmin_spec (nth i f 0%Q) (nth (S i) f 0%Q)) as (Q1 & Q2 & Q3). refine (conj _ (conj eq_refl (conj Q1 (conj Q2 Q3)))). lia.
Qed.

Theorem C128_normalised : 2 <= length f -> b = true -> (0 < sumQ f)%Q ->
  (sumQ (vertex_data (fst (readSpectrum parse (SpectrumReader b values intensities) (text_of lines [])))) == 1)%Q.
Proof.
  intros L Hb Hp. destruct (C128_filtration (fun _ => Hp)) as (g & HQ & _ & _ & HP). rewrite (sumQ_perm _ _ HP). assert (E : (sumQ g == sumQ (normalised b f))%Q).
  { clear - HQ. induction HQ as [|x y l l' H _ IH]; cbn [sumQ]; [reflexivity|]. rewrite H, IH. reflexivity. }
  rewrite E. unfold normalised. rewrite Hb. destruct (Nat.leb_spec 2 (length f)); [|lia]. cbn [andb]. rewrite sumQ_div by lra. field. lra.
Qed.

(** The maps contain what has been read if nothing has been read before *)
Theorem C128_maps : values = [] -> intensities = [] -> 
  let r := snd (readSpectrum parse (SpectrumReader b values intensities) (text_of lines [])) in
  sr_values r = map fst pts /\ Forall2 Qeq (sr_intensities r) (normalised b f).
Proof.
  intros Hv Hi. unfold readSpectrum. rewrite read_eq. fold f. rewrite Hv, Hi. cbn [sr_normalize sr_values sr_intensities]. unfold overwrite. rewrite !skipn_nil, !app_nil_r.
  assert (Hl : length pts = length f) by (unfold f; rewrite map_length; reflexivity). rewrite Hl.
  assert (HR : forall l, Forall2 Qeq l l) by (induction l; constructor; auto; reflexivity).
  destruct (Nat.leb_spec (length f) 1) as [L|L]; cbn [snd].
  - refine (conj eq_refl _). cbn [sr_intensities]. unfold normalised. replace (2 <=? length f) with false by (symmetry; apply Nat.leb_gt; lia). rewrite andb_false_r. apply HR.
  - unfold normalised. destruct (Nat.leb_spec 2 (length f)); [|lia]. destruct b; cbn [andb snd sr_values sr_intensities]; (refine (conj eq_refl _)); [|apply HR].
    pose proof total_eq as Hc. revert Hc. generalize (sumQ f), (fold_left Qplus f 0%Q). clear. intros q c Hc. induction f as [|y l IH]; [constructor|]. cbn [map]. constructor; [|exact IH]. rewrite Hc. reflexivity.
Qed.
End Read.

(** numbers of one digit, as a concrete reader of lines *)
Definition parse_digits (l : str) : Q * Q :=
  let number t := inject_Z (fst (extract (-1000) 1000 t)) in
  match tokens [] l with x :: y :: _ => (number x, number y) | _ => (0%Q, 0%Q) end.
Example C128_example :
  let '(K, r) := readSpectrum parse_digits (SpectrumReader true [] []) (text_of [chars "# m/z intensity"; chars "10 1"; chars "11 4"; chars "12 3"] []) in
  map fst K = [[1]; [2]; [2; 1]; [0]; [1; 0]] /\ map (fun s => Qred (snd s)) K = [1 # 2; 3 # 8; 3 # 8; 1 # 8; 1 # 8]%Q /\
  sr_values r = [10; 11; 12]%Q /\ map Qred (sr_intensities r) = [1 # 8; 1 # 2; 3 # 8]%Q.
Proof. vm_compute. repeat split; reflexivity. Qed.

(** a single line is not normalised, contrary to the documentation *)
Theorem C128_single_refuted : exists lines, 
  vertex_data (fst (readSpectrum parse_digits (SpectrumReader true [] []) (text_of lines []))) = [4%Q].
Proof. exists [chars "10 4"]. vm_compute. reflexivity. Qed.
(** entries of a file that has been read before remain in the maps *)
Theorem C128_reuse_refuted : exists file1 file2, 
  let r := snd (readSpectrum parse_digits (SpectrumReader false [] []) (text_of file1 [])) in
  let r' := snd (readSpectrum parse_digits r (text_of file2 [])) in
  read_points parse_digits file2 = [(20, 5); (21, 6)]%Q /\ sr_values r' = [20; 21; 12]%Q /\ sr_intensities r' = [5; 6; 3]%Q.
Proof. exists [chars "10 1"; chars "11 4"; chars "12 3"], [chars "20 5"; chars "21 6"]. vm_compute. repeat split; reflexivity. Qed.
(** with a negative sum, normalisation yields no filtration: the edge precedes one of its vertices *)
Theorem C128_negative_refuted : exists lines, ~ superlevel (fst (readSpectrum parse_digits (SpectrumReader true [] []) (text_of lines []))).
Proof.
  exists [chars "1 -2"; chars "2 1"]. intros [_ H].
  assert (X : 2 < 1); [|lia]. apply (H 2 1 ([1], (1 / (0 + -2 + 1))%Q) ([1; 0], ((-2) / (0 + -2 + 1))%Q)); [vm_compute; reflexivity|vm_compute; reflexivity| |discriminate]. intros x [<-|[]]. simpl. auto.
Qed.

Print Assumptions C128_filtration.
Print Assumptions C128_normalised.
Print Assumptions C128_maps.
Print Assumptions C128_negative_refuted.
