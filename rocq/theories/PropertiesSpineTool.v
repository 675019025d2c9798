(** * Property C175: the tool for spines, and the text of complexes. *)
From Coq Require Import String Ascii.
From Coq Require Import List Arith Bool ZArith Lia Sorted Permutation.
From Verif Require Import Base BaseFacts LoadMatrix StringUtilities Simplex SimplexFacts SpecComplex Complex ComplexFacts FiltrationFacts Subcomplex SubcomplexFacts History PropertiesComplex PropertiesString ReadFacts PropertiesPointCloud
  DiagramIO Tikz PropertiesTikz Dowker DowkerFacts PropertiesDowker SpecCollapse Spine SpineFacts PropertiesSpine SpecSimplicial SimplicialFacts PropertiesSpineHomology SpineTool.
Import ListNotations.
Local Open Scope list_scope.
Local Open Scope nat_scope.

(** ** Texts determine simplices and complexes *)
Lemma cut (stop : ascii -> bool) : forall a b c d x y, (forall e, In e a -> stop e = false) -> (forall e, In e b -> stop e = false) -> stop c = true -> stop d = true ->
  a ++ c :: x = b ++ d :: y -> a = b /\ c :: x = d :: y.
Proof.
  induction a as [|e a IH]; intros [|f b] c d x y Ha Hb Hc Hd E; cbn [app] in E.
  - split; [reflexivity|exact E].
  - injection E as -> _. rewrite Hb in Hc by (left; reflexivity). discriminate.
  - injection E as -> _. rewrite Ha in Hd by (left; reflexivity). discriminate.
  - injection E as -> E. destruct (IH b c d x y) as [-> E']; auto; [intros; apply Ha; right; assumption|intros; apply Hb; right; assumption].
Qed.
Lemma print_Z_inj a b : print_Z a = print_Z b -> a = b.
Proof.
  intro E. pose proof (proj1 (C84_convert (Z.min a b) (Z.max a b) [] a [] ltac:(lia) (Forall_nil _) ltac:(discriminate))) as A. pose proof (proj1 (C84_convert (Z.min a b) (Z.max a b) [] b [] ltac:(lia) (Forall_nil _) ltac:(discriminate))) as B.
  cbn [app] in A, B. rewrite app_nil_r in A, B. rewrite E in A. rewrite A in B. congruence.
Qed.
Definition stopper (c : ascii) : bool := Ascii.eqb c " "%char || Ascii.eqb c "}"%char || Ascii.eqb c ")"%char || Ascii.eqb c newline.
Lemma print_no_stop z c : In c (print_Z z) -> stopper c = false /\ c <> "("%char.
Proof.
  intro H. apply print_chars in H. destruct H as [->|(k & H)]; [split; [reflexivity|discriminate]|]. split.
  - destruct (stopper c) eqn:E; [|reflexivity]. unfold stopper in E. rewrite !orb_true_iff, !Ascii.eqb_eq in E. destruct E as [[[-> | ->]| ->]| ->]; discriminate H.
  - intros ->. discriminate H.
Qed.
Definition rest_text (vs : list nat) (d : Z) (after : str) : str :=
  print_vertices false vs ++ (if negb (d =? 0)%Z then chars " (" ++ print_Z d ++ chars ")" else []) ++ chars "}" ++ after.
Lemma rest_stop vs d after : exists c x, rest_text vs d after = c :: x /\ stopper c = true.
Proof.
  unfold rest_text. destruct vs as [|v vs]; [|exists " "%char; eexists; split; [reflexivity|reflexivity]]. cbn [print_vertices app]. destruct (d =? 0)%Z; cbn [negb].
  - exists "}"%char; eexists; split; reflexivity.
  - exists " "%char; eexists; split; reflexivity.
Qed.
Lemma print_starts z : exists c x, print_Z z = c :: x /\ c <> "("%char /\ stopper c = false.
Proof. pose proof (print_nonempty z) as H. destruct (print_Z z) as [|c x] eqn:E; [cbn in H; lia|]. exists c, x. split; [reflexivity|]. destruct (print_no_stop z c) as [A B]; [rewrite E; left; reflexivity|]. auto. Qed.
Lemma rest_inj : forall vs d after vs' d' after', rest_text vs d after = rest_text vs' d' after' -> vs = vs' /\ d = d' /\ after = after'.
Proof.
  assert (N : forall v vs d after d' after', rest_text (v :: vs) d after <> rest_text [] d' after').
  { intros v vs d after d' after' E. destruct (print_starts (Z.of_nat v)) as (c & x & Ec & Nc & _). unfold rest_text in E. cbn [print_vertices app] in E. unfold print_nat in E. rewrite Ec in E. unfold chars in E. cbn [list_ascii_of_string app] in E.
    destruct (d' =? 0)%Z; cbn [negb app] in E; [discriminate|]. cbn [list_ascii_of_string app] in E. injection E as -> _. easy. }
  induction vs as [|v vs IH]; intros d after [|v' vs'] d' after' E.
  - split; [reflexivity|]. unfold rest_text in E. cbn [print_vertices app] in E. unfold chars in E. cbn [list_ascii_of_string app] in E.
    destruct (Z.eqb_spec d 0) as [D|D], (Z.eqb_spec d' 0) as [D'|D']; cbn [negb app] in E.
    + injection E as ->. split; [congruence|reflexivity].
    + discriminate.
    + discriminate.
    + injection E as E. rewrite <- !app_assoc in E. cbn [app] in E. apply (cut stopper) in E; [|intros e He; apply print_no_stop in He; apply He|intros e He; apply print_no_stop in He; apply He|reflexivity|reflexivity].
      destruct E as [E1 E2]. injection E2 as ->. split; [apply print_Z_inj; exact E1|reflexivity].
  - exfalso. symmetry in E. apply N in E. exact E.
  - exfalso. apply N in E. exact E.
  - unfold rest_text in E. cbn [print_vertices] in E. unfold chars at 1 in E. unfold chars at 4 in E. cbn [list_ascii_of_string app] in E. injection E as E. rewrite <- !app_assoc in E.
    change (print_nat v ++ rest_text vs d after = print_nat v' ++ rest_text vs' d' after') in E.
    destruct (rest_stop vs d after) as (c & x & Ec & Sc). destruct (rest_stop vs' d' after') as (c' & x' & Ec' & Sc'). rewrite Ec, Ec' in E.
    apply (cut stopper) in E; [|intros e He; apply print_no_stop in He; apply He|intros e He; apply print_no_stop in He; apply He|exact Sc|exact Sc'].
    destruct E as [E1 E2]. rewrite <- Ec, <- Ec' in E2. apply IH in E2. destruct E2 as (-> & -> & ->). apply print_Z_inj in E1. apply Nat2Z.inj in E1. subst v'. auto.
Qed.
(** what follows a simplex may be anything: the text says where it ends *)
Theorem C175_simplex_text : forall s t x y, verts s <> [] -> verts t <> [] -> print_simplex s ++ x = print_simplex t ++ y -> s = t /\ x = y.
Proof.
  intros [vs d] [vs' d'] x y. cbn [verts]. intros N N' E. destruct vs as [|v vs]; [easy|]. destruct vs' as [|v' vs']; [easy|]. unfold print_simplex in E. cbn [verts data print_vertices app] in E.
  unfold chars at 1 in E. unfold chars at 4 in E. cbn [list_ascii_of_string app] in E. injection E as E. rewrite <- !app_assoc in E.
  change (print_nat v ++ rest_text vs d x = print_nat v' ++ rest_text vs' d' y) in E.
  destruct (rest_stop vs d x) as (c & z & Ec & Sc). destruct (rest_stop vs' d' y) as (c' & z' & Ec' & Sc'). rewrite Ec, Ec' in E.
  apply (cut stopper) in E; [|intros e He; apply print_no_stop in He; apply He|intros e He; apply print_no_stop in He; apply He|exact Sc|exact Sc'].
  destruct E as [E1 E2]. rewrite <- Ec, <- Ec' in E2. apply rest_inj in E2. destruct E2 as (-> & -> & ->). apply print_Z_inj in E1. apply Nat2Z.inj in E1. subst v'. auto.
Qed.
Lemma simplices_inj l : forall m x y, (forall s, In s l -> verts s <> []) -> (forall s, In s m -> verts s <> []) ->
  flat_map (fun s => print_simplex s ++ [newline]) l ++ dashes ++ x = flat_map (fun s => print_simplex s ++ [newline]) m ++ dashes ++ y -> l = m /\ x = y.
Proof.
  assert (N : forall s z w, print_simplex s ++ z <> dashes ++ w) by (intros s z w E; unfold print_simplex, dashes, chars in E; cbn [list_ascii_of_string app repeat] in E; discriminate).
  induction l as [|s l IH]; intros [|t m] x y Hl Hm E; cbn [flat_map] in E.
  - split; [reflexivity|]. cbn [app] in E. apply app_inv_head in E. exact E.
  - exfalso. rewrite <- !app_assoc in E. symmetry in E. exact (N _ _ _ E).
  - exfalso. rewrite <- !app_assoc in E. exact (N _ _ _ E).
  - rewrite <- !app_assoc in E. apply C175_simplex_text in E; [|apply Hl; left; reflexivity|apply Hm; left; reflexivity]. destruct E as [-> E]. cbn [app] in E. injection E as E.
    destruct (IH m x y) as [-> ->]; auto; intros u Hu; [apply Hl|apply Hm]; right; exact Hu.
Qed.
Theorem C175_complex_text : forall K L, reachable K -> reachable L -> print_complex K = print_complex L -> by_index K = by_index L.
Proof.
  intros K L HK HL E. assert (GK : forall s, In s (by_index K) -> verts s <> []) by (intros s Hs; apply (kwf_good K (reachable_kwf K HK) s Hs)). assert (GL : forall s, In s (by_index L) -> verts s <> []) by (intros s Hs; apply (kwf_good L (reachable_kwf L HL) s Hs)).
  unfold print_complex in E. destruct (by_index K) as [|s l] eqn:EK, (by_index L) as [|t m] eqn:EL; try reflexivity; try discriminate E.
  apply app_inv_head in E. apply (simplices_inj (s :: l) (t :: m) [] []); [exact GK|exact GL|]. rewrite app_nil_r. exact E.
Qed.

(** ** The tool *)
Definition mono_radius (radius2 : list nat -> Z) : Prop := forall vs ws, StronglySorted lt vs -> StronglySorted lt ws -> subset vs ws -> (radius2 vs <= radius2 ws)%Z.
(** [K] is the Čech complex *)
Definition is_cech (radius2 : list nat -> Z) (n : nat) (r : Z) (K : complex) : Prop :=
  forall vs, StronglySorted lt vs -> vs <> [] -> (has (by_index K) vs <-> (forall v, In v vs -> v < n) /\ (length vs = 1 \/ (radius2 vs <= r * r)%Z)).
Definition same_homology (K L : complex) : Prop := forall d n, simplicial_betti (by_index K) d n <-> simplicial_betti (by_index L) d n.

Lemma spine_by_ok pick method K : reachable K -> closed (by_index K) -> exists L, spine_by pick method K = Ok L /\ reachable L /\ is_spine K L /\ same_homology K L.
Proof.
  intros HR HC. unfold spine_by. destruct (str_eqb method (chars "dumb")); [destruct (C31_dumb_spine pick K HR HC) as (L & E & R & S)|destruct (C31_spine pick K HR HC) as (L & E & R & S)]; exists L; (split; [exact E|split; [exact R|split; [exact S|]]]); intros d n; apply spine_betti; assumption.
Qed.
(** both methods; the text tells the complex and its spine *)
Theorem C175_output : forall radius2 diameter pick o points, mono_radius radius2 -> so_tikz o = false ->
  exists K L, persistent_spines radius2 diameter pick o points = Ok (print_complex K ++ [newline; newline] ++ print_complex L ++ [newline]) /\
    reachable K /\ is_cech radius2 (length points) (so_radius o) K /\ reachable L /\ is_spine K L /\ same_homology K L.
Proof.
  intros radius2 diameter pick o points Hm Ht. destruct (C70_cech radius2 diameter (length points) (so_radius o) Hm) as (K & EK & HR & HK & _ & HC). destruct (spine_by_ok pick (so_method o) K HR HC) as (L & EL & RL & SL & BL).
  exists K, L. unfold persistent_spines. rewrite EK. cbn [bind]. rewrite EL. cbn [bind]. unfold spine_output. rewrite Ht. split; [reflexivity|]. split; [exact HR|]. split; [exact HK|]. auto.
Qed.
(** the picture of a complex *)
Definition pictures (o : tikz_settings) (points : list (list Z)) (K : complex) (cs : list command) : Prop :=
  placed cs /\ (forall v x y, In (Place v x y) cs <-> In [v] (map verts (by_index K)) /\ exists p q r, nth v points [] = p :: q :: r /\ x = print_Z p /\ y = print_Z q) /\
  (forall v, In (Dot v) cs <-> In [v] (map verts (by_index K))) /\ (forall v, In (Ball v) cs <-> t_showBalls o = true /\ In [v] (map verts (by_index K))) /\
  (forall u v w, In (Triangle u v w) cs <-> In [u; v; w] (map verts (by_index K))) /\ (forall u v, In (Line u v) cs <-> In [u; v] (map verts (by_index K))).
Theorem C175_tikz : forall radius2 diameter pick o points, mono_radius radius2 -> so_tikz o = true -> (forall p, In p points -> 2 <= length p) ->
  exists K L cs ds, persistent_spines radius2 diameter pick o points =
      Ok (preamble ++ picture_text (complex_settings (so_radius o)) cs ++ [newline; newline] ++ picture_text (spine_settings (so_radius o)) ds ++ chars "\end{document}" ++ [newline]) /\
    is_cech radius2 (length points) (so_radius o) K /\ is_spine K L /\ same_homology K L /\
    pictures (complex_settings (so_radius o)) points K cs /\ (forall v, In (Ball v) cs <-> v < length points) /\ pictures (spine_settings (so_radius o)) points L ds /\ forall v, ~ In (Ball v) ds.
Proof.
  intros radius2 diameter pick o points Hm Ht Hp. destruct (C70_cech radius2 diameter (length points) (so_radius o) Hm) as (K & EK & HR & HK & _ & HC). destruct (spine_by_ok pick (so_method o) K HR HC) as (L & EL & RL & SL & BL).
  assert (EN : forall v, v < length points -> enough points v) by (intros v Hv; split; [exact Hv|apply Hp, nth_In, Hv]).
  assert (SV : forall v, In [v] (map verts (by_index K)) <-> v < length points).
  { intro v. rewrite in_map_iff. assert (X : has (by_index K) [v] <-> v < length points).
    { rewrite (HK [v]); [|repeat constructor|discriminate]. split; [intros [X _]; apply X; left; reflexivity|intro X; split; [intros w [<-|[]]; exact X|left; reflexivity]]. }
    rewrite <- X. unfold has. split.
    - intros (s & E & Hs). exists s. split; [exact Hs|]. rewrite E. intro w. reflexivity.
    - intros (s & Hs & E). exists s. split; [|exact Hs]. change [v] with (verts (simplex_vertex v 0)). apply wf_ext; [apply (kwf_good K (reachable_kwf K HR) s Hs)|repeat constructor|exact E]. }
  assert (IL : incl (by_index L) (by_index K)) by (apply collapses_keep; apply SL).
  destruct (C138_picture print_Z (complex_settings (so_radius o)) K points (reachable_kwf K HR) HC) as (cs & E1 & P1 & _ & A1 & A2 & A3 & A4 & A5); [intros u Hu; apply EN, SV, Hu|].
  destruct (C138_picture print_Z (spine_settings (so_radius o)) L points (reachable_kwf L RL)) as (ds & E2 & P2 & _ & B1 & B2 & B3 & B4 & B5); [apply SL|intros u Hu; apply EN, SV; apply in_map_iff in Hu; destruct Hu as (s & E & Hs); rewrite <- E; apply in_map, IL, Hs|].
  exists K, L, cs, ds. unfold persistent_spines. rewrite EK. cbn [bind]. rewrite EL. cbn [bind]. unfold spine_output. rewrite Ht, E1. cbn [bind]. rewrite E2. cbn [bind]. split; [reflexivity|]. split; [exact HK|]. split; [exact SL|]. split; [exact BL|].
  split; [split; [exact P1|]; split; [exact A1|]; split; [exact A2|]; split; [exact A3|]; split; [intros u v w; rewrite (A4 u v w); cbn; tauto|exact A5]|].
  split; [intro v; rewrite A3, SV; cbn; tauto|].
  split; [split; [exact P2|]; split; [exact B1|]; split; [exact B2|]; split; [exact B3|]; split; [intros u v w; rewrite (B4 u v w); cbn; tauto|exact B5]|].
  intros v H. apply B3 in H. destruct H as [H _]. discriminate H.
Qed.
(** the sign of the radius does not matter *)
Theorem C175_sign : forall radius2 diameter pick m r points,
  persistent_spines radius2 diameter pick (SpineOptions m (- r) false) points = persistent_spines radius2 diameter pick (SpineOptions m r false) points.
Proof. intros. unfold persistent_spines, buildCechComplex. cbn [so_radius so_method]. replace (- r * - r)%Z with (r * r)%Z by lia. reflexivity. Qed.
(** points with one coordinate cannot be drawn, though complex and spine are calculated *)
Theorem C175_line_refuted : exists points, points <> [] /\ (forall p, In p points -> length p = 1) /\
  forall diameter m, persistent_spines (fun _ => 1%Z) diameter (fun n => n) (SpineOptions m 0 true) points = Throw RuntimeError.
Proof.
  exists [[5%Z]]. split; [discriminate|]. split; [intros p [<-|[]]; reflexivity|]. intros diameter m. unfold persistent_spines, spine_by. cbn [so_method].
  replace (buildCechComplex (fun _ : list nat => 1%Z) diameter (length [[5%Z]]) (so_radius (SpineOptions m 0 true))) with (buildCechComplex (fun _ : list nat => 1%Z) (fun x => x) 1 0) by (vm_compute; reflexivity).
  destruct (str_eqb m (chars "dumb")); vm_compute; reflexivity.
Qed.

(** ** Four points on a line, both methods *)
Example C175_example : exists K, buildCechComplex line_radius2 (fun x => 2 * Z.sqrt x)%Z 4 2 = Ok K /\
  print_complex K = dashes ++ flat_map (fun s => chars s ++ [newline]) ["{0}"; "{1}"; "{2}"; "{3}"; "{1 0 (2)}"; "{2 1 (2)}"; "{2 0 (4)}"; "{2 1 0 (4)}"]%string ++ dashes.
Proof. eexists. split; [vm_compute; reflexivity|]. vm_compute. reflexivity. Qed.
Example C175_example_spine : persistent_spines line_radius2 (fun x => 2 * Z.sqrt x)%Z (fun n => n) (SpineOptions (chars "dumb") 2 false) [[0%Z]; [0%Z]; [0%Z]; [0%Z]] =
  Ok (dashes ++ flat_map (fun s => chars s ++ [newline]) ["{0}"; "{1}"; "{2}"; "{3}"; "{1 0 (2)}"; "{2 1 (2)}"; "{2 0 (4)}"; "{2 1 0 (4)}"]%string ++ dashes ++ [newline; newline] ++ dashes ++ chars "{2}" ++ [newline] ++ chars "{3}" ++ [newline] ++ dashes ++ [newline]).
Proof. vm_compute. reflexivity. Qed.

Print Assumptions C175_simplex_text.
Print Assumptions C175_complex_text.
Print Assumptions C175_output.
Print Assumptions C175_tikz.
Print Assumptions C175_sign.
Print Assumptions C175_line_refuted.
