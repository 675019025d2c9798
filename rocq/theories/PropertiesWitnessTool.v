(** * Property C183: the example for witness complexes. *)
From Coq Require Import String Ascii.
From Coq Require Import List Arith NArith Bool ZArith QArith Qround Lia Sorted Permutation.
From Verif Require Import Base BaseFacts Simplex SimplexFacts SpecComplex Complex ComplexFacts FiltrationFacts Subcomplex SubcomplexFacts History PropertiesComplex Matrix SpecMatrix SpecHomology
  SpecDiagram Diagram DiagramFacts PropertiesDiagram PropertiesDowker PropertiesComponents PropertiesLevels SpecSimplicial PropertiesSublevel
  VietorisRips PropertiesVietorisRips LoadMatrix SpecText LoadFacts StringUtilities PropertiesString ReadMatrices DiagramIO ImageTool PropertiesImage RipsTool PropertiesRipsTool PropertiesSmall Witness PropertiesWitness WitnessTool.
From Verif Require PropertiesJSON.
Import ListNotations.
Local Open Scope list_scope.
Local Open Scope nat_scope.

(** ** Specification *)
(** the witness complex of C80, with the [nu]-th smallest distances [m] and the values [wt] of the edges *)
Definition witness_of (N : nat) (dist : nat -> nat -> Z) (landmarks : list nat) (dimension nu : nat) (R : Z) (m : nat -> Z) (wt : nat -> nat -> Z) (K : complex) : Prop :=
  (forall k, k < N -> nu_smallest dist landmarks nu k (m k)) /\
  (forall u v, u < v < length landmarks -> PropertiesWitness.joined dist N landmarks R m u v -> PropertiesWitness.edge_value dist N landmarks R m u v (wt u v)) /\
  reachable K /\ closed (by_index K) /\
  forall vs, NoDup vs -> vs <> [] ->
    (has (by_index K) vs <-> (forall v, In v vs -> v < length landmarks) /\ length vs <= S dimension /\
       forall u v, In u vs -> In v vs -> u < v -> PropertiesWitness.joined dist N landmarks R m u v).
Definition top_dimension (K : complex) (k : nat) : Prop :=
  (exists s, In s (by_index K) /\ length (verts s) = S k) /\ forall s, In s (by_index K) -> length (verts s) <= S k.

(** ** Facts *)
Lemma scale_below dist K : reachable K -> (forall s, In s (by_index K) -> length (verts s) = 1 -> data s = 0%Z) -> (forall s, In s (by_index K) -> 2 <= length (verts s) -> is_diameter dist (verts s) (data s)) ->
  forall t, (0 <= t)%Z -> scale dist t K = below t (by_index K).
Proof.
  intros HR V1 V2 t Ht. assert (G : forall s, In s (by_index K) -> 1 <= length (verts s)). { intros s Hs. pose proof (kwf_good K (reachable_kwf K HR) s Hs) as [_ N]. destruct (verts s); [contradiction|simpl; lia]. }
  unfold scale, below. apply filter_ext_in. intros s Hs. pose proof (G s Hs). apply eq_true_iff_eq. rewrite forallb_forall, Z.leb_le. split; intro H0.
  - destruct (Nat.eq_dec (length (verts s)) 1) as [L|L]; [rewrite (V1 s Hs L); lia|]. destruct (V2 s Hs ltac:(lia)) as [(u & v & Hu & Hv & Huv & <-) _].
    specialize (H0 u Hu). rewrite forallb_forall in H0. specialize (H0 v Hv). destruct (Nat.ltb_spec u v); [cbn in H0; apply Z.leb_le; exact H0|lia].
  - intros u Hu. apply forallb_forall. intros v Hv. destruct (Nat.ltb_spec u v) as [Huv|]; [|reflexivity]. cbn. apply Z.leb_le.
    assert (2 <= length (verts s)). { destruct (verts s) as [|x [|y l]]; cbn in *; [lia|exfalso|lia]. destruct Hu as [<-|[]], Hv as [<-|[]]. lia. }
    pose proof (proj2 (V2 s Hs ltac:(lia)) u v Hu Hv Huv). lia.
Qed.
Lemma top_exists K : reachable K -> by_index K <> [] -> exists k, top_dimension K k.
Proof.
  intros HR Hne. set (lens := map (fun s => length (verts s)) (by_index K)).
  assert (Hl : lens <> []) by (unfold lens; intro X; apply map_eq_nil in X; contradiction).
  assert (HB : forall x, In x lens -> x <= List.list_max lens) by (apply Forall_forall, List.list_max_le; lia).
  assert (HI : In (List.list_max lens) lens).
  { clear -Hl. induction lens as [|x l IH]; [contradiction|]. destruct l as [|y l]; [left; cbn; lia|]. change (List.list_max (x :: y :: l)) with (Nat.max x (List.list_max (y :: l))). destruct (Nat.max_spec x (List.list_max (y :: l))) as [[_ ->]|[_ ->]]; [right; apply IH; discriminate|left; reflexivity]. }
  apply in_map_iff in HI. destruct HI as (s & Es & Hs). pose proof (kwf_good K (reachable_kwf K HR) s Hs) as [_ N]. exists (length (verts s) - 1).
  assert (0 < length (verts s)) by (destruct (verts s); [contradiction|simpl; lia]). split; [exists s; split; [exact Hs|lia]|].
  intros u Hu. pose proof (HB _ (in_map (fun s => length (verts s)) _ _ Hu)) as X. cbn beta in X. rewrite <- Es in X. lia.
Qed.

(** ** The theorems *)
(** For selected landmarks, the printed blocks describe the homology of the witness complex at all scales. *)
Theorem C183_witness : forall show inf lowest max order horder ne a first shuffled random input N dim dist fraction nu R dimension n landmarks,
  (forall l, Permutation (order l) l) -> (forall l, Permutation (horder l) l) -> nth_element_contract ne ->
  0 < N -> 0 < dimension -> (forall i j, i < N -> j < N -> (0 <= dist i j < max)%Z) -> (max <= inf)%Z ->
  numLandmarks N fraction = Ok n -> select_landmarks lowest max first shuffled random N dist n = Ok landmarks ->
  landmarks <> [] -> (forall l, In l landmarks -> l < N) -> nu <= length landmarks ->
  exists m wt K k dgm, witness_of N dist landmarks dimension nu R m wt K /\ top_dimension K k /\
    witness_run show inf lowest max order horder ne a first shuffled random input N dim dist fraction nu R dimension =
      Ok (blocks_of show false input (fun d => map (plain_point inf) (dgm d)) k) /\
    forall d, d < k ->
      (forall p, In p (dgm d) -> fst p <> snd p) /\
      (forall s t, (0 <= s <= t)%Z -> (t < inf)%Z -> induced_rank (scale wt s K) (scale wt t K) d (alive s t (dgm d))) /\
      forall t, (0 <= t < inf)%Z -> simplicial_betti (scale wt t K) d (alive t t (dgm d)).
Proof.
  intros show inf lowest max order horder ne a first shuffled random input N dim dist fraction nu R dimension n landmarks Ho Hh Hne HN Hdim Hd Hinf En El Hl Hlt Hnu.
  destruct (C80_witness dist N order ne max dim landmarks dimension nu R Ho Hne HN Hl Hlt Hnu) as (m & wt & K & Hm & Hwt & E & HR & HH & V1 & V2 & HC & HF & HA); [intros l k Hl' Hk; apply Hd; auto|].
  destruct (Nat.eqb_spec dimension 0) as [X|_]; [lia|].
  assert (HM : (0 < max)%Z) by (pose proof (Hd 0 0 HN HN); lia).
  assert (Hne' : by_index K <> []).
  { intro X. assert (Hh0 : has (by_index K) [0]). { apply HH; [repeat constructor; auto|discriminate|]. split; [intros v [<-|[]]; destruct landmarks; [contradiction|simpl; lia]|]. split; [simpl; lia|]. intros u v [<-|[]] [<-|[]] Y. lia. }
    destruct Hh0 as (s & Hs & _). rewrite X in Hs. contradiction. }
  destruct (top_exists K HR Hne') as (k & Hk).
  assert (HD : forall s, In s (by_index K) -> (data s < inf)%Z).
  { intros s Hs. pose proof (kwf_good K (reachable_kwf K HR) s Hs) as [W Ns]. assert (1 <= length (verts s)) by (destruct (verts s); [contradiction|simpl; lia]).
    destruct (Nat.eq_dec (length (verts s)) 1) as [L|L]; [rewrite (V1 s Hs L); lia|]. destruct (V2 s Hs ltac:(lia)) as [(u & v & Hu & Hv & Huv & <-) _].
    assert (Q : has (by_index K) (verts s)) by (exists s; split; [exact Hs|intro w; tauto]). apply HH in Q; [|apply SSgt_NoDup; exact W|exact Ns]. destruct Q as (A & _ & J).
    pose proof (A u Hu) as Au. pose proof (A v Hv) as Av. destruct (Hwt u v ltac:(lia) (J u v Hu Hv Huv)) as [(w & [Hw _] & <-) _]. unfold witness_value.
    pose proof (Hd _ w (Hlt _ (nth_In landmarks 0 Au)) Hw). pose proof (Hd _ w (Hlt _ (nth_In landmarks 0 Av)) Hw). lia. }
  destruct (output_facts show inf horder a false false false input 0%Z K k Hh HR HC HF HA HD (proj1 Hk) (proj2 Hk)) as (ds & dgm & Ed & Eo & H).
  exists m, wt, K, k, dgm. split; [split; [exact Hm|]; split; [exact Hwt|]; split; [exact HR|]; split; [exact HC|exact HH]|]. split; [exact Hk|]. split.
  - unfold witness_run. rewrite En. cbn [bind]. rewrite El. cbn [bind]. rewrite E. cbn [bind]. rewrite Ed. cbn [bind]. rewrite Eo. reflexivity.
  - intros d Hdk. destruct (H d Hdk) as (H1 & H2 & H3). split; [apply H1; reflexivity|]. pose proof (scale_below wt K HR V1 V2) as HS. split.
    + intros s t Hst Ht. rewrite !HS by lia. apply H2. lia.
    + intros t Ht. rewrite HS by lia. apply H3. lia.
Qed.

(** The max-min strategy always finds the landmarks. *)
Theorem C183_landmarks : forall lowest max first shuffled N dist fraction, first < N -> (lowest < 0)%Z -> (forall i j, i < N -> j < N -> (dist i j * dist i j <= max)%Z) ->
  (0 <= fraction <= 1)%Q ->
  exists n landmarks, numLandmarks N fraction = Ok n /\ select_landmarks lowest max first shuffled false N dist n = Ok landmarks /\
    (inject_Z (Z.of_nat n) <= inject_Z (Z.of_nat N) * fraction < inject_Z (Z.of_nat n + 1))%Q /\
    length landmarks = Nat.max 1 n /\ forall l, In l landmarks -> l < N.
Proof.
  intros lowest max first shuffled N dist fraction Hf Hlow Hd [F0 F1]. set (z := (inject_Z (Z.of_nat N) * fraction)%Q).
  assert (N0 : (0 <= inject_Z (Z.of_nat N))%Q) by (change 0%Q with (inject_Z 0); rewrite <- Zle_Qle; lia).
  assert (Z0 : (0 <= z)%Q) by (apply Qmult_le_0_compat; assumption).
  assert (Z1 : (z <= inject_Z (Z.of_nat N))%Q). { unfold z. rewrite <- (Qmult_1_r (inject_Z (Z.of_nat N))) at 2. rewrite (Qmult_comm _ fraction), (Qmult_comm _ 1). apply Qmult_le_compat_r; assumption. }
  assert (FL : (0 <= Qfloor z)%Z) by (change 0%Z with (Qfloor 0); apply Qfloor_resp_le; exact Z0).
  assert (FU : (Qfloor z <= Z.of_nat N)%Z) by (rewrite <- (Qfloor_Z (Z.of_nat N)); apply Qfloor_resp_le; exact Z1).
  exists (Z.to_nat (Qfloor z)). destruct (C81_maxmin (fun i j => dist i j * dist i j)%Z N lowest max first (Z.to_nat (Qfloor z))) as (l & E & L & _ & Hl & _); [lia|exact Hf|intros i j Hi Hj; split; [nia|apply Hd; assumption]|].
  exists l. split; [|split; [exact E|split; [|split; [exact L|exact Hl]]]].
  - unfold numLandmarks. fold z. destruct (Qle_bool z (-1)) eqn:X; [|reflexivity]. apply Qle_bool_iff in X. exfalso. apply (Qlt_irrefl 0). eapply Qle_lt_trans; [exact Z0|]. eapply Qle_lt_trans; [exact X|reflexivity].
  - rewrite Z2Nat.id by exact FL. split; [apply Qfloor_le|apply Qlt_floor].
Qed.

(** FINDING: with the default options, a point cloud with less than 20 points has a single landmark, and an exception is raised. *)
Theorem C183_small : forall show inf lowest max order horder ne a first shuffled input N dim dist R dimension, 0 < N < 20 -> first < N ->
  witness_run show inf lowest max order horder ne a first shuffled false input N dim dist (1 # 10) 2 R dimension = Throw OutOfRange.
Proof.
  intros show inf lowest max order horder ne a first shuffled input N dim dist R dimension HN Hf. unfold witness_run.
  assert (En : exists n, numLandmarks N (1 # 10) = Ok n /\ n <= 1 /\ n <= N).
  { assert (C : forall k, k < 20 -> 0 < k -> exists n, numLandmarks k (1 # 10) = Ok n /\ n <= 1 /\ n <= k).
    { intros k H1 H2. do 20 (destruct k as [|k]; [first [exfalso; lia|eexists; split; [vm_compute; reflexivity|lia]]|]). lia. }
    apply C; lia. }
  destruct En as (n & -> & Hn & HnN). cbn [bind]. unfold select_landmarks, generateMaxMinLandmarks. destruct (Nat.ltb_spec N n); [lia|]. replace (n - 1) with 0 by lia. cbn [add_landmarks bind].
  rewrite C80_nu; [reflexivity|lia|discriminate|intros l [<-|[]]; exact Hf|simpl; lia].
Qed.

(** The arguments.  FINDING: the input alone is not enough, and a single argument after it, described as the dimension, is ignored. *)
Theorem C183_arguments : forall show inf lowest max order horder ne a first shuffled random fraction nu R load,
  let main := witness_main show inf lowest max order horder ne a first shuffled random fraction nu R load in
  let run := witness_run show inf lowest max order horder ne a first shuffled random in
  main [] = Ok ((-1)%Z, []) /\ (forall input, main [input] = Ok ((-1)%Z, [])) /\
  (forall input s N d dist text, load input = (N, d, dist) -> run input N d dist fraction nu R (d + 1) = Ok text -> main [input; s] = Ok (0%Z, text)) /\
  (forall input s r rest v N d dist text, load input = (N, d, dist) -> numeral s v -> (v < 2 ^ 32)%N -> run input N d dist fraction nu R (N.to_nat v) = Ok text -> main (input :: s :: r :: rest) = Ok (0%Z, text)).
Proof.
  intros show inf lowest max order horder ne a first shuffled random fraction nu R load main run. split; [reflexivity|]. split; [reflexivity|]. split.
  - intros input s N d dist text L Rn. unfold main, witness_main. cbn [length Nat.leb]. rewrite L. cbn [bind]. unfold run in Rn. rewrite Rn. reflexivity.
  - intros input s r rest v N d dist text L Hs Hv Rn. unfold main, witness_main. cbn [length Nat.leb]. rewrite L.
    rewrite (numeral_stoul s v Hs) by (eapply N.lt_trans; [exact Hv|reflexivity]). cbn [bind]. rewrite N.mod_small by exact Hv. unfold run in Rn. rewrite Rn. reflexivity.
Qed.

Theorem C183_dimension_refuted : ~ (forall show inf lowest max order horder ne a first shuffled random fraction nu R load input s v N d dist text,
  load input = (N, d, dist) -> numeral s v -> (v < 2 ^ 32)%N ->
  witness_run show inf lowest max order horder ne a first shuffled random input N d dist fraction nu R (N.to_nat v) = Ok text ->
  witness_main show inf lowest max order horder ne a first shuffled random fraction nu R load [input; s] = Ok (0%Z, text)).
Proof.
  intro H. set (load := fun _ : str => (3, 1, corners)).
  assert (X := H show_coordinate 99%Z (-1)%Z 50%Z (fun l => l) (fun l => l) (fun l _ => cpp_sort Z.ltb l) AStandard 0 [] false 1%Q 2 9%Z load (chars "x") (chars "1") 1%N 3 1 corners).
  assert (Y : exists text, witness_run show_coordinate 99 (-1) 50 (fun l => l) (fun l => l) (fun l _ => cpp_sort Z.ltb l) AStandard 0 [] false (chars "x") 3 1 corners 1 2 9 1 = Ok text /\
    witness_main show_coordinate 99 (-1) 50 (fun l => l) (fun l => l) (fun l _ => cpp_sort Z.ltb l) AStandard 0 [] false 1 2 9 load [chars "x"; chars "1"] <> Ok (0%Z, text)).
  { eexists. split; [vm_compute; reflexivity|]. vm_compute. discriminate. }
  destruct Y as (text & Y1 & Y2). apply Y2. apply (X text); [reflexivity|exact (PropertiesJSON.print_nat_numeral 1)|reflexivity|exact Y1].
Qed.

(** The corners of a square, all of them landmarks: the diagonals are edges, because the other corners are their witnesses, and
    there is no hole. *)
Example C183_square :
  select_landmarks (-1) 50 0 [] false 4 corners 4 = Ok [0; 2; 1; 3] /\
  witness_run show_coordinate 99 (-1) 50 (fun l => l) (fun l => l) (fun l _ => cpp_sort Z.ltb l) AStandard 0 [] false (chars "square") 4 2 corners 1 2 0 2 =
    Ok (chars "# Persistence diagram <square>" ++ [newline] ++ chars "#" ++ [newline] ++ chars "# Dimension: 0" ++ [newline] ++ chars "# Entries  : 4" ++ [newline] ++
        line ["0"; "inf"]%string ++ line ["0"; "2"]%string ++ line ["0"; "2"]%string ++ line ["0"; "2"]%string ++ [newline; newline] ++
        chars "# Persistence diagram <square>" ++ [newline] ++ chars "#" ++ [newline] ++ chars "# Dimension: 1" ++ [newline] ++ chars "# Entries  : 0" ++ [newline; newline; newline]).
Proof. split; vm_compute; reflexivity. Qed.
Example C183_fraction : numLandmarks 25 (1 # 10) = Ok 2 /\ numLandmarks 25 (-1) = UB.
Proof. split; vm_compute; reflexivity. Qed.

Print Assumptions C183_witness.
Print Assumptions C183_landmarks.
Print Assumptions C183_small.
Print Assumptions C183_arguments.
Print Assumptions C183_dimension_refuted.
