(** * The reader of all formats (C135) *)
From Coq Require Import String Ascii List Arith Bool NArith ZArith Lia Permutation Sorted.
From Verif Require Import Base BaseFacts SpecText LoadMatrix StringUtilities PropertiesString Simplex SimplexFacts SpecComplex Complex ComplexFacts DiagramIO PropertiesJSON Filesystem PropertiesFilesystem Pajek PropertiesPajek Gml PropertiesGml Vtk PropertiesVtk Ply PropertiesPly Hdf5 PropertiesHdf5 ReadEdges PropertiesReadEdges ComplexReader.
Import ListNotations.
Local Open Scope list_scope.
Local Open Scope nat_scope.

(** ** Specification *)
(** a path whose last component has the given ending after its last dot *)
Definition path_with (ending : string) (path : str) : Prop := exists a, basename path = a ++ Filesystem.dot :: chars ending /\ ~ In Filesystem.dot (chars ending) /\ ending <> EmptyString.
Definition plain_path (path : str) : Prop := forall e, In e ["gml"; "h5"; "net"; "ply"; "vtk"]%string -> ~ path_with e path.

Lemma chars_inj a b : chars a = chars b -> a = b.
Proof. unfold chars. intro H. rewrite <- (string_of_list_ascii_of_string a), <- (string_of_list_ascii_of_string b). f_equal. exact H. Qed.
Lemma path_extension e path : path_with e path -> extension path = Filesystem.dot :: chars e.
Proof.
  intros (a & Ea & Nd & Ne). destruct (C126_extension path) as (_ & H & _). destruct (H a (chars e) Ea Nd) as [_ X].
  - rewrite Ea. intro E. apply Ne. apply chars_inj. change (chars EmptyString) with (@nil ascii). destruct a as [|c [|d a]]; [injection E as E; exact E|discriminate E|discriminate E].
  - rewrite Ea. intro E. change (chars "..") with [Filesystem.dot; Filesystem.dot] in E. apply Ne. apply chars_inj. change (chars EmptyString) with (@nil ascii). destruct a as [|c [|d a]]; [injection E as E|injection E as _ E; exact E|destruct a; discriminate E]. exfalso. apply Nd. rewrite E. left. reflexivity.
  - exact X.
Qed.
Lemma extension_path e path : extension path = Filesystem.dot :: chars e -> ~ In Filesystem.dot (chars e) -> e <> EmptyString -> path_with e path.
Proof. intros E Nd Ne. exists (stem path). destruct (C126_extension path) as (H & _). rewrite <- H, E. auto. Qed.
Ltac select H := rewrite (path_extension _ _ H); repeat (rewrite ?str_eqb_refl; match goal with |- context [str_eqb ?a ?b] => let v := eval vm_compute in (str_eqb a b) in change (str_eqb a b) with v; cbv iota end).

Section Readers.
Variable strict : bool.
Variable conv : str -> Z.
Variable stod : str -> outcome Z.
Variables lowest highest vmax : Z.
Notation read := (read_complex strict conv stod lowest highest vmax).

(** The ending of the path selects the format, the functor is used for VTK files only, and all other paths are edge lists. *)
Theorem C135_formats : forall f r path text field K,
  (path_with "gml" path -> forall L nodes edges labels, readGML conv Z.max text = Ok (L, nodes, edges) -> gml_labels nodes (label_attribute r) = Ok labels -> exists r', read f r path text field K = Ok (L, r') /\ labels_of r' = labels /\ data_attribute r' = data_attribute r /\ label_attribute r' = label_attribute r) /\
  (path_with "net" path -> forall L m, readPajek strict conv text = Ok (L, m) -> exists r', read f r path text field K = Ok (L, r') /\ labels_of r' = getLabels m /\ data_attribute r' = data_attribute r /\ label_attribute r' = label_attribute r) /\
  (path_with "ply" path -> forall L, readPLY conv stod lowest highest (data_attribute r) text = Ok L -> read f r path text field K = Ok (L, r)) /\
  (path_with "vtk" path -> forall v, readVTK conv f text = Ok (Some v) -> read f r path text field K = Ok (vtk_complex v, r)) /\
  (path_with "vtk" path -> readVTK conv f text = Ok None -> read f r path text field K = Ok (K, r)) /\
  (path_with "h5" path -> forall L, readHDF5 Z.max (fst (fst field)) (snd (fst field)) (snd field) = Ok (Some L) -> read f r path text field K = Ok (L, r)) /\
  (path_with "h5" path -> readHDF5 Z.max (fst (fst field)) (snd (fst field)) (snd field) = Ok None -> read f r path text field K = Ok (K, r)) /\
  (plain_path path -> forall L m, read_edges lowest highest vmax true true isspace [] text = Ok (L, m) -> read f r path text field K = Ok (L, r)).
Proof.
  intros f r path text [[extents known] values] K. unfold read_complex. cbn [fst snd]. refine (conj _ (conj _ (conj _ (conj _ (conj _ (conj _ (conj _ _))))))).
  - intros H L nodes edges labels E El. select H. rewrite E. cbn [bind]. rewrite El. cbn [bind]. eexists. split; [reflexivity|auto].
  - intros H L m E. select H. rewrite E. cbn [bind fst snd]. eexists. split; [reflexivity|auto].
  - intros H L E. select H. rewrite E. reflexivity.
  - intros H v E. select H. rewrite E. reflexivity.
  - intros H E. select H. rewrite E. reflexivity.
  - intros H L E. select H. rewrite E. reflexivity.
  - intros H E. select H. rewrite E. reflexivity.
  - intros H L m E.
    assert (X : forall e, In e ["gml"; "h5"; "net"; "ply"; "vtk"]%string -> str_eqb (extension path) (Filesystem.dot :: chars e) = false).
    { intros e He. destruct (str_eqb (extension path) (Filesystem.dot :: chars e)) eqn:Ee; [|reflexivity]. exfalso. apply str_eqb_spec in Ee. apply (H e He). apply extension_path; [exact Ee| |]; simpl in He; intuition (subst; try discriminate; simpl in *; intuition discriminate). }
    change (chars ".gml") with (Filesystem.dot :: chars "gml"). change (chars ".h5") with (Filesystem.dot :: chars "h5"). change (chars ".net") with (Filesystem.dot :: chars "net"). change (chars ".ply") with (Filesystem.dot :: chars "ply"). change (chars ".vtk") with (Filesystem.dot :: chars "vtk").
    rewrite !X by (simpl; tauto). rewrite E. reflexivity.
Qed.
(** The attributes that a caller sets are those that are used, each on its own; until then labels are taken from [label]. *)
Theorem C135_attributes : forall r a,
  data_attribute new_reader = [] /\ label_attribute new_reader = chars "label" /\ labels_of new_reader = [] /\
  data_attribute (setDataAttribute r a) = a /\ label_attribute (setDataAttribute r a) = label_attribute r /\ labels_of (setDataAttribute r a) = labels_of r /\
  label_attribute (setLabelAttribute r a) = a /\ data_attribute (setLabelAttribute r a) = data_attribute r /\ labels_of (setLabelAttribute r a) = labels_of r.
Proof. intros r a. do 8 (split; [reflexivity|]). reflexivity. Qed.
(** What a reader throws is passed on, and only files with labels change the labels. *)
Theorem C135_state : forall f r path text field K L r', read f r path text field K = Ok (L, r') ->
  data_attribute r' = data_attribute r /\ label_attribute r' = label_attribute r /\ (~ path_with "gml" path -> ~ path_with "net" path -> r' = r).
Proof.
  intros f r path text [[extents known] values] K L r' H. unfold read_complex in H.
  destruct (str_eqb (extension path) (chars ".gml")) eqn:E1.
  { apply str_eqb_spec in E1. assert (P : path_with "gml" path) by (apply extension_path; [exact E1|simpl; intuition discriminate|discriminate]). destruct (readGML conv Z.max text) as [[[L' nodes] edges]| | |]; try discriminate. cbn [bind] in H. destruct (gml_labels nodes (label_attribute r)) as [l| | |]; try discriminate. injection H as <- <-. cbn. tauto. }
  destruct (str_eqb (extension path) (chars ".h5")); [destruct (readHDF5 _ _ _ _) as [[L'|]| | |]; try discriminate; injection H as <- <-; tauto|].
  destruct (str_eqb (extension path) (chars ".net")) eqn:E2.
  { apply str_eqb_spec in E2. assert (P : path_with "net" path) by (apply extension_path; [exact E2|simpl; intuition discriminate|discriminate]). destruct (readPajek strict conv text) as [[L' m]| | |]; try discriminate. injection H as <- <-. cbn. tauto. }
  destruct (str_eqb (extension path) (chars ".ply")); [destruct (readPLY _ _ _ _ _ _); try discriminate; injection H as <- <-; tauto|].
  destruct (str_eqb (extension path) (chars ".vtk")); [destruct (readVTK _ _ _) as [[v|]| | |]; try discriminate; injection H as <- <-; tauto|].
  destruct (read_edges _ _ _ _ _ _ _ _) as [[L' m]| | |]; try discriminate. injection H as <- <-. tauto.
Qed.
Theorem C135_functor : forall f g r path text field K, ~ path_with "vtk" path -> read f r path text field K = read g r path text field K.
Proof.
  intros f g r path text field K H. unfold read_complex. destruct (str_eqb (extension path) (chars ".vtk")) eqn:E; [|reflexivity]. exfalso. apply H. apply str_eqb_spec in E. apply extension_path; [exact E|simpl; intuition discriminate|discriminate].
Qed.
End Readers.

(** Meshes, with the chosen attribute as data. *)
Theorem C135_mesh strict conv stod lowest highest vmax f property path field K n m names more header vertices faces ws ts rest :
  let lines := header ++ vertices ++ faces ++ rest in
  path_with "ply" path -> (forall l, In l lines -> ~ In newline l) ->
  ply_header n m names more header -> NoDup names -> Forall2 (vertex_row conv stod property names more) ws vertices -> Forall2 face_row ts faces ->
  n = N.of_nat (length ws) -> m = N.of_nat (length ts) -> ws <> [] -> ts <> [] -> (forall w, In w ws -> (lowest <= w)%Z) -> Forall (proper (length ws)) ts ->
  exists L r, read_complex strict conv stod lowest highest vmax f (setDataAttribute new_reader property) path (text_of lines []) field K = Ok (L, r) /\ mesh_complex ws ts (by_index L) /\ labels_of r = [].
Proof.
  intros lines Hp Hnl Hh Hn Hv Hf En Em Nw Nt Hlow Hts. destruct (C133_read conv stod lowest highest property n m names more header vertices faces ws ts rest Hnl Hh Hn Hv Hf En Em Nw Nt Hlow Hts) as (L & E & HL).
  destruct (C135_formats strict conv stod lowest highest vmax f (setDataAttribute new_reader property) path (text_of lines []) field K) as (_ & _ & H & _). exists L, (setDataAttribute new_reader property). split; [apply (H Hp L E)|]. split; [exact HL|reflexivity].
Qed.

(** ** Examples *)
Definition demo f r path lines field : outcome (list (list nat * Z) * list str) :=
  let* x := read_complex true int_conv int_stod (-1000) 1000 4294967295 f r (chars path) (text_of (map chars lines) []) field k_empty in
  Ok (map (fun s => (verts s, data s)) (by_index (fst x)), labels_of (snd x)).
Definition no_field : list nat * bool * list Z := ([], false, []).
Definition net_file : list string := ["*Vertices 2"; "1 " ++ String """" "" ++ "a" ++ String """" ""; "2 " ++ String """" "" ++ "b" ++ String """" ""; "*Edges"; "1 2 7"]%string.
Example C135_example :
  path_with "net" (chars "data.gml/b.x.net") /\ demo Z.max new_reader "data.gml/b.x.net" net_file no_field = Ok ([([1], 0%Z); ([2], 0%Z); ([2; 1], 7%Z)], [chars "a"; chars "b"]) /\
  plain_path (chars "x/gml") /\ demo Z.max new_reader "x/gml" ["1 2 7"; "# no edge"; " 2 3 5 "]%string no_field = Ok ([([1], 0%Z); ([2], 0%Z); ([2; 1], 7%Z); ([3], 0%Z); ([3; 2], 5%Z)], []) /\
  demo Z.max new_reader "a.h5" [] ([2; 1], true, [4; 9]%Z) = Ok ([([0], 4%Z); ([1], 9%Z); ([1; 0], 9%Z)], []).
Proof.
  refine (conj _ (conj _ (conj _ _))).
  - exists (chars "b.x"). refine (conj _ (conj _ _)); [vm_compute; reflexivity|simpl; intuition discriminate|discriminate].
  - vm_compute. reflexivity.
  - intros e _ H. apply path_extension in H. vm_compute in H. discriminate.
  - vm_compute. auto.
Qed.

(** ** What does not hold *)
(** the functor is documented to assign the data of all higher-dimensional simplices *)
Theorem C135_functor_refuted :
  demo Z.min new_reader "a.h5" [] ([2; 1], true, [4; 9]%Z) = Ok ([([0], 4%Z); ([1], 9%Z); ([1; 0], 9%Z)], []) /\
  forall strict conv stod lowest highest vmax f g r text field K, read_complex strict conv stod lowest highest vmax f r (chars "a.gml") text field K = read_complex strict conv stod lowest highest vmax g r (chars "a.gml") text field K.
Proof.
  split; [vm_compute; reflexivity|]. intros. apply C135_functor. intro H. apply path_extension in H. vm_compute in H. discriminate.
Qed.
(** labels of a file that has been read before remain *)
Theorem C135_labels_refuted : exists K r, read_complex true int_conv int_stod (-1000) 1000 4294967295 Z.max new_reader (chars "a.net") (text_of (map chars net_file) []) no_field k_empty = Ok (K, r) /\
  demo Z.max r "b.txt" ["5 6"]%string no_field = Ok ([([5], 0%Z); ([6], 0%Z); ([6; 5], 0%Z)], [chars "a"; chars "b"]).
Proof. do 2 eexists. split; [vm_compute; reflexivity|vm_compute; reflexivity]. Qed.
(** the label at index 0 need not belong to the vertex 0 *)
Theorem C135_index_refuted : exists K r, read_complex true int_conv int_stod (-1000) 1000 4294967295 Z.max new_reader (chars "a.net") (text_of (map chars net_file) []) no_field k_empty = Ok (K, r) /\
  nth_error (labels_of r) 0 = Some (chars "a") /\ forall s, In s (by_index K) -> ~ In 0 (verts s).
Proof. do 2 eexists. split; [vm_compute; reflexivity|]. split; [reflexivity|]. simpl. intros s H. repeat (destruct H as [<-|H]; [simpl; lia|]). destruct H. Qed.
(** the class is documented to assign consistent weights and to sort the complex *)
Theorem C135_sorted_refuted : exists K r, read_complex true int_conv int_stod (-1000) 1000 4294967295 Z.max new_reader (chars "a.txt") (text_of (map chars ["1 2 -7"; "2 3 5"; "3 4 2"]%string) []) no_field k_empty = Ok (K, r) /\
  ~ monotone (by_index K) /\ ~ StronglySorted (fun s t => data s <= data t)%Z (by_index K).
Proof.
  do 2 eexists. split; [vm_compute; reflexivity|]. split.
  - intro M. specialize (M (Simplex [2; 1] (-7)) (Simplex [1] 0)). cbn [verts data by_index] in M. assert (X : (0 <= -7)%Z); [|lia]. apply M; [simpl; tauto|simpl; tauto|]. intros v [<-|[]]. simpl. tauto.
  - cbn [by_index]. intro S. repeat match goal with H : StronglySorted _ (_ :: _) |- _ => inversion H; clear H; subst end. repeat match goal with H : Forall _ (_ :: _) |- _ => inversion H; clear H; subst end. cbn [data] in *. lia.
Qed.
(** the ending is compared literally *)
Theorem C135_case_refuted : exists K r, read_complex true int_conv int_stod (-1000) 1000 4294967295 Z.max new_reader (chars "a.PLY") (text_of (map chars ["1 2"]%string) []) no_field k_empty = Ok (K, r) /\ map verts (by_index K) = [[1]; [2]; [2; 1]].
Proof. do 2 eexists. split; vm_compute; reflexivity. Qed.
(** a VTK file without the expected header is not reported *)
Theorem C135_silent_refuted strict conv stod lowest highest vmax f r field K : read_complex strict conv stod lowest highest vmax f r (chars "a.vtk") [] field K = Ok (K, r).
Proof. vm_compute. destruct r. reflexivity. Qed.

Print Assumptions C135_formats.
Print Assumptions C135_state.
Print Assumptions C135_functor.
Print Assumptions C135_mesh.
