(** * Model of [geometry/CoverTree.hh].

    The metric is a function to the rational numbers; [std::pow( 2.0, level )] is exact.
    A pointer to a node is represented by the path from the root, i.e. by the indices of
    children.  The messages to [std::cerr] are left out, except that one of them
    dereferences a pointer. *)
From Coq Require Import List Arith Bool ZArith QArith Qround.
From Verif Require Import Base.
Import ListNotations.
Local Open Scope nat_scope.

Section CoverTree.
  Context {P : Type}.
  Variable dist : P -> P -> Q.

  (** 52-59, 236-247 *)
  Inductive node := Node (point : P) (level : Z) (children : list node).
  Definition n_point (n : node) : P := let '(Node p _ _) := n in p.
  Definition n_level (n : node) : Z := let '(Node _ l _) := n in l.
  Definition n_children (n : node) : list node := let '(Node _ _ cs) := n in cs.

  (** 61-77, 755-763 *)
  Definition coveringDistance_at (level : Z) : Q := Qpower 2 level.
  Definition coveringDistance (n : node) : Q := coveringDistance_at (n_level n).
  Definition separatingDistance (n : node) : Q := Qpower 2 (n_level n - 1).
  Definition isLeaf (n : node) : bool := match n_children n with [] => true | _ => false end.

  Fixpoint n_size (n : node) : nat := let '(Node _ _ cs) := n in S (list_sum (map n_size cs)).

  (** 115-130: the [break] leaves the inner loop only *)
  Fixpoint scan_children (path : list nat) (i : nat) (children : list node) (stack : list (list nat * node)) (leaf : option (list nat))
    : list (list nat * node) * option (list nat) :=
    match children with
    | [] => (stack, leaf)
    | child :: rest =>
        if isLeaf child then (stack, Some (path ++ [i]))
        else scan_children path (S i) rest ((path ++ [i], child) :: stack) leaf
    end.
  Fixpoint find_leaf (fuel : nat) (stack : list (list nat * node)) (leaf : option (list nat)) : outcome (option (list nat)) :=
    match stack with
    | [] => Ok leaf
    | (path, n) :: stack =>
        match fuel with
        | 0 => OutOfFuel
        | S fuel => let '(stack, leaf) := scan_children path 0 (n_children n) stack leaf in find_leaf fuel stack leaf
        end
    end.

  (** 144-171: the node is removed from the children of its parent *)
  Fixpoint remove_at (path : list nat) (n : node) : option (P * node) :=
    let '(Node p l cs) := n in
    match path with
    | [] => None
    | i :: path =>
        match nth_error cs i with
        | None => None
        | Some c =>
            match path with
            | [] => Some (n_point c, Node p l (firstn i cs ++ skipn (S i) cs))
            | _ => match remove_at path c with
                   | Some (x, c') => Some (x, Node p l (upd cs i c'))
                   | None => None
                   end
            end
        end
    end.

  (** 95-196: a leaf becomes the new root.  The message in line 132 dereferences the leaf. *)
  Definition raise_leaf (n : node) : outcome node :=
    let* leaf := find_leaf (n_size n) [([], n)] None in
    match leaf with
    | None => UB
    | Some path =>
        match remove_at path n with
        | None => UB
        | Some (x, oldRoot) => Ok (Node x (n_level n + 1) [oldRoot])
        end
    end.

  (** 91-197 *)
  Fixpoint raise_loop (fuel : nat) (p : P) (n : node) (d : Q) : outcome node :=
    if Qle_bool d (2 * coveringDistance n)%Q then Ok n
    else
      match fuel with
      | 0 => OutOfFuel
      | S fuel =>
          if isLeaf n then raise_loop fuel p (Node (n_point n) (n_level n + 1) (n_children n)) d
          else
            let* n := raise_leaf n in
            raise_loop fuel p n (dist (n_point n) p)
      end.

  Fixpoint n_points (n : node) : list P := let '(Node p _ cs) := n in p :: flat_map n_points cs.
  (** enough iterations: the covering distance doubles *)
  Definition raise_fuel (p : P) (n : node) : nat :=
    list_max (map (fun q => Z.to_nat (Qceiling (dist q p / (2 * coveringDistance n))%Q)) (n_points n)).

  (** 222-247 *)
  Fixpoint insert_ (p : P) (n : node) : node :=
    let '(Node q l cs) := n in
    Node q l ((fix go (cs : list node) : list node :=
      match cs with
      | [] => [Node p (l - 1) []]
      | c :: cs => if Qle_bool (dist (n_point c) p) (coveringDistance c) then insert_ p c :: cs else c :: go cs
      end) cs).

  (** 79-215 *)
  Definition node_insert (p : P) (n : node) : outcome node :=
    let d := dist (n_point n) p in
    if Qle_bool d (coveringDistance n) then Ok (insert_ p n)
    else
      let* n := raise_loop (raise_fuel p n) p n d in
      Ok (Node p (n_level n + 1) [n]).

  (** 260-288; [None] is the null pointer *)
  Definition tree := option node.
  Definition ct_insert (t : tree) (p : P) : outcome tree :=
    match t with
    | None => Ok (Some (Node p 0 []))
    | Some n => let* n := node_insert p n in Ok (Some n)
    end.
  Definition ct_insert_range (t : tree) (l : list P) : outcome tree := foldM ct_insert l t.

  (** 336-355, 397-417: the queue contains one level of the tree at the beginning of the
      outer loop, and the next one at its end; a null pointer is dereferenced *)
  Fixpoint layers (fuel : nat) (queue : list node) : outcome (list (list node)) :=
    match queue with
    | [] => Ok []
    | _ => match fuel with
           | 0 => OutOfFuel
           | S fuel => let* r := layers fuel (flat_map n_children queue) in Ok (queue :: r)
           end
    end.
  Definition ct_layers (t : tree) : outcome (list (list node)) := match t with None => UB | Some n => layers (n_size n) [n] end.
  Definition ct_points (t : tree) : outcome (list P) := let* ls := ct_layers t in Ok (map n_point (concat ls)).

  (** [std::multimap]: a new entry is inserted after those with the same key *)
  Fixpoint multimap_insert (q : Z * P) (m : list (Z * P)) : list (Z * P) :=
    match m with
    | [] => [q]
    | r :: m' => if (fst q <? fst r)%Z then q :: m else r :: multimap_insert q m'
    end.
  Definition getNodesByLevel (t : tree) : outcome (list (Z * P)) :=
    let* ls := ct_layers t in Ok (fold_left (fun m n => multimap_insert (n_level n, n_point n) m) (concat ls) []).

  (** 426-432 *)
  Definition ct_level (t : tree) : Z := match t with None => 0 | Some n => n_level n end.

  (** 445-473 *)
  Fixpoint check_levels (level : Z) (ls : list (list node)) : bool :=
    match ls with
    | [] => true
    | l :: ls => forallb (fun n => (n_level n =? level - 1)%Z) l && check_levels (level - 1) ls
    end.
  Definition checkLevelInvariant (t : tree) : outcome bool :=
    let* ls := ct_layers t in Ok (check_levels (ct_level t + 1) ls).

  (** 481-517 *)
  Definition checkCoveringInvariant (t : tree) : outcome bool :=
    let* ls := ct_layers t in
    Ok (forallb (fun n => forallb (fun c => Qle_bool (dist (n_point n) (n_point c)) (coveringDistance n)) (n_children n)) (concat ls)).

  (** 525-573 *)
  Fixpoint separated (n : node) (cs : list node) : bool :=
    match cs with
    | [] => true
    | c :: cs => forallb (fun c' => negb (Qle_bool (dist (n_point c) (n_point c')) (separatingDistance n))) cs && separated n cs
    end.
  Definition checkSeparatingInvariant (t : tree) : outcome bool :=
    let* ls := ct_layers t in Ok (forallb (fun n => separated n (n_children n)) (concat ls)).

  (** 581-586 *)
  Definition ct_isValid (t : tree) : outcome bool :=
    let* a := checkLevelInvariant t in
    if a then
      let* b := checkCoveringInvariant t in
      if b then checkSeparatingInvariant t else Ok false
    else Ok false.

  (** ** 597-700: [isHarmonic] *)

  (** 602-639: the distances, and the last node *)
  Fixpoint harmonic_path (p : P) (n : node) : list Q * node :=
    let '(Node q l cs) := n in
    let d := dist p q in
    let here := if Qle_bool d (coveringDistance n) then [d] else [] in
    let '(ds, last) := (fix go (cs' : list node) : list Q * node :=
      match cs' with
      | [] => ([], n)
      | c :: cs' => if Qle_bool (dist p (n_point c)) (coveringDistance c) then harmonic_path p c else go cs'
      end) cs in
    (here ++ ds, last).
  (** 641-644: [std::is_sorted] with [std::less_equal] on the reversed sequence *)
  Fixpoint is_sorted_le (l : list Q) : bool :=
    match l with
    | a :: (b :: _) as l' => negb (Qle_bool b a) && is_sorted_le l'
    | _ => true
    end.
  (** 656-661 *)
  Fixpoint lower_level (fuel : nat) (d : Q) (l : Z) : outcome Z :=
    if Qle_bool d (coveringDistance_at l) then match fuel with 0 => OutOfFuel | S fuel => lower_level fuel d (l - 1) end
    else Ok l.
  Definition max_element (ds : list Q) : Q := fold_left (fun a b => if Qle_bool b a then a else b) (tl ds) (hd 0%Q ds).

  Variable peqb : P -> P -> bool.
  (** [sort]: the permutation by which [std::sort] arranges the points by descending distance to the new root.
      The loop that lowers the level may not terminate, hence the argument [fuel]. *)
  Definition isHarmonic (fuel : nat) (sort : P -> list P -> list P) (t : tree) (p : P) : outcome (bool * tree) :=
    match t with
    | None => Ok (true, None)
    | Some n =>
        let '(distances, current) := harmonic_path p n in
        let harmonic := is_sorted_le (rev distances) in
        if 2 <=? length distances then
          let* l := lower_level fuel (max_element distances) (ct_level t) in
          let l := (l + 1)%Z in
          if (l <? ct_level t)%Z then
            let* all := ct_points t in
            let rest := filter (fun x => negb (peqb x (n_point current))) all in
            let* t := ct_insert_range (Some (Node (n_point current) l [])) (sort (n_point current) rest) in
            Ok (harmonic, t)
          else Ok (harmonic, t)
        else Ok (harmonic, t)
    end.
End CoverTree.
Arguments node : clear implicits.
Arguments tree : clear implicits.
