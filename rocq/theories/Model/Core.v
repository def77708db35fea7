(** Core and Tensor: include/TAT/core.hpp, include/TAT/tensor.hpp, include/TAT/name.hpp, include/TAT/get_item.hpp. *)
From Coq Require Import String List Bool ZArith.
From Verif Require Import Base.Outcome Base.SMap Model.Symmetry Model.Edge.
Import ListNotations.

(** Scalar operations used by the tensor code. *)
Class Scalar (R : Type) : Type := {
  rzero : R; rone : R; radd : R -> R -> R; rmul : R -> R -> R; ropp : R -> R;
  rsub : R -> R -> R; rdiv : R -> R -> R; rconj : R -> R }.

Notation name := nat (only parsing).

(** Core, core.hpp:108-179: edges and a map from charge tuples to block data *)
Record core (S R : Type) : Type := mkCore { c_edges : list (edge S); c_blocks : list (list S * list R) }.
Arguments mkCore {S R}.
Arguments c_edges {S R}.
Arguments c_blocks {S R}.

(** Tensor, tensor.hpp:120-160.  name_to_index is recomputed from names where needed. *)
Record tensor (S R : Type) : Type := mkTensor { t_names : list name; t_core : core S R }.
Arguments mkTensor {S R}.
Arguments t_names {S R}.
Arguments t_core {S R}.
Definition t_edges {S R : Type} (t : tensor S R) := c_edges (t_core t).
Definition t_blocks {S R : Type} (t : tensor S R) := c_blocks (t_core t).

(** construct_name_to_index, name.hpp:244-251 *)
Definition construct_name_to_index (names : list name) : list (name * nat) :=
  of_list (combine names (seq 0 (length names))).

(** check_valid_name, name.hpp:253-268 *)
Fixpoint has_dup (l : list name) : bool :=
  match l with
  | [] => false
  | a :: l' => existsb (Nat.eqb a) l' || has_dup l'
  end.
Definition check_valid_name (names : list name) (rank : nat) : res unit :=
  if negb (Nat.eqb (length names) rank)
  then tat_error "Wrong name list length which no equals to expected length"
  else if has_dup names then tat_error "Duplicated names in name list"
  else Ok tt.

Section Core.
  Context {S R : Type} {SS : Sym S} {RR : Scalar R}.
  (** value of freshly allocated, uninitialised cells: core.hpp:38-98 (allocator_without_initialize).
      Theorems hold for every value of [junk]. *)
  Variable junk : R.

  (** edges[i].map after core.hpp:148-170: the charges not used by any block are erased.
      The marking pass and the erasing pass are merged into one filter. *)
  Definition used_in (blocks : list (list S * list R)) (i : nat) (s : S) : bool :=
    existsb (fun kb => match nth_error (fst kb) i with Some s' => eqb s' s | None => false end) blocks.
  Fixpoint prune_from (blocks : list (list S * list R)) (i : nat) (edges : list (edge S)) : list (edge S) :=
    match edges with
    | [] => []
    | e :: es => mkEdge (earrow e) (filter (fun sd => used_in blocks i (fst sd)) (emap e))
                 :: prune_from blocks (1 + i) es
    end.

  (** Core::Core, core.hpp:137-171 *)
  Definition make_core (initial_edges : list (edge S)) (auto_reverse : bool) : res (core S R) :=
    let edges := if is_fermi && auto_reverse then map possible_reverse initial_edges else initial_edges in
    bind (initialize_block_symmetries (map emap edges)) (fun symmetries_list =>
    let blocks := of_list (map (fun ks => (fst ks, repeat junk (snd ks))) symmetries_list) in
    Ok (mkCore (prune_from blocks 0 edges) blocks)).

  (** Tensor::Tensor(names, edges, auto_reverse), tensor.hpp:161-167 *)
  Definition make_tensor (names : list name) (edges : list (edge S)) (auto_reverse : bool) : res (tensor S R) :=
    bind (make_core edges auto_reverse) (fun c =>
    bind (check_valid_name names (length (c_edges c))) (fun _ =>
    Ok (mkTensor names c))).

  (** Tensor::same_shape, tensor.hpp:258-260 *)
  Definition same_shape (t : tensor S R) : res (tensor S R) :=
    make_tensor (t_names t) (t_edges t) false.

  (** Tensor::transform, tensor.hpp:284-293 (value semantics; sharing is modelled in Model/Cow.v) *)
  Definition transform (f : R -> R) (t : tensor S R) : tensor S R :=
    mkTensor (t_names t)
      (mkCore (t_edges t) (map (fun kb => (fst kb, map f (snd kb))) (t_blocks t))).

  (** Tensor::zero, tensor.hpp:322-324 *)
  Definition zero_tensor (t : tensor S R) : tensor S R := transform (fun _ => rzero) t.

  (** Tensor::map, tensor.hpp:268-275: same_shape, then std::transform block by block into blocks.at(key) *)
  Definition map_tensor (f : R -> R) (t : tensor S R) : res (tensor S R) :=
    bind (same_shape t) (fun r =>
    bind (foldM (fun blocks kb =>
            bind (at_or_throw (mfind (fst kb) blocks)) (fun dst =>
            if Nat.ltb (length dst) (length (snd kb)) then UB
            else Ok (mset (fst kb) (map f (snd kb) ++ skipn (length (snd kb)) dst) blocks)))
          (t_blocks t) (t_blocks r)) (fun blocks =>
    Ok (mkTensor (t_names r) (mkCore (t_edges r) blocks)))).

  (** a coordinate: for each name a charge and an index (EdgePoint, tensor.hpp:235; for NoSymmetry the charge is tt) *)
  Definition position : Type := list (name * (S * nat)).

  (** offset accumulation loop, get_item.hpp:59-62, 90-93 *)
  Definition row_major (dims idx : list nat) : nat :=
    fold_left (fun acc di => acc * fst di + snd di) (combine dims idx) 0.

  (** get_block_and_offset_for_get_item, get_item.hpp:66-95, and for NoSymmetry get_offset_for_get_item,
      get_item.hpp:43-64 (which takes the dimension from map.begin()). *)
  Definition get_block_and_offset (pos : position) (names : list name) (c : core S R) : res (list S * nat) :=
    bind (mapM (fun ne =>
            match mfind (fst ne) pos with
            | None => tat_error "Name not found in position map when finding block and offset"
            | Some (s, i) =>
                bind (if is_nosym
                      then get_or_ub (option_map snd (hd_error (emap (snd ne))))
                      else at_or_throw (mfind s (emap (snd ne)))) (fun d => Ok (s, i, d))
            end) (combine names (c_edges c))) (fun l =>
    Ok (map (fun x => fst (fst x)) l, row_major (map snd l) (map (fun x => snd (fst x)) l))).

  (** the block addressed: core->blocks.begin()->second for NoSymmetry (get_item.hpp:127), blocks.at(symmetry) otherwise *)
  Definition find_block (c : core S R) (symmetries : list S) : res (list R) :=
    if is_nosym then get_or_ub (option_map snd (hd_error (c_blocks c)))
    else at_or_throw (mfind symmetries (c_blocks c)).

  (** Tensor::const_at, get_item.hpp:122-132 *)
  Definition const_at (t : tensor S R) (pos : position) : res R :=
    bind (get_block_and_offset pos (t_names t) (t_core t)) (fun so =>
    bind (find_block (t_core t) (fst so)) (fun b =>
    get_or_ub (nth_error b (snd so)))).

  (** vector[i] = v on block data *)
  Fixpoint update (l : list R) (i : nat) (v : R) : option (list R) :=
    match l, i with
    | [], _ => None
    | _ :: l', O => Some (v :: l')
    | a :: l', Datatypes.S i' => match update l' i' v with Some l'' => Some (a :: l'') | None => None end
    end.

  (** t.at(pos) = v, get_item.hpp:134-150 *)
  Definition set_at (t : tensor S R) (pos : position) (v : R) : res (tensor S R) :=
    bind (get_block_and_offset pos (t_names t) (t_core t)) (fun so =>
    bind (find_block (t_core t) (fst so)) (fun b =>
    bind (get_or_ub (update b (snd so) v)) (fun b' =>
    let key := if is_nosym then match t_blocks t with kb :: _ => fst kb | [] => fst so end else fst so in
    Ok (mkTensor (t_names t) (mkCore (t_edges t) (mset key b' (t_blocks t))))))).
End Core.
