(** Tensor::shrink and Tensor::expand: include/TAT/shrink_and_expand.hpp.  Both contract the tensor with a helper that has a
    single one.  The configuration is a std::map, given as a list in the order of the map; No_Old_Name and No_New_Name
    (name.hpp:200-231) are None.  Timers and the memory resource are modelled elsewhere. *)
From Coq Require Import String List Bool Arith.
From Verif Require Import Base.Outcome Base.SMap Model.Symmetry Model.Edge Model.Core Model.EdgeOperator Model.Elementwise Model.Contract.
Import ListNotations.
Local Open Scope string_scope.
Local Open Scope list_scope.

Section ShrinkExpand.
  Context {S R : Type} {SS : Sym S} {RR : Scalar R}.
  Variable E : @env R.
  Variable I : internal.

  (** lines 87-90 = 148-151 without the contraction: Tensor(new_names, new_edges), zero(), blocks.begin()->second[offset] = 1;
      neither the existence of a block nor the offset is checked *)
  Definition one_hot (names : list name) (edges : list (edge S)) (offset : nat) : res (tensor S R) :=
    bind (make_tensor (env_junk E) names edges false) (fun h =>
    match t_blocks (transform (fun _ => rzero) h) with
    | [] => UB
    | (k, b) :: rest =>
        bind (get_or_ub (update b offset rone)) (fun b' =>
        Ok (mkTensor (t_names h) (mkCore (t_edges h) ((k, b') :: rest))))
    end).

  (** Tensor::contract_all_edge, tensor.hpp:591-599.  The std::set of pairs is ordered by name, here the pairs are in the order of the
      names; contract looks pairs up by name. *)
  Definition contract_all_edge (t other : tensor S R) : res (tensor S R) :=
    contract E I t other (map (fun n => (n, n)) (t_names t)).

  (** total_offset *= dimension; total_offset += index: lines 49-50, 54-55, 59-60, 120-121 *)
  Definition offset_step (offset dimension index : nat) : nat := offset * dimension + index.

  (** Tensor::expand, lines 28-92.  A configured edge: (name, (arrow, (symmetry, (index, dimension)))); NoSymmetry has no symmetry
      and takes Symmetry(), arrow is false but for fermi symmetries.  total_symmetry is initialised (line 45) and never changed. *)
  Definition expand_edge (x : name * (bool * (S * (nat * nat)))) : edge S :=
    let '(_, (arrow, (s, (_, d)))) := x in
    mkEdge (if is_fermi then arrow else false) [(if is_nosym then szero else s, d)].
  Definition expand_offset (cfg : list (name * (bool * (S * (nat * nat))))) : nat :=
    fold_left (fun o x => let '(_, (_, (_, (i, d)))) := x in offset_step o d i) cfg 0.
  Definition expand (t : tensor S R) (cfg : list (name * (bool * (S * (nat * nat))))) (old_name : option name) : res (tensor S R) :=
    let total_symmetry := szero in
    bind (match old_name with
          | Some old =>
              bind (at_or_throw (mfind old (combine (t_names t) (t_edges t)))) (fun e =>
              match emap e with
              | [(s, 1)] =>
                  if negb is_nosym && negb (eqb s total_symmetry)
                  then tat_error "Cannot Expand to such Edges whose total Symmetry is not Compatible with origin Edge"
                  else Ok ([old], [mkEdge (if is_fermi then negb (earrow e) else false) [(if is_nosym then szero else sneg total_symmetry, 1)]])
              | _ => tat_error "Cannot Expand a Edge which dimension is not one"
              end)
          | None =>
              if negb is_nosym && negb (eqb total_symmetry szero)
              then tat_error "Cannot Expand to such Edges whose total Symmetry is not zero"
              else Ok ([], [])
          end) (fun tail =>
    bind (one_hot (map fst cfg ++ fst tail) (map expand_edge cfg ++ snd tail) (expand_offset cfg)) (fun h =>
    contract_all_edge h t)).

  (** Tensor::shrink, lines 94-153.  The loop over the names of the tensor, lines 108-131; a configured index: (name, (symmetry, index));
      for NoSymmetry the symmetry is Symmetry() and the configuration's is not used *)
  Definition shrink_step (cfg : list (name * (S * nat))) (st : (S * nat) * list (name * edge S)) (leg : name * edge S) :
      res ((S * nat) * list (name * edge S)) :=
    match mfind (fst leg) cfg with
    | None => Ok st
    | Some (sym, index) =>
        let s := if is_nosym then szero else sym in
        let '((total, offset), acc) := st in
        bind (at_or_throw (mfind s (emap (snd leg)))) (fun d =>
        Ok ((if is_nosym then total else sadd total s, offset_step offset d index),
            acc ++ [(fst leg, mkEdge (if is_fermi then negb (earrow (snd leg)) else false) [(sneg s, d)])]))
    end.
  Definition shrink (t : tensor S R) (cfg : list (name * (S * nat))) (new_name : option name) (arrow : bool) : res (tensor S R) :=
    bind (foldM (shrink_step cfg) (combine (t_names t) (t_edges t)) ((szero, 0), [])) (fun st =>
    let '((total, offset), legs) := st in
    bind (match new_name with
          | Some new => Ok [(new, mkEdge (if is_fermi then arrow else false) [(total, 1)])]
          | None =>
              if negb is_nosym && negb (eqb total szero)
              then tat_error "Need to Create a New Edge but Name not set in Slice"
              else Ok []
          end) (fun tail =>
    bind (one_hot (map fst (legs ++ tail)) (map snd (legs ++ tail)) offset) (fun h =>
    contract_all_edge h t))).
End ShrinkExpand.
