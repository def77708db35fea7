(** C24: shrink and expand of plain tensors.  C25: of symmetric ones. *)
From Coq Require Import String List Bool Arith ZArith.
From Verif Require Import Base.Outcome Base.SMap Model.Symmetry Model.Edge Model.Core Model.EdgeOperator Model.Contract Model.ShrinkExpand
  Spec.Blocks Spec.Relabel Spec.Contract Proof.SymmetryFacts Proof.CoreFacts Proof.ElemFacts Proof.ScalarZ Proof.ExTensors
  Proof.ShrinkFacts Proof.ExpandFacts Proof.ShrinkCharges.
Import ListNotations.

(** ** C24.  The elements of the result are those of t with the configured edges held fixed.  Configured names t does not have are
    ignored.  With a new name there is one more edge, of dimension one, in front. *)
Theorem C24_shrink_selects :
  forall (S R : Type) (SS : Sym S) (SL : SymLaws S) (RR : Scalar R) (E : @env R) (I : internal), @is_fermi S SS = false -> exact_arithmetic R ->
  @is_nosym S SS = true -> NoDup [i_contract_0 I; i_contract_1 I; i_contract_2 I] ->
  forall (t : tensor S R) cfg new arrow, wf_tensor t -> t_blocks t <> [] -> (forall n, new = Some n -> ~ In n (t_names t)) ->
  (forall n s i, In (n, (s, i)) cfg -> In n (t_names t) -> exists k, In (s, k) (emap (edge_named (legs_of t) n)) /\ i < k) ->
  exists r, shrink E I t cfg new arrow = Ok r /\ wf_tensor r /\ t_blocks r <> [] /\ t_names r = olist new ++ free_names (t_names t) (map fst cfg) /\
    t_edges r = map (fun _ => mkEdge false [(szero, 1)]) (olist new) ++ map (edge_named (legs_of t)) (free_names (t_names t) (map fst cfg)) /\
    forall pos pt, assigns pos (t_names r) pt -> valid_pt (t_core r) pt -> const_at r pos = const_at t (cfg ++ pos).
Proof. exact @shrink_plain. Qed.
Print Assumptions C24_shrink_selects.
(** a configured edge of expand is (name, (arrow, (charge, (index, dimension)))); the old edge, if given, is replaced *)
Theorem C24_expand_places :
  forall (S R : Type) (SS : Sym S) (SL : SymLaws S) (RR : Scalar R) (E : @env R) (I : internal), @is_fermi S SS = false -> exact_arithmetic R ->
  @is_nosym S SS = true -> NoDup [i_contract_0 I; i_contract_1 I; i_contract_2 I] ->
  forall (t : tensor S R) cfg old, wf_tensor t -> t_blocks t <> [] -> NoDup (map fst cfg) -> (forall n, In n (map fst cfg) -> ~ In n (t_names t)) ->
  (forall x, In x cfg -> x_index x < x_dim x) ->
  (forall o, old = Some o -> In o (t_names t) /\ In (szero, 1) (emap (edge_named (legs_of t) o))) ->
  exists r, expand E I t cfg old = Ok r /\ wf_tensor r /\ t_blocks r <> [] /\ t_names r = map fst cfg ++ free_names (t_names t) (olist old) /\
    t_edges r = map (fun x => mkEdge false [(szero, x_dim x)]) cfg ++ map (edge_named (legs_of t)) (free_names (t_names t) (olist old)) /\
    forall pos pt, assigns pos (t_names r) pt -> valid_pt (t_core r) pt ->
      const_at r pos = if forallb (fun x => snd (coord pos (fst x)) =? x_index x) cfg then const_at t (map (fun o => (o, (szero, 0))) (olist old) ++ pos) else Ok rzero.
Proof. exact @expand_plain. Qed.
Print Assumptions C24_expand_places.
(** without an old edge the result has the names, the edges and the elements of t *)
Theorem C24_round_trip :
  forall (S R : Type) (SS : Sym S) (SL : SymLaws S) (RR : Scalar R) (E : @env R) (I : internal), @is_fermi S SS = false -> exact_arithmetic R ->
  @is_nosym S SS = true -> NoDup [i_contract_0 I; i_contract_1 I; i_contract_2 I] ->
  forall (t : tensor S R) cfg old arrow, wf_tensor t -> t_blocks t <> [] -> NoDup (map fst cfg) -> (forall n, In n (map fst cfg) -> ~ In n (t_names t)) ->
  (forall x, In x cfg -> x_index x < x_dim x) ->
  (forall o, old = Some o -> In o (t_names t) /\ In (szero, 1) (emap (edge_named (legs_of t) o))) ->
  exists r, bind (expand E I t cfg old) (fun e => shrink E I e (map (fun x => (fst x, (x_charge x, x_index x))) cfg) old arrow) = Ok r /\ wf_tensor r /\
    t_names r = olist old ++ free_names (t_names t) (olist old) /\
    t_edges r = map (fun _ => mkEdge false [(szero, 1)]) (olist old) ++ map (edge_named (legs_of t)) (free_names (t_names t) (olist old)) /\
    forall pos pt, assigns pos (t_names r) pt -> valid_pt (t_core r) pt -> const_at r pos = const_at t pos.
Proof. exact @round_trip. Qed.
Print Assumptions C24_round_trip.

Definition ixI : internal := mkInternal 101 102 103 104 105 106.
Definition px (d : nat) : edge unit := mkEdge false [(tt, d)].
Definition x24 : tensor unit Z := range_tensor [1; 2; 3; 4] [px 2; px 3; px 2; px 1].
Example C24_example : exact_arithmetic Z /\ NoDup [i_contract_0 ixI; i_contract_1 ixI; i_contract_2 ixI] /\ wf_tensor x24 /\ t_blocks x24 <> [] /\
  let cfg := [(1, (tt, 1)); (3, (tt, 0)); (8, (tt, 5))] in
  (forall n s i, In (n, (s, i)) cfg -> In n (t_names x24) -> exists k, In (s, k) (emap (edge_named (legs_of x24) n)) /\ i < k) /\
  bind (shrink exE ixI x24 cfg (Some 9) false) (fun r => const_at r [(9, (tt, 0)); (2, (tt, 2)); (4, (tt, 0))]) = Ok 11%Z /\
  const_at x24 [(1, (tt, 1)); (2, (tt, 2)); (3, (tt, 0)); (4, (tt, 0))] = Ok 11%Z /\
  let ecfg := [(5, (false, (tt, (1, 3)))); (6, (false, (tt, (0, 2))))] in
  bind (expand exE ixI x24 ecfg (Some 4)) (fun r => const_at r [(5, (tt, 1)); (6, (tt, 0)); (1, (tt, 1)); (2, (tt, 2)); (3, (tt, 0))]) = Ok 11%Z /\
  bind (expand exE ixI x24 ecfg (Some 4)) (fun r => const_at r [(5, (tt, 2)); (6, (tt, 0)); (1, (tt, 1)); (2, (tt, 2)); (3, (tt, 0))]) = Ok 0%Z.
Proof.
  split; [exact exact_Z|]. split; [repeat constructor; simpl; intuition discriminate|]. split; [now apply range_wf|]. split; [discriminate|]. cbv zeta.
  split; [|repeat split; vm_compute; reflexivity].
  intros n s i [H|[H|[H|[]]]] Hn; injection H as <- <- <-; [exists 2; split; [now left|auto]|exists 2; split; [now left|auto]|].
  exfalso. simpl in Hn. intuition discriminate.
Qed.
(** indices are not checked against the dimensions: asking for row 0, column 3 of a 2 by 3 tensor gives row 1, column 0 *)
Theorem C24_unchecked_index :
  let t := range_tensor [1; 2] [px 2; px 3] in
  bind (shrink exE ixI t [(1, (tt, 0)); (2, (tt, 3))] None false) (fun r => const_at r []) = const_at t [(1, (tt, 1)); (2, (tt, 0))].
Proof. exact unchecked_index. Qed.
Print Assumptions C24_unchecked_index.

(** ** C25.  The full statement is false.  Whatever the tensor, expanding an edge of non-zero charge is refused ... *)
Theorem C25_charged_edge_refused :
  forall (S R : Type) (SS : Sym S) (SL : SymLaws S) (RR : Scalar R) (E : @env R) (I : internal), @is_nosym S SS = false ->
  forall (t : tensor S R) cfg o s, wf_tensor t -> In o (t_names t) -> emap (edge_named (legs_of t) o) = [(s, 1)] -> s <> szero ->
  expand E I t cfg (Some o) = tat_error "Cannot Expand to such Edges whose total Symmetry is not Compatible with origin Edge"%string.
Proof. exact @charged_edge. Qed.
Print Assumptions C25_charged_edge_refused.
(** ... so a slice of non-zero charge cannot be put back *)
Theorem C25_refuted : ~ forall (E : @env Z) (I : internal) (t r : tensor Z Z) n s i d new,
  NoDup [i_contract_0 I; i_contract_1 I; i_contract_2 I; new] -> wf_tensor t -> In (s, d) (emap (edge_named (legs_of t) n)) -> i < d ->
  shrink E I t [(n, (s, i))] (Some new) false = Ok r ->
  exists e, expand E I r [(n, (false, (s, (i, d))))] (Some new) = Ok e.
Proof. exact no_way_back. Qed.
Print Assumptions C25_refuted.
(** without an old edge, charges that do not add up to zero are not refused: the helper has no block and its first block is written *)
Theorem C25_no_block :
  forall (S R : Type) (SS : Sym S) (SL : SymLaws S) (RR : Scalar R) (E : @env R) (I : internal), @is_fermi S SS = false ->
  forall (t : tensor S R) cfg old, wf_tensor t -> NoDup (map fst cfg) -> (forall n, In n (map fst cfg) -> ~ In n (t_names t)) ->
  (forall o, old = Some o -> In o (t_names t) /\ emap (edge_named (legs_of t) o) = [(szero, 1)]) ->
  ssum (map (fun x => x_charge x) cfg) <> szero -> expand E I t cfg old = UB.
Proof. exact @expand_no_block. Qed.
Print Assumptions C25_no_block.
(** shrinking an edge that has several charges fails, even to a charge and index the edge has *)
Theorem C25_shrink_several_charges_refuted : ~ forall (E : @env Z) (I : internal) (t : tensor Z Z) n s i d new,
  NoDup [i_contract_0 I; i_contract_1 I; i_contract_2 I; new] -> wf_tensor t -> In (s, d) (emap (edge_named (legs_of t) n)) -> i < d -> ~ In new (t_names t) ->
  exists r, shrink E I t [(n, (s, i))] (Some new) false = Ok r.
Proof. exact several_charges. Qed.
Print Assumptions C25_shrink_several_charges_refuted.
(** what holds: fixed edges with a single charge (one of them, or any number for Z2), the slice has the elements of t; *)
Theorem C25_shrink_selects_partial :
  forall (S R : Type) (SS : Sym S) (SL : SymLaws S) (RR : Scalar R) (E : @env R) (I : internal), @is_fermi S SS = false -> exact_arithmetic R ->
  @is_nosym S SS = false -> i_contract_1 I <> i_contract_2 I ->
  forall (t : tensor S R) cfg new arrow, wf_tensor t -> (forall n, new = Some n -> ~ In n (t_names t)) ->
  (forall n s i, In (n, (s, i)) cfg -> In n (t_names t) -> exists k, emap (edge_named (legs_of t) n) = [(s, k)] /\ i < k) ->
  let fixed := filter (fun n => member n (map fst cfg)) (t_names t) in
  let charge := ssum (map (fun n => fst (coord cfg n)) fixed) in
  (new = None -> charge = szero) -> length fixed <= 1 \/ (forall s : S, sneg s = s) ->
  exists r, shrink E I t cfg new arrow = Ok r /\ wf_tensor r /\ t_names r = olist new ++ free_names (t_names t) (map fst cfg) /\
    (forall pt, valid_pt (t_core r) pt <-> in_range (map (fun _ => [(charge, 1)]) (olist new) ++ map (fun n => emap (edge_named (legs_of t) n)) (free_names (t_names t) (map fst cfg))) pt /\ ssum (map fst pt) = szero) /\
    forall pos pt, assigns pos (t_names r) pt -> valid_pt (t_core r) pt -> const_at r pos = const_at t (cfg ++ pos).
Proof. exact @shrink_sym. Qed.
Print Assumptions C25_shrink_selects_partial.
(** and new edges whose charges add up to zero are added in place of an edge of charge zero, or of none *)
Theorem C25_expand_places_partial :
  forall (S R : Type) (SS : Sym S) (SL : SymLaws S) (RR : Scalar R) (E : @env R) (I : internal), @is_fermi S SS = false -> exact_arithmetic R ->
  @is_nosym S SS = false -> i_contract_1 I <> i_contract_2 I ->
  forall (t : tensor S R) cfg old, wf_tensor t -> NoDup (map fst cfg) -> (forall n, In n (map fst cfg) -> ~ In n (t_names t)) ->
  (forall x, In x cfg -> x_index x < x_dim x) ->
  (forall o, old = Some o -> In o (t_names t) /\ emap (edge_named (legs_of t) o) = [(szero, 1)]) ->
  ssum (map (fun x => x_charge x) cfg) = szero ->
  exists r, expand E I t cfg old = Ok r /\ wf_tensor r /\ t_names r = map fst cfg ++ free_names (t_names t) (olist old) /\
    (forall pt, valid_pt (t_core r) pt <-> in_range (map (fun x => [(x_charge x, x_dim x)]) cfg ++ map (fun n => emap (edge_named (legs_of t) n)) (free_names (t_names t) (olist old))) pt /\ ssum (map fst pt) = szero) /\
    forall pos pt, assigns pos (t_names r) pt -> valid_pt (t_core r) pt ->
      const_at r pos = if forallb (fun x => snd (coord pos (fst x)) =? x_index x) cfg then const_at t (map (fun o => (o, (szero, 0))) (olist old) ++ pos) else Ok rzero.
Proof. exact @expand_sym. Qed.
Print Assumptions C25_expand_places_partial.

Definition ux (l : list (Z * nat)) : edge Z := mkEdge false l.
Definition x25 : tensor Z Z := range_tensor [1; 2; 3] [ux [(1%Z, 3)]; ux [((-1)%Z, 2); (0%Z, 1)]; ux [((-1)%Z, 2); (0%Z, 2)]].
Example C25_example : wf_tensor x25 /\ t_blocks x25 <> [] /\
  emap (edge_named (legs_of x25) 1) = [(1%Z, 3)] /\
  bind (shrink exE ixI x25 [(1, (1%Z, 2))] (Some 9) false) (fun r => const_at r [(9, (1%Z, 0)); (2, (0%Z, 0)); (3, ((-1)%Z, 1))]) =
    const_at x25 [(1, (1%Z, 2)); (2, (0%Z, 0)); (3, ((-1)%Z, 1))] /\
  let cfg := [(5, (false, (1%Z, (1, 3)))); (6, (false, ((-1)%Z, (0, 2))))] in
  ssum (map (fun x => x_charge x) cfg) = 0%Z /\
  let pos i := [(5, (1%Z, i)); (6, ((-1)%Z, 0)); (1, (1%Z, 2)); (2, (0%Z, 0)); (3, ((-1)%Z, 1))] in
  bind (expand exE ixI x25 cfg None) (fun r => const_at r (pos 1)) = const_at x25 (pos 1) /\
  bind (expand exE ixI x25 cfg None) (fun r => const_at r (pos 2)) = Ok 0%Z.
Proof. split; [now apply range_wf|]. split; [discriminate|]. repeat split; vm_compute; reflexivity. Qed.
