(** C15: contraction of bosonic symmetric tensors over one pair of edges, or over any number of pairs when every charge is its
    own opposite (Z2). *)
From Coq Require Import String List Bool Arith ZArith.
From Verif Require Import Base.Outcome Base.SMap Model.Symmetry Model.Edge Model.Core Model.EdgeOperator Model.Contract
  Spec.Blocks Spec.Relabel Spec.Contract Proof.SymmetryFacts Proof.CoreFacts Proof.ElemFacts
  Proof.ContractSym Proof.ScalarZ Proof.ExTensors.
Import ListNotations.

(** [contract_sum t1 t2 pairs pos]: Spec/Contract.v.  Contracted edges must have opposite charges with equal dimensions; the names
    left over must be distinct.  The elements of the result are at all charge-conserving coordinates of the remaining edges. *)
Theorem C15_contract_symmetric :
  forall (S R : Type) (SS : Sym S) (SL : SymLaws S) (RR : Scalar R), @is_nosym S SS = false -> @is_fermi S SS = false -> exact_arithmetic R ->
  forall (E : @env R) (I : internal) (t1 t2 : tensor S R) pairs, i_contract_1 I <> i_contract_2 I ->
  wf_tensor t1 -> wf_tensor t2 -> t_blocks t1 <> [] ->
  incl (map fst pairs) (t_names t1) -> incl (map snd pairs) (t_names t2) -> NoDup (map fst pairs) -> NoDup (map snd pairs) ->
  (forall a b s d, In (a, b) pairs -> In (s, d) (emap (edge_named (legs_of t1) a)) <-> In (sneg s, d) (emap (edge_named (legs_of t2) b))) ->
  length pairs <= 1 \/ (forall s : S, sneg s = s) ->
  NoDup (free_names (t_names t1) (map fst pairs) ++ free_names (t_names t2) (map snd pairs)) ->
  exists r, contract E I t1 t2 pairs = Ok r /\ wf_tensor r /\
    t_names r = free_names (t_names t1) (map fst pairs) ++ free_names (t_names t2) (map snd pairs) /\
    (forall pt, valid_pt (t_core r) pt <->
      in_range (map (fun n => emap (edge_named (legs_of t1) n)) (free_names (t_names t1) (map fst pairs)) ++
                map (fun n => emap (edge_named (legs_of t2) n)) (free_names (t_names t2) (map snd pairs))) pt /\ ssum (map fst pt) = szero) /\
    forall pos pt, assigns pos (t_names r) pt -> valid_pt (t_core r) pt -> const_at r pos = Ok (contract_sum t1 t2 pairs pos).
Proof. exact @contract_sym_at. Qed.
Print Assumptions C15_contract_symmetric.

Definition exI15 : internal := mkInternal 101 102 103 104 105 106.
(** U1, one pair, edges with several charges *)
Definition ex15_a : tensor Z Z := range_tensor [1; 2; 3] [mkEdge false [((-1)%Z, 1); (0%Z, 2); (1%Z, 2)]; mkEdge false [((-1)%Z, 2); (0%Z, 1); (1%Z, 3)]; mkEdge false [(0%Z, 1); (1%Z, 1)]].
Definition ex15_b : tensor Z Z := range_tensor [4; 5] [mkEdge false [((-1)%Z, 3); (0%Z, 1); (1%Z, 2)]; mkEdge false [((-1)%Z, 2); (0%Z, 2); (1%Z, 1)]].
Example C15_example_U1 : wf_tensor ex15_a /\ wf_tensor ex15_b /\ t_blocks ex15_a <> [] /\ t_blocks ex15_b <> [] /\
  (forall a b s d, In (a, b) [(2, 4)] -> In (s, d) (emap (edge_named (legs_of ex15_a) a)) <-> In (sneg s, d) (emap (edge_named (legs_of ex15_b) b))) /\
  let pos := [(1, (0%Z, 1)); (3, (1%Z, 0)); (5, ((-1)%Z, 1))] in
  bind (contract exE exI15 ex15_a ex15_b [(2, 4)]) (fun r => const_at r pos) = Ok 121%Z /\ contract_sum ex15_a ex15_b [(2, 4)] pos = 121%Z.
Proof.
  split; [now apply range_wf|]. split; [now apply range_wf|]. split; [discriminate|]. split; [discriminate|]. split; [|split; vm_compute; reflexivity].
  intros a b s d [H|[]]. injection H as <- <-.
  change (emap (edge_named (legs_of ex15_a) 2)) with [((-1)%Z, 2); (0%Z, 1); (1%Z, 3)]. change (emap (edge_named (legs_of ex15_b) 4)) with [((-1)%Z, 3); (0%Z, 1); (1%Z, 2)].
  split; intros [H|[H|[H|[]]]]; injection H as H <-; rewrite <- (Z.opp_involutive s); cbn in H; rewrite <- H; cbn; auto.
Qed.
(** Z2, two pairs at once *)
Definition ze (a b : nat) : edge bool := mkEdge false [(false, a); (true, b)].
Definition ex15_c : tensor bool Z := range_tensor [1; 2; 3] [ze 1 2; ze 2 1; ze 1 1].
Definition ex15_d : tensor bool Z := range_tensor [4; 5; 6] [ze 2 1; ze 2 2; ze 1 2].
Example C15_example_Z2 : (forall s : bool, sneg s = s) /\ wf_tensor ex15_c /\ wf_tensor ex15_d /\ t_blocks ex15_c <> [] /\ t_blocks ex15_d <> [] /\
  (forall a b s d, In (a, b) [(1, 6); (2, 4)] -> In (s, d) (emap (edge_named (legs_of ex15_c) a)) <-> In (sneg s, d) (emap (edge_named (legs_of ex15_d) b))) /\
  let pos := [(3, (true, 0)); (5, (true, 1))] in
  bind (contract exE exI15 ex15_c ex15_d [(1, 6); (2, 4)]) (fun r => const_at r pos) = Ok 269%Z /\ contract_sum ex15_c ex15_d [(1, 6); (2, 4)] pos = 269%Z.
Proof.
  split; [reflexivity|]. split; [now apply range_wf|]. split; [now apply range_wf|]. split; [discriminate|]. split; [discriminate|]. split; [|split; vm_compute; reflexivity].
  intros a b s d [H|[H|[]]]; injection H as <- <-; reflexivity.
Qed.
