(** C64: contraction of fermionic tensors over one pair of edges.  C65: exchanging the operands.  C66: transposing the operands.
    C67: the arrows of the result. *)
From Coq Require Import String List Bool Arith ZArith Permutation.
From Verif Require Import Base.Outcome Base.SMap Model.Symmetry Model.Edge Model.Core Model.EdgeOperator Model.Contract
  Spec.Blocks Spec.Sign Spec.Relabel Spec.Contract Spec.FermiContract Proof.SymmetryFacts Proof.CoreFacts Proof.ElemFacts
  Proof.ContractSym Proof.FermiSwap Proof.ScalarZ Proof.ExTensors.
Import ListNotations.

(** ** C64.  [signed_sum], [group_arrow_known]: Spec/FermiContract.v.  Every product has the sign of bringing the contracted edges together, and a
    further one if the contracted edge of the first tensor has arrow false and is odd.  Remaining edges keep their arrows, those
    without fermions aside (C67). *)
Theorem C64_contract_fermi :
  forall (S R : Type) (SS : Sym S) (SL : SymLaws S) (RR : Scalar R), @is_nosym S SS = false -> @is_fermi S SS = true -> exact_arithmetic R -> exact_negation R ->
  forall (E : @env R) (I : internal) (t1 t2 : tensor S R) pairs, i_contract_1 I <> i_contract_2 I ->
  wf_tensor t1 -> wf_tensor t2 -> t_blocks t1 <> [] -> length pairs <= 1 ->
  incl (map fst pairs) (t_names t1) -> incl (map snd pairs) (t_names t2) ->
  (forall a b, In (a, b) pairs -> earrow (edge_named (legs_of t1) a) = negb (earrow (edge_named (legs_of t2) b)) /\
     forall s d, In (s, d) (emap (edge_named (legs_of t1) a)) <-> In (sneg s, d) (emap (edge_named (legs_of t2) b))) ->
  NoDup (free_names (t_names t1) (map fst pairs) ++ free_names (t_names t2) (map snd pairs)) ->
  group_arrow_known (env_arrow E) t1 (free_names (t_names t1) (map fst pairs)) -> group_arrow_known (env_arrow E) t1 (map fst pairs) ->
  group_arrow_known (env_arrow E) t2 (free_names (t_names t2) (map snd pairs)) -> group_arrow_known (env_arrow E) t2 (map snd pairs) ->
  exists r, contract E I t1 t2 pairs = Ok r /\ wf_tensor r /\
    t_names r = free_names (t_names t1) (map fst pairs) ++ free_names (t_names t2) (map snd pairs) /\
    (forall pt, valid_pt (t_core r) pt <->
      in_range (map (fun n => emap (edge_named (legs_of t1) n)) (free_names (t_names t1) (map fst pairs)) ++
                map (fun n => emap (edge_named (legs_of t2) n)) (free_names (t_names t2) (map snd pairs))) pt /\ ssum (map fst pt) = szero) /\
    (forall n, In n (free_names (t_names t1) (map fst pairs)) -> arrow_valid (edge_named (legs_of t1) n) = true ->
      earrow (edge_named (legs_of r) n) = earrow (edge_named (legs_of t1) n)) /\
    (forall n, In n (free_names (t_names t2) (map snd pairs)) -> arrow_valid (edge_named (legs_of t2) n) = true ->
      earrow (edge_named (legs_of r) n) = earrow (edge_named (legs_of t2) n)) /\
    forall pos pt, assigns pos (t_names r) pt -> valid_pt (t_core r) pt -> const_at r pos = Ok (signed_sum t1 t2 pairs pos).
Proof. exact @contract_fermi_at. Qed.
Print Assumptions C64_contract_fermi.

Definition I64 : internal := mkInternal 101 102 103 104 105 106.
Definition f64 (z : Z) : fermi16 := to_fermi z.
Definition a64 : tensor fermi16 Z := range_tensor [1; 2; 3]
  [mkEdge true [(f64 (-1), 1); (f64 0, 1); (f64 1, 2)]; mkEdge false [(f64 (-1), 2); (f64 0, 1); (f64 1, 2)]; mkEdge true [(f64 0, 1); (f64 1, 1)]].
Definition b64 : tensor fermi16 Z := range_tensor [4; 5; 6]
  [mkEdge false [(f64 0, 2); (f64 1, 1)]; mkEdge true [(f64 (-1), 2); (f64 0, 1); (f64 1, 2)]; mkEdge false [(f64 (-1), 1); (f64 0, 1)]].
Definition p64 : list (nat * (fermi16 * nat)) := [(1, (f64 1, 1)); (3, (f64 0, 0)); (4, (f64 0, 1)); (6, (f64 (-1), 0))].
(** the sign is not trivial: without signs the sum is 105; all arrows of the result are those of the operands *)
Example C64_example : wf_tensor a64 /\ wf_tensor b64 /\ t_blocks a64 <> [] /\ t_blocks b64 <> [] /\
  (forall a b, In (a, b) [(2, 5)] -> earrow (edge_named (legs_of a64) a) = negb (earrow (edge_named (legs_of b64) b)) /\
     forall s d, In (s, d) (emap (edge_named (legs_of a64) a)) <-> In (sneg s, d) (emap (edge_named (legs_of b64) b))) /\
  group_arrow_known None a64 [1; 3] /\ group_arrow_known None b64 [4; 6] /\
  bind (contract exE I64 a64 b64 [(2, 5)]) (fun r => const_at r p64) = Ok (-105)%Z /\
  signed_sum a64 b64 [(2, 5)] p64 = (-105)%Z /\ contract_sum a64 b64 [(2, 5)] p64 = 105%Z /\
  bind (contract exE I64 a64 b64 [(2, 5)]) (fun r => Ok (map earrow (t_edges r))) = Ok [true; true; false; false].
Proof.
  split; [now apply range_wf|]. split; [now apply range_wf|]. split; [discriminate|]. split; [discriminate|]. split; [|split; [|split]].
  - intros a b [H|[]]. injection H as <- <-. split; [reflexivity|]. intros s d.
    change (emap (edge_named (legs_of a64) 2)) with [(f64 (-1), 2); (f64 0, 1); (f64 1, 2)]. change (emap (edge_named (legs_of b64) 5)) with [(f64 (-1), 2); (f64 0, 1); (f64 1, 2)].
    assert (N1 : sneg (f64 1) = f64 (-1)) by reflexivity. assert (N2 : sneg (f64 (-1)) = f64 1) by reflexivity. assert (N0 : sneg (f64 0) = f64 0) by reflexivity.
    split; intros [H|[H|[H|[]]]]; assert (Hs := f_equal fst H); assert (Hd := f_equal snd H); cbn [fst snd] in Hs, Hd; subst d; clear H; apply (f_equal sneg) in Hs; rewrite ?sneg_invol in Hs; rewrite <- Hs; rewrite ?N0, ?N1, ?N2; cbn [In]; auto.
  - right. right. exists 1. split; [now left|reflexivity].
  - right. right. exists 4. split; [now left|reflexivity].
  - split; [vm_compute; reflexivity|]. split; [vm_compute; reflexivity|]. split; vm_compute; reflexivity.
Qed.

(** ** C65.  All symmetric tensors, bosonic and fermionic: contracting with exchanged operands gives the same tensor up to the
    order of its edges; fermionic signs included. *)
Theorem C65_exchange_operands :
  forall (S R : Type) (SS : Sym S) (SL : SymLaws S) (RR : Scalar R), @is_nosym S SS = false -> exact_arithmetic R -> (@is_fermi S SS = true -> exact_negation R) ->
  forall (E E' E'' : @env R) (I I' : internal) (t1 t2 : tensor S R) pairs, i_contract_1 I <> i_contract_2 I -> i_contract_1 I' <> i_contract_2 I' ->
  wf_tensor t1 -> wf_tensor t2 -> t_blocks t1 <> [] -> t_blocks t2 <> [] -> length pairs <= 1 \/ (forall s : S, sneg s = s) -> (@is_fermi S SS = true -> length pairs <= 1) ->
  incl (map fst pairs) (t_names t1) -> incl (map snd pairs) (t_names t2) -> NoDup (map fst pairs) -> NoDup (map snd pairs) ->
  (forall a b, In (a, b) pairs -> (@is_fermi S SS = true -> earrow (edge_named (legs_of t1) a) = negb (earrow (edge_named (legs_of t2) b))) /\
     forall s d, In (s, d) (emap (edge_named (legs_of t1) a)) <-> In (sneg s, d) (emap (edge_named (legs_of t2) b))) ->
  NoDup (free_names (t_names t1) (map fst pairs) ++ free_names (t_names t2) (map snd pairs)) ->
  (@is_fermi S SS = true -> forall E0, E0 = E \/ E0 = E' ->
    group_arrow_known (env_arrow E0) t1 (free_names (t_names t1) (map fst pairs)) /\ group_arrow_known (env_arrow E0) t1 (map fst pairs) /\
    group_arrow_known (env_arrow E0) t2 (free_names (t_names t2) (map snd pairs)) /\ group_arrow_known (env_arrow E0) t2 (map snd pairs)) ->
  exists r12 r21 r, contract E I t1 t2 pairs = Ok r12 /\ contract E' I' t2 t1 (map (fun p => (snd p, fst p)) pairs) = Ok r21 /\
    transpose E'' r21 (t_names r12) = Ok r /\ t_names r = t_names r12 /\
    forall pos pt, assigns pos (t_names r12) pt -> (valid_pt (t_core r) pt <-> valid_pt (t_core r12) pt) /\
      (valid_pt (t_core r12) pt -> exists v, const_at r12 pos = Ok v /\ const_at r pos = Ok v).
Proof. exact @contract_swap. Qed.
Print Assumptions C65_exchange_operands.

Definition q64 : list (nat * (fermi16 * nat)) := [(1, (f64 (-1), 0)); (3, (f64 0, 0)); (4, (f64 1, 0)); (6, (f64 0, 0))].
(** hypotheses: C64_example.  At q64 the two results differ by a sign before they are brought into the same order *)
Example C65_example :
  bind (contract exE I64 a64 b64 [(2, 5)]) (fun r => const_at r q64) = Ok 38%Z /\
  bind (contract exE I64 b64 a64 [(5, 2)]) (fun r => const_at r q64) = Ok (-38)%Z /\
  bind (bind (contract exE I64 b64 a64 [(5, 2)]) (fun r => transpose exE r [1; 3; 4; 6])) (fun r => const_at r q64) = Ok 38%Z.
Proof. split; [vm_compute; reflexivity|]. split; vm_compute; reflexivity. Qed.

(** ** C66.  Transposing the operands before does not change the contraction, up to the order of its edges. *)
Theorem C66_transposed_operands :
  forall (S R : Type) (SS : Sym S) (SL : SymLaws S) (RR : Scalar R), @is_nosym S SS = false -> exact_arithmetic R -> (@is_fermi S SS = true -> exact_negation R) ->
  forall (E E1 E2 E' E'' : @env R) (I I' : internal) (t1 t2 : tensor S R) pairs names1 names2, i_contract_1 I <> i_contract_2 I -> i_contract_1 I' <> i_contract_2 I' ->
  wf_tensor t1 -> wf_tensor t2 -> t_blocks t1 <> [] -> length pairs <= 1 \/ (forall s : S, sneg s = s) -> (@is_fermi S SS = true -> length pairs <= 1) ->
  incl (map fst pairs) (t_names t1) -> incl (map snd pairs) (t_names t2) -> NoDup (map fst pairs) -> NoDup (map snd pairs) ->
  (forall a b, In (a, b) pairs -> (@is_fermi S SS = true -> earrow (edge_named (legs_of t1) a) = negb (earrow (edge_named (legs_of t2) b))) /\
     forall s d, In (s, d) (emap (edge_named (legs_of t1) a)) <-> In (sneg s, d) (emap (edge_named (legs_of t2) b))) ->
  NoDup (free_names (t_names t1) (map fst pairs) ++ free_names (t_names t2) (map snd pairs)) ->
  (@is_fermi S SS = true -> forall E0, E0 = E \/ E0 = E' ->
    group_arrow_known (env_arrow E0) t1 (free_names (t_names t1) (map fst pairs)) /\ group_arrow_known (env_arrow E0) t1 (map fst pairs) /\
    group_arrow_known (env_arrow E0) t2 (free_names (t_names t2) (map snd pairs)) /\ group_arrow_known (env_arrow E0) t2 (map snd pairs)) ->
  Permutation (t_names t1) names1 -> Permutation (t_names t2) names2 ->
  exists t1' t2' r r' r'', transpose E1 t1 names1 = Ok t1' /\ transpose E2 t2 names2 = Ok t2' /\
    contract E I t1 t2 pairs = Ok r /\ contract E' I' t1' t2' pairs = Ok r' /\ transpose E'' r' (t_names r) = Ok r'' /\ t_names r'' = t_names r /\
    forall pos pt, assigns pos (t_names r) pt -> (valid_pt (t_core r'') pt <-> valid_pt (t_core r) pt) /\
      (valid_pt (t_core r) pt -> exists v, const_at r pos = Ok v /\ const_at r'' pos = Ok v).
Proof. exact @contract_moved. Qed.
Print Assumptions C66_transposed_operands.

(** hypotheses: C64_example *)
Example C66_example :
  bind (transpose exE a64 [3; 2; 1]) (fun a => bind (transpose exE b64 [5; 6; 4]) (fun b => bind (contract exE I64 a b [(2, 5)]) (fun r =>
  bind (transpose exE r [1; 3; 4; 6]) (fun r => const_at r p64)))) = Ok (-105)%Z.
Proof. vm_compute; reflexivity. Qed.

(** ** C67.  Full statement (false): the edges of the result are determined by the operands.  With several remaining edges of one
    operand that only have charges without fermions the library copies an arrow that was never initialised ([env_arrow]: the
    value found there) to them. *)
Definition z64 (arrow : bool) : edge fermi16 := mkEdge arrow [(f64 0, 2)].
Definition e64 (garbage : bool) : @env Z := mkEnv 77%Z (Some garbage) false (fun _ => false).
Definition c64 : tensor fermi16 Z := range_tensor [1; 2; 3] [z64 false; z64 false; z64 false].
Definition d64 : tensor fermi16 Z := range_tensor [4; 5] [z64 true; z64 true].
Definition g64 : tensor fermi16 Z := range_tensor [6; 7] [z64 true; z64 true].
Theorem C67_arrows_determined_refuted :
  ~ (forall (E E' : @env Z) (t1 t2 : tensor fermi16 Z) pairs r r', wf_tensor t1 -> wf_tensor t2 ->
     contract E I64 t1 t2 pairs = Ok r -> contract E' I64 t1 t2 pairs = Ok r' -> map earrow (t_edges r) = map earrow (t_edges r')).
Proof.
  intro H. assert (W1 : wf_tensor c64) by (now apply range_wf). assert (W2 : wf_tensor d64) by (now apply range_wf).
  assert (A : forall b, bind (contract (e64 b) I64 c64 d64 [(3, 4)]) (fun r => Ok (map earrow (t_edges r))) = Ok [b; b; true]) by (intros [|]; vm_compute; reflexivity).
  exact (two_outcomes _ _ _ _ _ _ _ (A true) (A false) ltac:(discriminate) (fun r r' => H _ _ _ _ _ r r' W1 W2)).
Qed.
Print Assumptions C67_arrows_determined_refuted.
(** A correct chain of contractions is then refused or not, as chance has it. *)
Theorem C67_spurious_error_refuted :
  wf_tensor c64 /\ wf_tensor d64 /\ wf_tensor g64 /\
  let chain b := bind (contract (e64 b) I64 c64 d64 [(3, 4)]) (fun r => contract (e64 b) I64 r g64 [(1, 6)]) in
  chain true = Throw (RuntimeError "Different Fermi Arrow to Contract"%string) /\
  bind (chain false) (fun r => Ok (t_names r)) = Ok [2; 5; 7].
Proof. split; [now apply range_wf|]. split; [now apply range_wf|]. split; [now apply range_wf|]. split; vm_compute; reflexivity. Qed.
Print Assumptions C67_spurious_error_refuted.
