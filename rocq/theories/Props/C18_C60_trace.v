(** C18 and C60: the trace over pairs of edges. *)
From Coq Require Import String List Bool Arith ZArith.
From Verif Require Import Base.Outcome Base.SMap Model.Symmetry Model.Edge Model.Core Model.EdgeOperator Model.Contract Model.Trace
  Spec.Blocks Spec.Relabel Spec.Contract Proof.SymmetryFacts Proof.CoreFacts Proof.ElemFacts
  Proof.TraceMain Proof.ScalarZ Proof.ExTensors.
Import ListNotations.

Definition exI18 : internal := mkInternal 101 102 103 104 105 106.

(** [trace_sum t pairs pos]: Spec/Contract.v.  Plain tensors: any number of pairs of edges with equal dimensions. *)
Theorem C18_plain : forall (S R : Type) (SS : Sym S) (SL : SymLaws S) (RR : Scalar R), @is_nosym S SS = true -> @is_fermi S SS = false -> exact_arithmetic R ->
  forall (E : @env R) (I : internal) (t : tensor S R) pairs, NoDup [i_trace_1 I; i_trace_2 I; i_trace_3 I] -> wf_tensor t -> t_blocks t <> [] ->
  NoDup (map fst pairs ++ map snd pairs) -> incl (map fst pairs ++ map snd pairs) (t_names t) ->
  (forall a b, In (a, b) pairs -> emap (edge_named (legs_of t) a) = emap (edge_named (legs_of t) b)) ->
  exists r, trace E I t pairs = Ok r /\ wf_tensor r /\ t_names r = free_names (t_names t) (map fst pairs ++ map snd pairs) /\
    (forall pt, valid_pt (t_core r) pt <->
       in_range (map (fun n => emap (edge_named (legs_of t) n)) (free_names (t_names t) (map fst pairs ++ map snd pairs))) pt) /\
    forall pos pt, assigns pos (t_names r) pt -> valid_pt (t_core r) pt -> const_at r pos = Ok (trace_sum t pairs pos).
Proof. exact @trace_plain. Qed.
Print Assumptions C18_plain.

Definition ne (d : nat) : edge unit := mkEdge false [(tt, d)].
Definition ex18_p : tensor unit Z := range_tensor [1; 2; 3; 4; 5] [ne 2; ne 3; ne 2; ne 2; ne 3].
Example C18_plain_example : wf_tensor ex18_p /\ t_blocks ex18_p <> [] /\
  (forall a b, In (a, b) [(1, 3); (5, 2)] -> emap (edge_named (legs_of ex18_p) a) = emap (edge_named (legs_of ex18_p) b)) /\
  let pos := [(4, (tt, 1))] in
  bind (trace exE exI18 ex18_p [(1, 3); (5, 2)]) (fun r => const_at r pos) = Ok 228%Z /\ trace_sum ex18_p [(1, 3); (5, 2)] pos = 228%Z.
Proof.
  split; [now apply range_wf|]. split; [discriminate|]. split; [|split; vm_compute; reflexivity].
  intros a b [H|[H|[]]]; injection H as <- <-; reflexivity.
Qed.

(** Bosonic symmetric tensors, one pair; any number of pairs when every charge is its own opposite (Z2).  The two edges of a pair
    have opposite charges with equal dimensions.
    Missing from C18: tensors without a block with opposite charges on the paired edges, see C18_undefined. *)
Theorem C18_symmetric_partial : forall (S R : Type) (SS : Sym S) (SL : SymLaws S) (RR : Scalar R), @is_fermi S SS = false -> exact_arithmetic R ->
  forall (E : @env R) (I : internal) (t : tensor S R) pairs, NoDup [i_trace_1 I; i_trace_2 I; i_trace_3 I] -> wf_tensor t ->
  NoDup (map fst pairs ++ map snd pairs) -> incl (map fst pairs ++ map snd pairs) (t_names t) ->
  (forall a b s d, In (a, b) pairs -> In (s, d) (emap (edge_named (legs_of t) a)) <-> In (sneg s, d) (emap (edge_named (legs_of t) b))) ->
  length pairs <= 1 \/ (forall s : S, sneg s = s) ->
  diagonal_block t pairs ->
  exists r, trace E I t pairs = Ok r /\ wf_tensor r /\ t_names r = free_names (t_names t) (map fst pairs ++ map snd pairs) /\
    (forall pt, valid_pt (t_core r) pt <->
       in_range (map (fun n => emap (edge_named (legs_of t) n)) (free_names (t_names t) (map fst pairs ++ map snd pairs))) pt /\ ssum (map fst pt) = szero) /\
    forall pos pt, assigns pos (t_names r) pt -> valid_pt (t_core r) pt -> const_at r pos = Ok (trace_sum t pairs pos).
Proof. exact @trace_stated. Qed.
Print Assumptions C18_symmetric_partial.

(** U1, the pair given in both orders *)
Definition ex18_u : tensor Z Z := range_tensor [1; 2; 3; 4]
  [mkEdge false [((-1)%Z, 1); (0%Z, 2); (1%Z, 2)]; mkEdge false [(0%Z, 1); (1%Z, 1)]; mkEdge false [((-1)%Z, 2); (0%Z, 2); (1%Z, 1)]; mkEdge false [((-1)%Z, 2); (0%Z, 1)]].
Example C18_symmetric_example : wf_tensor ex18_u /\ diagonal_block ex18_u [(3, 1)] /\
  (forall a b s d, In (a, b) [(3, 1)] -> In (s, d) (emap (edge_named (legs_of ex18_u) a)) <-> In (sneg s, d) (emap (edge_named (legs_of ex18_u) b))) /\
  let pos := [(2, (1%Z, 0)); (4, ((-1)%Z, 1))] in
  bind (trace exE exI18 ex18_u [(3, 1)]) (fun r => const_at r pos) = Ok (trace_sum ex18_u [(3, 1)] pos) /\
  bind (trace exE exI18 ex18_u [(1, 3)]) (fun r => const_at r pos) = Ok (trace_sum ex18_u [(3, 1)] pos) /\
  trace_sum ex18_u [(3, 1)] pos <> 0%Z.
Proof.
  split; [now apply range_wf|]. split; [|split; [|split; [vm_compute; reflexivity|split; [vm_compute; reflexivity|vm_compute; discriminate]]]].
  - exists [0%Z; 0%Z; 0%Z; 0%Z]. eexists. split; [apply (mfind_In (t_blocks ex18_u)); vm_compute; reflexivity|]. intros a b [H|[]]. injection H as <- <-. reflexivity.
  - intros a b s d [H|[]]. injection H as <- <-.
    change (emap (edge_named (legs_of ex18_u) 3)) with [((-1)%Z, 2); (0%Z, 2); (1%Z, 1)]. change (emap (edge_named (legs_of ex18_u) 1)) with [((-1)%Z, 1); (0%Z, 2); (1%Z, 2)].
    split; intros [H|[H|[H|[]]]]; injection H as H <-; rewrite <- (Z.opp_involutive s); cbn in H; rewrite <- H; cbn; auto.
Qed.
(** Z2, two pairs *)
Definition ze18 (a b : nat) : edge bool := mkEdge false [(false, a); (true, b)].
Definition ex18_z : tensor bool Z := range_tensor [1; 2; 3; 4; 5] [ze18 1 2; ze18 2 1; ze18 1 1; ze18 2 1; ze18 1 2].
Example C18_Z2_example : (forall s : bool, sneg s = s) /\ wf_tensor ex18_z /\ diagonal_block ex18_z [(1, 5); (4, 2)] /\
  (forall a b s d, In (a, b) [(1, 5); (4, 2)] -> In (s, d) (emap (edge_named (legs_of ex18_z) a)) <-> In (sneg s, d) (emap (edge_named (legs_of ex18_z) b))) /\
  let pos := [(3, (false, 0))] in
  bind (trace exE exI18 ex18_z [(1, 5); (4, 2)]) (fun r => const_at r pos) = Ok (trace_sum ex18_z [(1, 5); (4, 2)] pos) /\
  trace_sum ex18_z [(1, 5); (4, 2)] pos <> 0%Z.
Proof.
  split; [reflexivity|]. split; [now apply range_wf|]. split; [|split; [|split; [vm_compute; reflexivity|vm_compute; discriminate]]].
  - exists [true; false; false; false; true]. eexists. split; [apply (mfind_In (t_blocks ex18_z)); vm_compute; reflexivity|]. intros a b [H|[H|[]]]; injection H as <- <-; reflexivity.
  - intros a b s d [H|[H|[]]]; injection H as <- <-; reflexivity.
Qed.

(** Without such a block the code dereferences the end of an empty map. *)
Theorem C18_undefined : forall (S R : Type) (SS : Sym S) (SL : SymLaws S) (RR : Scalar R), @is_fermi S SS = false ->
  forall (E : @env R) (I : internal) (t : tensor S R) pairs, NoDup [i_trace_1 I; i_trace_2 I; i_trace_3 I] -> wf_tensor t ->
  NoDup (map fst pairs ++ map snd pairs) -> incl (map fst pairs ++ map snd pairs) (t_names t) ->
  (forall a b s d, In (a, b) pairs -> In (s, d) (emap (edge_named (legs_of t) a)) <-> In (sneg s, d) (emap (edge_named (legs_of t) b))) ->
  ~ diagonal_block t pairs -> trace E I t pairs = UB.
Proof. exact @trace_undefined. Qed.
Print Assumptions C18_undefined.

(** C18 fails: a U1 tensor with four blocks, its first two edges opposite, whose trace is undefined. *)
Definition ue3 : edge Z := mkEdge false [((-1)%Z, 1); (0%Z, 1); (1%Z, 1)].
Definition ex18_n : tensor Z Z := range_tensor [1; 2; 3] [ue3; ue3; mkEdge false [((-1)%Z, 2); (1%Z, 2)]].
Theorem C18_refuted : ~ (forall (E : @env Z) (I : internal) (t : tensor Z Z) a b, NoDup [i_trace_1 I; i_trace_2 I; i_trace_3 I] -> wf_tensor t -> t_blocks t <> [] ->
  a <> b -> incl [a; b] (t_names t) ->
  (forall s d, In (s, d) (emap (edge_named (legs_of t) a)) <-> In ((- s)%Z, d) (emap (edge_named (legs_of t) b))) ->
  exists r, trace E I t [(a, b)] = Ok r).
Proof.
  intro H. destruct (H exE exI18 ex18_n 1 2) as [r Hr].
  - repeat constructor; simpl; intuition discriminate.
  - now apply range_wf.
  - vm_compute. discriminate.
  - discriminate.
  - intros x [<-|[<-|[]]]; vm_compute; auto.
  - intros s d. change (emap (edge_named (legs_of ex18_n) 1)) with (emap ue3). change (emap (edge_named (legs_of ex18_n) 2)) with (emap ue3). cbn [emap ue3].
    split; intros [E|[E|[E|[]]]]; injection E as E <-; rewrite <- (Z.opp_involutive s); cbn in E; rewrite <- E; cbn; auto.
  - assert (E : trace exE exI18 ex18_n [(1, 2)] = UB) by (vm_compute; reflexivity). rewrite E in Hr. discriminate Hr.
Qed.
Print Assumptions C18_refuted.

(** C60 fails for U1: the diagonal of two pairs is not what the code sums. *)
Definition ue1 : edge Z := mkEdge false [((-1)%Z, 1); (0%Z, 1); (1%Z, 2)].
Definition ue2 : edge Z := mkEdge false [((-1)%Z, 2); (0%Z, 1); (1%Z, 1)].
Definition ex60 : tensor Z Z := range_tensor [1; 2; 3; 4] [ue1; ue3; ue2; ue3].
Theorem C60_refuted : ~ (forall (E : @env Z) (I : internal) (t : tensor Z Z) pairs, NoDup [i_trace_1 I; i_trace_2 I; i_trace_3 I] -> wf_tensor t ->
  NoDup (map fst pairs ++ map snd pairs) -> incl (map fst pairs ++ map snd pairs) (t_names t) ->
  (forall a b s d, In (a, b) pairs -> In (s, d) (emap (edge_named (legs_of t) a)) <-> In (sneg s, d) (emap (edge_named (legs_of t) b))) ->
  diagonal_block t pairs ->
  exists r, trace E I t pairs = Ok r /\
    forall pos pt, assigns pos (t_names r) pt -> valid_pt (t_core r) pt -> const_at r pos = Ok (trace_sum t pairs pos)).
Proof.
  intro H. destruct (H exE exI18 ex60 [(1, 3); (2, 4)]) as [r [Hr Hv]].
  - repeat constructor; simpl; intuition discriminate.
  - now apply range_wf.
  - cbn. repeat constructor; simpl; intuition discriminate.
  - intros x Hx. vm_compute in Hx |- *. tauto.
  - intros a b s d Hab. assert (Hu : (emap (edge_named (legs_of ex60) a) = emap ue1 /\ emap (edge_named (legs_of ex60) b) = emap ue2) \/ (emap (edge_named (legs_of ex60) a) = emap ue3 /\ emap (edge_named (legs_of ex60) b) = emap ue3)).
    { destruct Hab as [E|[E|[]]]; injection E as <- <-; [left|right]; split; reflexivity. }
    destruct Hu as [[-> ->]|[-> ->]]; cbn [emap ue1 ue2 ue3]; split; intros [E|[E|[E|[]]]]; injection E as E <-; rewrite <- (Z.opp_involutive s); cbn in E; rewrite <- E; cbn; auto.
  - exists [0%Z; 0%Z; 0%Z; 0%Z]. eexists. split; [apply (mfind_In (t_blocks ex60)); vm_compute; reflexivity|]. intros a b [E|[E|[]]]; injection E as <- <-; reflexivity.
  - assert (C : bind (trace exE exI18 ex60 [(1, 3); (2, 4)]) (fun r => Ok (t_names r, t_edges r)) = Ok ([], [])) by (vm_compute; reflexivity).
    rewrite Hr in C. cbn [bind] in C. injection C as C1 C2.
    assert (D : bind (trace exE exI18 ex60 [(1, 3); (2, 4)]) (fun r => const_at r []) <> Ok (trace_sum ex60 [(1, 3); (2, 4)] [])) by (vm_compute; discriminate).
    apply D. rewrite Hr. cbn [bind]. apply (Hv [] []); [rewrite C1; reflexivity|]. split; [|reflexivity]. change (c_edges (t_core r)) with (t_edges r). rewrite C2. constructor.
Qed.
Print Assumptions C60_refuted.
(** what the code does to the two pairs one after the other *)
Example C60_one_by_one : bind (trace exE exI18 ex60 [(1, 3)]) (fun r => bind (trace exE exI18 r [(2, 4)]) (fun r => const_at r [])) = Ok (trace_sum ex60 [(1, 3); (2, 4)] []).
Proof. vm_compute. reflexivity. Qed.
