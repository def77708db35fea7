(** C14: contraction of plain tensors.  C16, C17: what fails for symmetric tensors. *)
From Coq Require Import String List Bool Arith ZArith Sorted Lia.
From Verif Require Import Base.Outcome Base.SMap Model.Symmetry Model.Edge Model.Core Model.EdgeOperator Model.Contract
  Spec.Blocks Spec.Relabel Spec.Contract Proof.SymmetryFacts Proof.CoreFacts Proof.ElemFacts
  Proof.ContractPlain Proof.ScalarZ Proof.ExTensors.
Import ListNotations.

(** ** C14.  [contract_sum t1 t2 pairs pos]: the sum of products, Spec/Contract.v.  Edges of equal free name share one index. *)
Theorem C14_contract_plain :
  forall (S R : Type) (SS : Sym S) (SL : SymLaws S) (RR : Scalar R), @is_nosym S SS = true -> @is_fermi S SS = false -> exact_arithmetic R ->
  forall (E : @env R) (I : internal) (t1 t2 : tensor S R) pairs, NoDup [i_contract_0 I; i_contract_1 I; i_contract_2 I] ->
  wf_tensor t1 -> wf_tensor t2 -> t_blocks t1 <> [] -> t_blocks t2 <> [] ->
  incl (map fst pairs) (t_names t1) -> incl (map snd pairs) (t_names t2) -> NoDup (map fst pairs) -> NoDup (map snd pairs) ->
  (forall a b, In (a, b) pairs -> emap (edge_named (legs_of t1) a) = emap (edge_named (legs_of t2) b)) ->
  (forall n, In n (t_names t1) -> In n (t_names t2) -> ~ In n (map fst pairs) -> ~ In n (map snd pairs) -> emap (edge_named (legs_of t1) n) = emap (edge_named (legs_of t2) n)) ->
  exists r fused, contract E I t1 t2 pairs = Ok r /\ wf_tensor r /\ t_blocks r <> [] /\
    StronglySorted lt fused /\ (forall n, In n fused <-> In n (t_names t1) /\ In n (t_names t2) /\ ~ In n (map fst pairs) /\ ~ In n (map snd pairs)) /\
    t_names r = fused ++ free_names (t_names t1) (map fst pairs ++ fused) ++ free_names (t_names t2) (map snd pairs ++ fused) /\
    t_edges r = map (edge_named (legs_of t1)) (fused ++ free_names (t_names t1) (map fst pairs ++ fused)) ++ map (edge_named (legs_of t2)) (free_names (t_names t2) (map snd pairs ++ fused)) /\
    forall pos pt, assigns pos (t_names r) pt -> valid_pt (t_core r) pt -> const_at r pos = Ok (contract_sum t1 t2 pairs pos).
Proof. exact @contract_plain_at. Qed.
Print Assumptions C14_contract_plain.
Theorem C14_fused_shapes_differ :
  forall (S R : Type) (SS : Sym S) (SL : SymLaws S) (RR : Scalar R), @is_nosym S SS = true ->
  forall (E : @env R) (I : internal) (t1 t2 : tensor S R) pairs n,
  wf_tensor t1 -> wf_tensor t2 -> incl (map fst pairs) (t_names t1) -> incl (map snd pairs) (t_names t2) -> NoDup (map fst pairs) -> NoDup (map snd pairs) ->
  In n (t_names t1) -> In n (t_names t2) -> ~ In n (map fst pairs) -> ~ In n (map snd pairs) -> emap (edge_named (legs_of t1) n) <> emap (edge_named (legs_of t2) n) ->
  contract E I t1 t2 pairs = tat_error "Cannot fuse two edge with different shape".
Proof. exact @contract_plain_mismatch. Qed.
Print Assumptions C14_fused_shapes_differ.
(** pairs naming an edge one of the tensors does not have are ignored; a name used twice is an error (any symmetry) *)
Theorem C14_missing_names_ignored :
  forall (S R : Type) (SS : Sym S) (RR : Scalar R) (E : @env R) (I : internal) (t1 t2 : tensor S R) pairs,
  contract E I t1 t2 pairs = contract E I t1 t2 (filter (fun p => member (fst p) (t_names t1) && member (snd p) (t_names t2)) pairs).
Proof. exact @contract_missing. Qed.
Print Assumptions C14_missing_names_ignored.
Theorem C14_duplicate_names_rejected :
  forall (S R : Type) (SS : Sym S) (RR : Scalar R) (E : @env R) (I : internal) (t1 t2 : tensor S R) pairs,
  incl (map fst pairs) (t_names t1) -> incl (map snd pairs) (t_names t2) -> ~ NoDup (map fst pairs) \/ ~ NoDup (map snd pairs) ->
  contract E I t1 t2 pairs = tat_error "Duplicated Contract Name".
Proof. exact @contract_duplicate. Qed.
Print Assumptions C14_duplicate_names_rejected.

Definition exI : internal := mkInternal 101 102 103 104 105 106.
Definition pe (d : nat) : edge unit := mkEdge false [(tt, d)].
(** rank 4 with rank 4: two contracted pairs, one of them crossing, and two fused edges *)
Definition ex_a : tensor unit Z := range_tensor [1; 2; 3; 4] [pe 2; pe 3; pe 2; pe 2].
Definition ex_b : tensor unit Z := range_tensor [5; 3; 6; 1] [pe 2; pe 2; pe 3; pe 2].
Example C14_example : exact_arithmetic Z /\ NoDup [i_contract_0 exI; i_contract_1 exI; i_contract_2 exI] /\ wf_tensor ex_a /\ wf_tensor ex_b /\ t_blocks ex_a <> [] /\ t_blocks ex_b <> [] /\
  let pairs := [(2, 6); (4, 5)] in
  incl (map fst pairs) (t_names ex_a) /\ incl (map snd pairs) (t_names ex_b) /\
  (forall a b, In (a, b) pairs -> emap (edge_named (legs_of ex_a) a) = emap (edge_named (legs_of ex_b) b)) /\
  (forall n, In n (t_names ex_a) -> In n (t_names ex_b) -> ~ In n (map fst pairs) -> ~ In n (map snd pairs) -> emap (edge_named (legs_of ex_a) n) = emap (edge_named (legs_of ex_b) n)) /\
  let pos := [(1, (tt, 1)); (3, (tt, 0))] in
  bind (contract exE exI ex_a ex_b pairs) (fun r => const_at r pos) = Ok 1100%Z /\ contract_sum ex_a ex_b pairs pos = 1100%Z.
Proof.
  split; [exact exact_Z|]. split; [repeat constructor; simpl; intuition discriminate|]. split; [now apply range_wf|]. split; [now apply range_wf|]. split; [discriminate|]. split; [discriminate|].
  cbv zeta. split; [intros x; simpl; intuition|]. split; [intros x; simpl; intuition|]. split.
  - intros a b [H|[H|[]]]; injection H as <- <-; reflexivity.
  - split; [|split; vm_compute; reflexivity]. intros n Ha Hb Hc Hd. simpl in Ha, Hb, Hc, Hd.
    destruct Ha as [<-|[<-|[<-|[<-|[]]]]]; try reflexivity; exfalso; intuition.
Qed.
Example C14_errors_example :
  contract exE exI ex_a (range_tensor [5; 3] [pe 2; pe 5]) [(4, 5)] = tat_error "Cannot fuse two edge with different shape" /\
  contract exE exI ex_a ex_b [(2, 6); (4, 6)] = tat_error "Duplicated Contract Name" /\
  contract exE exI ex_a ex_b [(2, 6); (4, 5)] = contract exE exI ex_a ex_b [(2, 6); (4, 5); (9, 5); (2, 9)].
Proof. repeat split; vm_compute; reflexivity. Qed.

(** ** C16.  Full statement, false of the code: the common edges of both tensors are merged in the same order, but segments of
    opposite charge tuples do not come in the same order, so with two or more pairs elements of different states are multiplied. *)
Definition opposite_edges (t1 t2 : tensor Z Z) (pairs : list (nat * nat)) : Prop :=
  forall a b s d, In (a, b) pairs -> In (s, d) (emap (edge_named (legs_of t1) a)) <-> In (sneg s, d) (emap (edge_named (legs_of t2) b)).
Definition C16_claim : Prop :=
  forall (E : @env Z) (I : internal) (t1 t2 : tensor Z Z) pairs, NoDup ([i_contract_0 I; i_contract_1 I; i_contract_2 I] ++ t_names t1 ++ t_names t2) ->
  wf_tensor t1 -> wf_tensor t2 -> t_blocks t1 <> [] -> t_blocks t2 <> [] ->
  incl (map fst pairs) (t_names t1) -> incl (map snd pairs) (t_names t2) -> NoDup (map fst pairs) -> NoDup (map snd pairs) ->
  opposite_edges t1 t2 pairs ->
  exists r, contract E I t1 t2 pairs = Ok r /\
    forall pos pt, assigns pos (t_names r) pt -> valid_pt (t_core r) pt -> const_at r pos = Ok (contract_sum t1 t2 pairs pos).
Theorem C16_contract_several_refuted : ~ C16_claim.
Proof.
  intro C. set (ea := mkEdge false [(0%Z, 1); (1%Z, 1)] : edge Z). set (eb := mkEdge false [((-1)%Z, 1); (0%Z, 1)] : edge Z).
  set (ec := mkEdge false [((-1)%Z, 1)] : edge Z). set (ed := mkEdge false [(1%Z, 1)] : edge Z).
  set (t1 := range_tensor [1; 2; 3] [ea; ea; ec]). set (t2 := range_tensor [4; 5; 6] [eb; eb; ed]).
  destruct (C exE exI t1 t2 [(1, 4); (2, 5)]) as [r [Hr H]].
  - change (t_names t1) with [1; 2; 3]. change (t_names t2) with [4; 5; 6]. repeat constructor; simpl; intuition discriminate.
  - now apply range_wf.
  - now apply range_wf.
  - discriminate.
  - discriminate.
  - intros x [<-|[<-|[]]]; [now left|right; now left].
  - intros x [<-|[<-|[]]]; [now left|right; now left].
  - repeat constructor; simpl; intuition discriminate.
  - repeat constructor; simpl; intuition discriminate.
  - intros a b s d Hp. assert (edge_named (legs_of t1) a = ea /\ edge_named (legs_of t2) b = eb) as [-> ->] by (destruct Hp as [Hp|[Hp|[]]]; injection Hp as <- <-; split; reflexivity).
    cbn [emap ea eb]. split.
    + intros [Hs|[Hs|[]]]; injection Hs as <- <-; [right; left|left]; reflexivity.
    + intros [Hs|[Hs|[]]]; injection Hs as Hs <-; [right; left|left; f_equal]; rewrite <- (Z.opp_involutive s); cbn in Hs; rewrite <- Hs; reflexivity.
  - specialize (H [(3, ((-1)%Z, 0)); (6, (1%Z, 0))] [((-1)%Z, 0); (1%Z, 0)]). vm_compute in Hr. injection Hr as <-. specialize (H eq_refl).
    assert (V : in_range [[((-1)%Z, 1)]; [(1%Z, 1)]] [((-1)%Z, 0); (1%Z, 0)]) by (repeat (econstructor; [cbn; eauto|auto|]); constructor).
    specialize (H (conj V eq_refl)). vm_compute in H. discriminate.
Qed.
Print Assumptions C16_contract_several_refuted.

(** ** C17.  Full statement, false of the code: removing the charges that have no partner from an edge fails with
    std::out_of_range in the bosonic case. *)
Definition C17_claim : Prop :=
  forall (E : @env Z) (I : internal) (t1 t2 : tensor Z Z) a b, NoDup ([i_contract_0 I; i_contract_1 I; i_contract_2 I] ++ t_names t1 ++ t_names t2) ->
  wf_tensor t1 -> wf_tensor t2 -> t_blocks t1 <> [] -> t_blocks t2 <> [] -> In a (t_names t1) -> In b (t_names t2) ->
  (forall s d d', In (s, d) (emap (edge_named (legs_of t1) a)) -> In (sneg s, d') (emap (edge_named (legs_of t2) b)) -> d = d') ->
  exists r, contract E I t1 t2 [(a, b)] = Ok r.
Theorem C17_partial_overlap_refuted : ~ C17_claim.
Proof.
  intro C. set (t1 := range_tensor [1; 2] [mkEdge false [(0%Z, 1); (1%Z, 1)]; mkEdge false [((-1)%Z, 1); (0%Z, 1)]]).
  set (t2 := range_tensor [3; 4] [mkEdge false [(0%Z, 1)]; mkEdge false [(0%Z, 1)]]).
  destruct (C exE exI t1 t2 2 3) as [r Hr].
  - repeat constructor; simpl; intuition discriminate.
  - now apply range_wf.
  - now apply range_wf.
  - discriminate.
  - discriminate.
  - right. now left.
  - now left.
  - change (edge_named (legs_of t1) 2) with (mkEdge false [((-1)%Z, 1); (0%Z, 1)]). change (edge_named (legs_of t2) 3) with (mkEdge false [(0%Z, 1)]).
    intros s d d' [H|[H|[]]] [H'|[]]; injection H as _ <-; injection H' as _ <-; reflexivity.
  - vm_compute in Hr. discriminate.
Qed.
Print Assumptions C17_partial_overlap_refuted.

(** ** C51.  Full statement, false of the code: dimensions of contracted edges are compared only for symmetric tensors. *)
Definition C51_claim : Prop :=
  forall (E : @env Z) (I : internal) (t1 t2 : tensor unit Z) a b, NoDup ([i_contract_0 I; i_contract_1 I; i_contract_2 I] ++ t_names t1 ++ t_names t2) ->
  wf_tensor t1 -> wf_tensor t2 -> In a (t_names t1) -> In b (t_names t2) ->
  emap (edge_named (legs_of t1) a) <> emap (edge_named (legs_of t2) b) -> exists ex, contract E I t1 t2 [(a, b)] = Throw ex.
(** in one order memory beyond a block is read, in the other a tensor is returned *)
Theorem C51_dimension_mismatch_refuted : ~ C51_claim.
Proof.
  intro C. destruct (C exE exI (range_tensor [1; 2] [pe 2; pe 3]) (range_tensor [3; 4] [pe 2; pe 2]) 2 3) as [ex Hex].
  - repeat constructor; simpl; intuition discriminate.
  - now apply range_wf.
  - now apply range_wf.
  - right. now left.
  - now left.
  - discriminate.
  - vm_compute in Hex. discriminate.
Qed.
Print Assumptions C51_dimension_mismatch_refuted.
Theorem C51_dimension_mismatch_accepted_refuted :
  exists t1 t2 : tensor unit Z, wf_tensor t1 /\ wf_tensor t2 /\ emap (edge_named (legs_of t1) 3) <> emap (edge_named (legs_of t2) 2) /\
    contract exE exI t2 t1 [(2, 3)] = UB /\ exists r, contract exE exI t1 t2 [(3, 2)] = Ok r.
Proof.
  exists (range_tensor [3; 4] [pe 2; pe 2]), (range_tensor [1; 2] [pe 2; pe 3]).
  split; [now apply range_wf|]. split; [now apply range_wf|]. split; [discriminate|]. split; [vm_compute; reflexivity|]. eexists. vm_compute. reflexivity.
Qed.
Print Assumptions C51_dimension_mismatch_accepted_refuted.
