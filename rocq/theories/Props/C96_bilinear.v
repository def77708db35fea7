(** C96: contraction of tensors without symmetry is linear in each of its operands.  [plain_tensor], [same_dimensions], [same_elements], [joinable]: Spec/Linear.v; [scalar_op E radd]: the sum
    of tensors, [scalar_number E (rmul c)]: a number times a tensor. *)
From Coq Require Import String List Bool Arith ZArith Lia Permutation.
From Verif Require Import Base.Outcome Base.SMap Model.Symmetry Model.Edge Model.Core Model.EdgeOperator Model.Contract Model.Elementwise
  Spec.Blocks Spec.Relabel Spec.Contract Spec.Plain Spec.Svd Spec.Grid Spec.Linear Proof.CoreFacts Proof.LinearFacts Proof.ScalarZ Proof.ExTensors.
Import ListNotations.
Open Scope nat_scope.

(** ** (A + A') B = A B + A' B; the edges of A' may be in another order *)
Theorem C96_first : forall (R : Type) (RR : Scalar R), exact_arithmetic R -> distributive_product R ->
  forall (E : @env R) (I : internal), NoDup [i_contract_0 I; i_contract_1 I; i_contract_2 I] ->
  forall (A B : tensor unit R) (pairs : list (nat * nat)), plain_tensor A -> plain_tensor B -> joinable A B pairs ->
  forall A' : tensor unit R, plain_tensor A' -> same_dimensions A A' ->
  exists s p p' r r', scalar_op E radd A A' = Ok s /\ contract E I A B pairs = Ok p /\ contract E I A' B pairs = Ok p' /\
    contract E I s B pairs = Ok r /\ scalar_op E radd p p' = Ok r' /\ same_elements r r'.
Proof. exact @contract_sum_first. Qed.
Print Assumptions C96_first.

(** ** A (B + B') = A B + A B' *)
Theorem C96_second : forall (R : Type) (RR : Scalar R), exact_arithmetic R -> distributive_product R ->
  forall (E : @env R) (I : internal), NoDup [i_contract_0 I; i_contract_1 I; i_contract_2 I] ->
  forall (A B : tensor unit R) (pairs : list (nat * nat)), plain_tensor A -> plain_tensor B -> joinable A B pairs ->
  forall B' : tensor unit R, plain_tensor B' -> same_dimensions B B' ->
  exists s p p' r r', scalar_op E radd B B' = Ok s /\ contract E I A B pairs = Ok p /\ contract E I A B' pairs = Ok p' /\
    contract E I A s pairs = Ok r /\ scalar_op E radd p p' = Ok r' /\ same_elements r r'.
Proof. exact @contract_sum_second. Qed.
Print Assumptions C96_second.

(** ** (c A) B = A (c B) = c (A B) *)
Theorem C96_number : forall (R : Type) (RR : Scalar R), exact_arithmetic R -> associative_product R -> distributive_product R ->
  forall (E : @env R) (I : internal), NoDup [i_contract_0 I; i_contract_1 I; i_contract_2 I] ->
  forall (A B : tensor unit R) (pairs : list (nat * nat)), plain_tensor A -> plain_tensor B -> joinable A B pairs ->
  forall c : R, exists s s' p r r' q, scalar_number E (rmul c) A = Ok s /\ scalar_number E (rmul c) B = Ok s' /\ contract E I A B pairs = Ok p /\
    contract E I s B pairs = Ok r /\ contract E I A s' pairs = Ok r' /\ scalar_number E (rmul c) p = Ok q /\ same_elements r q /\ same_elements r' q.
Proof. exact @contract_number. Qed.
Print Assumptions C96_number.

Definition I96 : internal := mkInternal 101 102 103 104 105 106.
Definition d96 (d : nat) : edge unit := mkEdge false [(tt, d)].
(** two joined edges; the edges of the second tensor are in another order than those of the first *)
Definition a96 : tensor unit Z := range_tensor [1; 2; 3] [d96 2; d96 3; d96 2].
Definition a96' : tensor unit Z := range_tensor [3; 1; 2] [d96 2; d96 2; d96 3].
Definition b96 : tensor unit Z := range_tensor [4; 5; 6] [d96 3; d96 2; d96 2].
Definition z96 (r : res (tensor unit Z)) : tensor unit Z := match r with Ok t => t | _ => a96 end.
Example C96_example : plain_tensor a96 /\ plain_tensor a96' /\ plain_tensor b96 /\ same_dimensions a96 a96' /\ joinable a96 b96 [(2, 4); (3, 6)] /\
  let E := mkEnv 77%Z None false (fun _ => false) in
  let s := z96 (scalar_op E Z.add a96 a96') in
  contract E I96 s b96 [(2, 4); (3, 6)] = scalar_op E Z.add (z96 (contract E I96 a96 b96 [(2, 4); (3, 6)])) (z96 (contract E I96 a96' b96 [(2, 4); (3, 6)])) /\
  t_blocks s = [([tt; tt; tt], [2; 9; 5; 12; 8; 15; 11; 18; 14; 21; 17; 24]%Z)].
Proof.
  split; [split; [now apply range_wf|discriminate]|]. split; [split; [now apply range_wf|discriminate]|]. split; [split; [now apply range_wf|discriminate]|].
  split; [intros [|[|[|[|n]]]]; reflexivity|]. split.
  { split; [repeat constructor; cbn; intuition; discriminate|]. split; [repeat constructor; cbn; intuition; discriminate|]. split; [intros a b [H|[H|[]]]; injection H as <- <-; reflexivity|].
    intros [|[|[|[|[|[|[|n]]]]]]] H1 H2 H3 H4; cbn in *; try (now apply H1); try (now apply H3); try (apply H2; now left); intuition. }
  vm_compute. repeat split; reflexivity.
Qed.
