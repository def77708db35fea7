(** C97: conjugation goes through a contraction.  [conjugation_laws real]: the scalar type is real, or conjugation keeps zero, sums and products (Spec/Linear.v);
    [real]: is_real_v<ScalarType>. *)
From Coq Require Import String List Bool Arith ZArith Lia Permutation Ring.
From Verif Require Import Base.Outcome Base.SMap Model.Symmetry Model.Edge Model.Core Model.EdgeOperator Model.Contract Model.Misc Model.Elementwise
  Spec.Blocks Spec.Relabel Spec.Contract Spec.Plain Spec.Svd Spec.Grid Spec.Conjugate Spec.Linear Proof.SymmetryFacts Proof.CoreFacts Proof.ElemFacts Proof.LinearFacts Proof.ConjugateContract Proof.ScalarZ Proof.ExTensors.
Import ListNotations.
Open Scope nat_scope.

(** ** tensors without symmetry: conj(A) conj(B) = conj(A B) *)
Theorem C97_conjugate : forall (R : Type) (RR : Scalar R), exact_arithmetic R ->
  forall (E : @env R) (I : internal), NoDup [i_contract_0 I; i_contract_1 I; i_contract_2 I] ->
  forall (A B : tensor unit R) (pairs : list (nat * nat)), plain_tensor A -> plain_tensor B -> joinable A B pairs ->
  forall real : bool, conjugation_laws (R := R) real ->
  exists A' B' p r q, conjugate E real A = Ok A' /\ conjugate E real B = Ok B' /\ contract E I A B pairs = Ok p /\
    contract E I A' B' pairs = Ok r /\ conjugate E real p = Ok q /\ same_elements r q.
Proof. exact @contract_conjugate. Qed.
Print Assumptions C97_conjugate.

(** complex numbers with integer parts *)
#[local] Instance complex97 : Scalar (Z * Z) := {
  rzero := (0, 0)%Z; rone := (1, 0)%Z; radd x y := (fst x + fst y, snd x + snd y)%Z; rmul x y := (fst x * fst y - snd x * snd y, fst x * snd y + snd x * fst y)%Z;
  ropp x := (- fst x, - snd x)%Z; rsub x y := (fst x - fst y, snd x - snd y)%Z; rdiv x y := (0, 0)%Z; rconj x := (fst x, - snd x)%Z }.
Lemma exact97 : exact_arithmetic (Z * Z).
Proof. constructor; repeat intros [? ?]; cbn -[Z.add Z.mul Z.sub]; f_equal; ring. Qed.
Lemma laws97 : conjugation_laws (R := Z * Z) false.
Proof. right. split; [reflexivity|]. split; intros [? ?] [? ?]; cbn -[Z.add Z.mul Z.sub Z.opp]; f_equal; ring. Qed.

Definition I97 : internal := mkInternal 101 102 103 104 105 106.
Definition d97 (d : nat) : edge unit := mkEdge false [(tt, d)].
Definition a97 : tensor unit (Z * Z) := mkTensor [1; 2] (mkCore [d97 2; d97 2] [([tt; tt], [(1, 2); (0, 1); (3, -1); (2, 0)]%Z)]).
Definition b97 : tensor unit (Z * Z) := mkTensor [3; 4] (mkCore [d97 2; d97 2] [([tt; tt], [(0, 1); (1, 1); (2, -3); (1, 0)]%Z)]).
Definition z97 (r : res (tensor unit (Z * Z))) : tensor unit (Z * Z) := match r with Ok t => t | _ => a97 end.
Lemma plain97 : forall a b l, a <> b -> length l = 4 -> plain_tensor (mkTensor [a; b] (mkCore [d97 2; d97 2] [([tt; tt], l)]) : tensor unit (Z * Z)).
Proof.
  intros a b l N L. split; [|discriminate]. constructor; [constructor|..]; cbn [t_core t_names c_edges c_blocks].
  - repeat constructor.
  - unfold shape. cbn [map fst snd]. rewrite L. reflexivity.
  - intros i e [] He _. exists [tt; tt]. split; [now left|]. destruct i as [|[|[|i]]]; (reflexivity || discriminate).
  - repeat constructor; cbn; intuition.
  - reflexivity.
Qed.
Example C97_example :
  let E := mkEnv (7, 7)%Z None false (fun _ => false) in
  plain_tensor a97 /\ plain_tensor b97 /\ joinable a97 b97 [(2, 4)] /\
  t_blocks (z97 (contract E I97 (z97 (conjugate E false a97)) (z97 (conjugate E false b97)) [(2, 4)])) = t_blocks (z97 (conjugate E false (z97 (contract E I97 a97 b97 [(2, 4)])))) /\
  t_blocks (z97 (contract E I97 a97 b97 [(2, 4)])) <> t_blocks (z97 (conjugate E false (z97 (contract E I97 a97 b97 [(2, 4)])))).
Proof.
  cbv zeta. split; [now apply plain97|]. split; [now apply plain97|]. split; [|vm_compute; split; [reflexivity|discriminate]].
  split; [repeat constructor; cbn; intuition|]. split; [repeat constructor; cbn; intuition|]. split; [intros a b [H|[]]; injection H as <- <-; reflexivity|].
  intros [|[|[|[|[|n]]]]] H1 H2 H3 H4; cbn in *; try (now apply H1); try (now apply H3); intuition.
Qed.

(** ** bosonic symmetries: one pair of edges, or charges that are their own opposites.  q = conj(A B) and r = conj(A) conj(B) have the same edges and, at the opposite charges of every element of p = A B, the same element *)
Theorem C97_symmetric : forall (S R : Type) (SS : Sym S) (SL : SymLaws S) (RR : Scalar R), @is_nosym S SS = false -> @is_fermi S SS = false -> exact_arithmetic R ->
  forall real : bool, conjugation_laws (R := R) real ->
  forall (E : @env R) (I : internal) (A B : tensor S R) (pairs : list (nat * nat)), i_contract_1 I <> i_contract_2 I -> wf_tensor A -> wf_tensor B -> t_blocks A <> [] ->
  incl (map fst pairs) (t_names A) -> incl (map snd pairs) (t_names B) -> NoDup (map fst pairs) -> NoDup (map snd pairs) ->
  (forall a b s d, In (a, b) pairs -> In (s, d) (emap (edge_named (legs_of A) a)) <-> In (sneg s, d) (emap (edge_named (legs_of B) b))) ->
  length pairs <= 1 \/ (forall s : S, sneg s = s) ->
  NoDup (free_names (t_names A) (map fst pairs) ++ free_names (t_names B) (map snd pairs)) ->
  exists A' B' p r q, conjugate E real A = Ok A' /\ conjugate E real B = Ok B' /\ contract E I A B pairs = Ok p /\
    contract E I A' B' pairs = Ok r /\ conjugate E real p = Ok q /\ t_names r = t_names q /\
    forall pos pt, assigns pos (t_names p) pt -> valid_pt (t_core p) pt -> exists v, const_at q (negated pos) = Ok v /\ const_at r (negated pos) = Ok v.
Proof. exact @contract_conjugate_bose. Qed.
Print Assumptions C97_symmetric.

Definition u97 : tensor Z Z := range_tensor [1; 2] [mkEdge false [((-1)%Z, 2); (0%Z, 1)]; mkEdge false [(0%Z, 1); (1%Z, 2)]].
Definition v97 : tensor Z Z := range_tensor [3; 4] [mkEdge false [((-1)%Z, 2); (0%Z, 1)]; mkEdge false [(0%Z, 1); (1%Z, 2)]].
Definition y97 (r : res (tensor Z Z)) : tensor Z Z := match r with Ok t => t | _ => u97 end.
Example C97_symmetric_example : wf_tensor u97 /\ wf_tensor v97 /\
  let E := mkEnv 77%Z None false (fun _ => false) in
  t_blocks (y97 (contract E I97 (y97 (conjugate E true u97)) (y97 (conjugate E true v97)) [(2, 3)])) = [([0; 0], [25]); ([1; -1], [7; 10; 15; 22])]%Z /\
  t_blocks (y97 (conjugate E true (y97 (contract E I97 u97 v97 [(2, 3)])))) = [([0; 0], [25]); ([1; -1], [7; 10; 15; 22])]%Z.
Proof. split; [now apply range_wf|]. split; [now apply range_wf|]. vm_compute. split; reflexivity. Qed.
