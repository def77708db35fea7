(** C99: contract_all_edge of a symmetric tensor with its own conjugate and the sum of the squares of its elements.  [squares]: Spec/Squares.v; [conjugated]: Spec/Linear.v. *)
From Coq Require Import String List Bool Arith ZArith Lia.
From Verif Require Import Base.Outcome Base.SMap Model.Symmetry Model.Edge Model.Core Model.EdgeOperator Model.Contract Model.Misc Model.ShrinkExpand
  Spec.Blocks Spec.Relabel Spec.Contract Spec.Values Spec.Linear Spec.Squares Proof.SymmetryFacts Proof.CoreFacts Proof.SquaresFacts Proof.ScalarZ Proof.ExTensors.
Import ListNotations.
Open Scope nat_scope.

(** ** bosonic symmetries whose charges are their own opposites, and tensors with at most one edge.  Missing: charges with opposites and several edges, where it is false *)
Theorem C99_squares_partial : forall (S R : Type) (SS : Sym S) (SL : SymLaws S) (RR : Scalar R), @is_nosym S SS = false -> @is_fermi S SS = false -> exact_arithmetic R ->
  forall (E : @env R) (I : internal) (real : bool) (t : tensor S R), i_contract_1 I <> i_contract_2 I -> wf_tensor t -> t_blocks t <> [] ->
  length (t_names t) <= 1 \/ (forall s : S, sneg s = s) ->
  exists c r, conjugate E real t = Ok c /\ contract_all_edge E I t c = Ok r /\ t_names r = [] /\ const_at r [] = Ok (squares real t).
Proof. exact @squares_contracted. Qed.
Print Assumptions C99_squares_partial.

(** ** the claim for all tensors of a symmetry with integer elements *)
Definition C99_claim (S : Type) {SS : Sym S} : Prop := forall (E : @env Z) (I : internal) (t : tensor S Z),
  NoDup [i_contract_0 I; i_contract_1 I; i_contract_2 I] -> wf_tensor t -> t_blocks t <> [] ->
  exists c r, conjugate E true t = Ok c /\ contract_all_edge E I t c = Ok r /\ const_at r [] = Ok (squares true t).

Definition I99 : internal := mkInternal 101 102 103 104 105 106.
Definition E99 (garbage : bool) : @env Z := mkEnv 77%Z (Some garbage) false (fun _ => false).
Definition all99 {S : Type} {SS : Sym S} (E : @env Z) (t : tensor S Z) : res Z := bind (conjugate E true t) (fun c => bind (contract_all_edge E I99 t c) (fun r => const_at r [])).
Lemma refuted99 : forall (S : Type) (SS : Sym S) (t : tensor S Z) (x : Z), wf_tensor t -> t_blocks t <> [] -> all99 (E99 false) t = Ok x -> x <> squares true t -> ~ C99_claim S.
Proof.
  intros S SS t x W B A N C. destruct (C (E99 false) I99 t) as [c [r [C1 [C2 C3]]]]; [repeat constructor; cbn; intuition; discriminate|exact W|exact B|].
  unfold all99 in A. rewrite C1 in A. cbn [bind] in A. rewrite C2 in A. cbn [bind] in A. rewrite C3 in A. injection A as A. now apply N.
Qed.

(** two edges of integer charges, two elements 1 and 2: the result is 1 * 2 + 2 * 1 *)
Definition t99 : tensor Z Z := range_tensor [1; 2] [mkEdge false [(0%Z, 1); (1%Z, 1)]; mkEdge false [((-1)%Z, 1); (0%Z, 1)]].
Theorem C99_u1_refuted : ~ C99_claim Z.
Proof. apply (refuted99 Z _ t99 4%Z); [now apply range_wf|discriminate|vm_compute; reflexivity|vm_compute; discriminate]. Qed.
Print Assumptions C99_u1_refuted.
(** the same with fermions: the result is negative, whatever the uninitialised arrow *)
Definition f99 : tensor fermi16 Z := range_tensor [1; 2] [mkEdge false [(to_fermi 0, 1); (to_fermi 1, 1)]; mkEdge false [(to_fermi (-1), 1); (to_fermi 0, 1)]].
Theorem C99_fermi_refuted : ~ C99_claim fermi16 /\ forall garbage, all99 (E99 garbage) f99 = Ok (-4)%Z.
Proof.
  split; [|intros []; vm_compute; reflexivity].
  apply (refuted99 fermi16 _ f99 (-4)%Z); [now apply range_wf|discriminate|vm_compute; reflexivity|vm_compute; discriminate].
Qed.
Print Assumptions C99_fermi_refuted.

(** the numbers: the two elements of each tensor are 1 and 2 *)
Example C99_example_refuted : stored t99 = [1; 2]%Z /\ squares true t99 = 5%Z /\ all99 (E99 false) t99 = Ok 4%Z /\ stored f99 = [1; 2]%Z /\ squares true f99 = 5%Z.
Proof. vm_compute. repeat split; reflexivity. Qed.
(** parities on three edges *)
Definition b99 : tensor bool Z := range_tensor [1; 2; 3] [mkEdge false [(false, 2); (true, 1)]; mkEdge false [(false, 1); (true, 2)]; mkEdge false [(false, 1); (true, 1)]].
Example C99_example : wf_tensor b99 /\ t_blocks b99 <> [] /\ (forall s : bool, sneg s = s) /\ length (stored b99) = 9 /\ all99 (E99 false) b99 = Ok (squares true b99) /\ squares true b99 = 285%Z.
Proof. split; [now apply range_wf|]. split; [discriminate|]. split; [now intros []|]. vm_compute. repeat split; reflexivity. Qed.
