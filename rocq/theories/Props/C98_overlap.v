(** C98: contract_all_edge of a tensor without symmetry with the conjugate of another one is their overlap, and with its own conjugate the square of norm<2>().
    [plain_tensor], [same_dimensions], [conjugated]: Spec/Linear.v; [overlap]: Spec/Overlap.v; [stored t]: the elements of the block of t, Spec/Values.v. *)
From Coq Require Import String List Bool Arith ZArith Lia Permutation Reals Lra.
From Verif Require Import Base.Outcome Base.SMap Model.Symmetry Model.Edge Model.Core Model.EdgeOperator Model.Contract Model.Misc Model.Elementwise Model.ShrinkExpand Model.Auxiliaries
  Spec.Blocks Spec.Relabel Spec.Contract Spec.Values Spec.Plain Spec.Svd Spec.Grid Spec.Linear Spec.Overlap Spec.Energy Proof.CoreFacts Proof.LinearFacts Proof.NormFacts Proof.WholeFacts Proof.GradientRun Proof.ScalarZ Proof.ExTensors.
Import ListNotations.
Open Scope nat_scope.

(** ** the overlap; the edges of u may be in another order than those of t *)
Theorem C98_overlap : forall (R : Type) (RR : Scalar R), exact_arithmetic R ->
  forall (E : @env R) (I : internal), NoDup [i_contract_0 I; i_contract_1 I; i_contract_2 I] ->
  forall (real : bool) (t u : tensor unit R), plain_tensor t -> plain_tensor u -> same_dimensions t u ->
  exists c r, conjugate E real u = Ok c /\ contract_all_edge E I t c = Ok r /\ t_names r = [] /\ to_scalar r = Ok (overlap real t u).
Proof. exact @inner_product. Qed.
Print Assumptions C98_overlap.

(** ** with itself: the sum of x conj(x) over the stored elements *)
Theorem C98_squares : forall (R : Type) (RR : Scalar R), exact_arithmetic R ->
  forall (E : @env R) (I : internal), NoDup [i_contract_0 I; i_contract_1 I; i_contract_2 I] ->
  forall (real : bool) (t : tensor unit R), plain_tensor t ->
  exists c r, conjugate E real t = Ok c /\ contract_all_edge E I t c = Ok r /\ t_names r = [] /\
    to_scalar r = Ok (rsum (map (fun x => rmul x (conjugated real x)) (stored t))).
Proof. exact @norm_contracted. Qed.
Print Assumptions C98_squares.

(** ** real numbers: it is the square of norm<2>(), and zero for the zero tensor only *)
Lemma squares_nonnegative : forall l : list R, (0 <= fold_right Rplus 0 (map (fun x => x * x) l))%R.
Proof. induction l as [|x l IH]; cbn; [lra|]. pose proof (Rle_0_sqr x). unfold Rsqr in *. lra. Qed.
Lemma squares_zero : forall l : list R, fold_right Rplus 0%R (map (fun x => x * x)%R l) = 0%R -> forall x, In x l -> x = 0%R.
Proof.
  induction l as [|y l IH]; intros H x; [intros []|]. cbn in H. pose proof (Rle_0_sqr y) as A. unfold Rsqr in A. pose proof (squares_nonnegative l) as B. intros [<-|I].
  - assert (Q : (y * y = 0)%R) by lra. apply Rmult_integral in Q. now destruct Q.
  - apply IH; [lra|exact I].
Qed.
Lemma squares_fold : forall (l : list R) a, fold_left (fun acc x => acc + x * x)%R l a = (a + fold_right Rplus 0 (map (fun x => x * x) l))%R.
Proof. induction l as [|x l IH]; intros a; cbn; [lra|]. rewrite IH. lra. Qed.
Theorem C98_norm : forall (E : @env R) (I : internal), NoDup [i_contract_0 I; i_contract_1 I; i_contract_2 I] ->
  forall (t : tensor unit R), plain_tensor t ->
  let norm2 := norm_power R 0%R Rplus (fun x => x * x)%R sqrt t in
  exists c r, conjugate E true t = Ok c /\ contract_all_edge E I t c = Ok r /\ to_scalar r = Ok (norm2 * norm2)%R /\
    (norm2 = 0%R <-> forall x, In x (stored t) -> x = 0%R).
Proof.
  intros E I N t P norm2. destruct (norm_contracted real_exact E I N true t P) as [c [r [H1 [H2 [_ H3]]]]]. exists c, r. split; [exact H1|]. split; [exact H2|].
  assert (Q : norm2 = sqrt (fold_right Rplus 0 (map (fun x => x * x) (stored t)))%R).
  { unfold norm2. rewrite norm_power_fold. f_equal. rewrite squares_fold. lra. }
  rewrite H3, Q. split; [f_equal; symmetry; apply sqrt_sqrt, squares_nonnegative|]. split.
  - intros H. apply squares_zero. apply sqrt_eq_0; [apply squares_nonnegative|exact H].
  - intros H. replace (fold_right Rplus 0 (map (fun x => x * x) (stored t)))%R with 0%R; [apply sqrt_0|]. symmetry. clear - H. induction (stored t) as [|x l IH]; [reflexivity|]. cbn.
    rewrite IH by (intros y Hy; apply H; now right). rewrite (H x) by now left. lra.
Qed.
Print Assumptions C98_norm.

Definition I98 : internal := mkInternal 101 102 103 104 105 106.
Definition d98 (d : nat) : edge unit := mkEdge false [(tt, d)].
(** the same dimensions by name, in different orders *)
Definition t98 : tensor unit Z := range_tensor [1; 2; 3] [d98 2; d98 3; d98 2].
Definition u98 : tensor unit Z := range_tensor [3; 1; 2] [d98 2; d98 2; d98 3].
Definition scalar98 (r : res (tensor unit Z)) : res Z := bind r to_scalar.
Example C98_example : plain_tensor t98 /\ plain_tensor u98 /\ same_dimensions t98 u98 /\
  let E := mkEnv 77%Z None false (fun _ => false) in
  scalar98 (bind (conjugate E true u98) (contract_all_edge E I98 t98)) = Ok (overlap true t98 u98) /\ overlap true t98 u98 <> overlap true t98 t98 /\
  scalar98 (bind (conjugate E true t98) (contract_all_edge E I98 t98)) = Ok 650%Z.
Proof.
  split; [split; [now apply range_wf|discriminate]|]. split; [split; [now apply range_wf|discriminate]|]. split; [intros [|[|[|[|n]]]]; reflexivity|].
  vm_compute. repeat split; (reflexivity || discriminate).
Qed.
