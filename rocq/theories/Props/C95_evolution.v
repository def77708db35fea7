(** C95: the operators that the simple update applies.  [operator_element k t ins outs]: the element of an operator on k sites between the spins ins and outs; [pos] numbers the spins
    of the k sites; [H]: the matrix of -delta_t times the term.  [pade_polynomial n of_int 8]: the numerator of the Pade approximation of order (8, 8) of the exponential, its
    denominator is the one of the opposite matrix (Spec/Matrix.v). *)
From Coq Require Import String List Bool Arith ZArith QArith Qcanon Lia Permutation.
From Verif Require Import Base.Outcome Base.SMap Model.Symmetry Model.Edge Model.Core Model.EdgeOperator Model.Exponential Model.SimpleTensor Model.Evolution
  Spec.Blocks Spec.ExactOperator Spec.Contract Spec.Matrix Spec.Operator Spec.Plain Spec.SpinModel Spec.Evolution Proof.CoreFacts Proof.EvolutionFacts Proof.EvolutionEigen Proof.EvolutionKeeps Proof.ScalarQ Proof.ExTensors Proof.ExFilled Proof.ExObserve.
Import ListNotations.
Local Open Scope nat_scope.

(** ** C95.  The result acts on the same sites, which is what the updates of C89 and C90 assume, and its matrix is the approximation of exp(-delta_t term) with scaling and squaring.
    Missing: a term that is zero (below), magnitudes of 2^30 and more, a denominator without inverse *)
Theorem C95_evolution_partial : forall (R : Type) (RR : Scalar R) (ER : ExpScalar R), exact_field R of_int ->
  forall (E : @env R) (gesv : gesv_routine R) (no_name X1 X2 : name), X1 <> X2 ->
  forall (k d : nat) (delta_t : R) (t : tensor unit R), fits_operator k d t -> 0 < d ->
  exists (pos : list nat -> nat) (H : matrix), numbers_spins k d pos /\
    (forall ins outs, site_spins k d ins -> site_spins k d outs -> H (pos ins) (pos outs) = rmul (ropp delta_t) (operator_element k t ins outs)) /\
    forall (lg : Z) (V : matrix), let scaled := mscale (rdiv rone (of_int (2 ^ Z.of_nat (Z.to_nat (1 + lg))))) H in
    solves gesv (d ^ k) -> (forall l, lists (d ^ k) l H -> trunc_log2 (largest real_lt real_zero (map rabs l)) = Some lg) -> (- 2 ^ 31 <= lg < 30)%Z ->
    inverse (d ^ k) V (pade_polynomial (d ^ k) of_int 8 (mopp scaled)) ->
    exists U, evolution E gesv no_name X1 X2 k delta_t t = Ok U /\ fits_operator k d U /\
      forall ins outs, site_spins k d ins -> site_spins k d outs ->
        operator_element k U ins outs = mpow (d ^ k) (mmul (d ^ k) V (pade_polynomial (d ^ k) of_int 8 scaled)) (2 ^ Z.to_nat (1 + lg)) (pos ins) (pos outs).
Proof. exact @evolution_fits. Qed.
Print Assumptions C95_evolution_partial.

Definition E95 : @env Qc := mkEnv (q_int 77) None false (fun _ => false).
(** 2 Sx + 1 and the time step 1 / 2 *)
Definition t95 : tensor unit Qc := operator83 1 (fun p => q_int (nth p [1; 2; 2; 1]%Z 0%Z)).
Definition half95 : Qc := Q2Qc (1 # 2).
Definition H95 : @matrix Qc := fun i j => (- half95 * (if Nat.eqb i j then q_int 1 else q_int 2))%Qc.
Definition scaled95 : matrix := mscale (rdiv rone (of_int 2)) H95.
Definition inv95 (D : matrix) : matrix := by_rows 2 (let det := (D 0%nat 0%nat * D 1%nat 1%nat - D 0%nat 1%nat * D 1%nat 0%nat)%Qc in
  [(D 1%nat 1%nat / det)%Qc; (- D 0%nat 1%nat / det)%Qc; (- D 1%nat 0%nat / det)%Qc; (D 0%nat 0%nat / det)%Qc]).
(** the polynomials, with factorials in binary *)
Fixpoint fact95 (n : nat) : Z := match n with O => 1%Z | Datatypes.S m => (Z.of_nat n * fact95 m)%Z end.
Definition pade95 (A : matrix) : @matrix Qc := fun i j =>
  rsum (map (fun k => rmul (rdiv (of_int (fact95 (16 - k) * fact95 8)) (of_int (fact95 16 * fact95 k * fact95 (8 - k)))) (mpow 2 A k i j)) (seq 0 9)).
Lemma fact95_ok : forall n, Z.of_nat (fact n) = fact95 n.
Proof. induction n as [|n IH]; [reflexivity|]. change (fact (Datatypes.S n)) with (Datatypes.S n * fact n). rewrite Nat2Z.inj_mul, IH. reflexivity. Qed.
Lemma pade95_ok : forall A i j, pade_polynomial 2 of_int 8 A i j = pade95 A i j.
Proof. intros A i j. unfold pade_polynomial, pade95, pade_coefficient. apply f_equal. apply map_ext. intros k. rewrite !fact95_ok. reflexivity. Qed.
Lemma mmul_ext : forall A A' B B' : @matrix Qc, (forall i j, A i j = A' i j) -> (forall i j, B i j = B' i j) -> forall i j, mmul 2 A B i j = mmul 2 A' B' i j.
Proof. intros A A' B B' HA HB i j. unfold mmul. f_equal. apply map_ext. intros l. now rewrite HA, HB. Qed.
Definition V95 : matrix := inv95 (pade95 (mopp scaled95)).
Example C95_hypotheses : fits_operator 1 2 t95 /\ solves solver 2 /\ exact_field Qc of_int /\
  (forall a b, a < 2 -> b < 2 -> H95 a b = rmul (ropp half95) (operator_element 1 t95 [a] [b])) /\
  (forall l, lists 2 l H95 -> trunc_log2 (largest real_lt real_zero (map rabs l)) = Some 0%Z) /\
  inverse 2 V95 (pade_polynomial 2 of_int 8 (mopp scaled95)).
Proof.
  split; [apply operator83_ok; lia|]. split; [exact solver_2|]. split; [exact exact_Q|]. split.
  { intros [|[|a]] [|[|b]] Ha Hb; try lia; apply Qc_is_canon; vm_compute; reflexivity. }
  split.
  { intros l [L [c Hc]]. destruct l as [|x0 [|x1 [|x2 [|x3 [|]]]]]; try discriminate L.
    pose proof (Hc 0 0 ltac:(lia) ltac:(lia)) as Q0. pose proof (Hc 0 1 ltac:(lia) ltac:(lia)) as Q1. pose proof (Hc 1 0 ltac:(lia) ltac:(lia)) as Q2. pose proof (Hc 1 1 ltac:(lia) ltac:(lia)) as Q3.
    destruct c; cbn [cell Nat.mul Nat.add nth] in *; subst; vm_compute; reflexivity. }
  split; intros i j Hi Hj.
  1: rewrite (mmul_ext _ V95 _ (pade95 (mopp scaled95)) (fun _ _ => eq_refl) (pade95_ok _)). 2: rewrite (mmul_ext _ (pade95 (mopp scaled95)) _ V95 (pade95_ok _) (fun _ _ => eq_refl)).
  all: apply Qc_is_canon; (destruct i as [|[|i]]; [| |lia]); (destruct j as [|[|j]]; [| |lia]); vm_compute; reflexivity.
Qed.
Definition evolved95 : tensor unit Qc := match evolution E95 solver 0 11 12 1 half95 t95 with Ok U => U | _ => t95 end.
Example C95_example : (exists U, evolution E95 solver 0 11 12 1 half95 t95 = Ok U) /\
  forall a b, a < 2 -> b < 2 -> operator_element 1 evolved95 [a] [b] = mpow 2 (mmul 2 V95 (pade_polynomial 2 of_int 8 scaled95)) 2 a b.
Proof.
  split; [destruct (evolution E95 solver 0 11 12 1 half95 t95) eqn:E; [eexists; reflexivity|exfalso; revert E; vm_compute; discriminate..]|].
  intros a b Ha Hb. assert (Q : forall i j, mmul 2 V95 (pade_polynomial 2 of_int 8 scaled95) i j = mmul 2 V95 (pade95 scaled95) i j) by (intros i j; apply mmul_ext; [reflexivity|apply pade95_ok]).
  assert (Q2 : forall i j, mpow 2 (mmul 2 V95 (pade_polynomial 2 of_int 8 scaled95)) 2 i j = mpow 2 (mmul 2 V95 (pade95 scaled95)) 2 i j) by (intros i j; apply mmul_ext; [exact Q|]; intros i' j'; apply mmul_ext; [exact Q|reflexivity]).
  rewrite Q2. destruct a as [|[|a]]; destruct b as [|[|b]]; try lia; apply Qc_is_canon; vm_compute; reflexivity.
Qed.

(** ** C95, eigenfunctions.  A function of the configurations that the term multiplies by lambda is multiplied by the operator by the approximation of exp(-delta_t lambda): the same Pade
    approximation of the number, to the same power.  [w]: the inverse of the denominator at the number.  Missing: as above *)
Theorem C95_eigenfunctions_partial : forall (R : Type) (RR : Scalar R) (ER : ExpScalar R), exact_field R of_int ->
  forall (E : @env R) (gesv : gesv_routine R) (no_name X1 X2 : name), X1 <> X2 ->
  forall (k d : nat) (delta_t : R) (t : tensor unit R), fits_operator k d t -> 0 < d ->
  exists (pos : list nat -> nat) (H : matrix), numbers_spins k d pos /\
    (forall ins outs, site_spins k d ins -> site_spins k d outs -> H (pos ins) (pos outs) = rmul (ropp delta_t) (operator_element k t ins outs)) /\
    forall (lg : Z) (V : matrix), let c := rdiv rone (of_int (2 ^ Z.of_nat (Z.to_nat (1 + lg)))) in
    solves gesv (d ^ k) -> (forall l, lists (d ^ k) l H -> trunc_log2 (largest real_lt real_zero (map rabs l)) = Some lg) -> (- 2 ^ 31 <= lg < 30)%Z ->
    inverse (d ^ k) V (pade_polynomial (d ^ k) of_int 8 (mopp (mscale c H))) ->
    exists U, evolution E gesv no_name X1 X2 k delta_t t = Ok U /\
      forall ps f lambda w, length ps = k -> NoDup ps -> extensional f -> eigenfunction d ps t f lambda ->
        let x := rmul c (rmul (ropp delta_t) lambda) in rmul (pade_number of_int 8 (ropp x)) w = rone ->
        eigenfunction d ps U f (rpow (rmul w (pade_number of_int 8 x)) (2 ^ Z.to_nat (1 + lg))).
Proof. exact @evolution_eigen. Qed.
Print Assumptions C95_eigenfunctions_partial.

(** the function 1, -1 of the spin of a site is multiplied by -1 by [t95]; with delta_t = 1 / 2 and the factor 1 / 2 of the scaling the number is 1 / 4 *)
Definition f95 (s : nat -> nat -> nat) : Qc := if Nat.eqb (s 0 0) 0 then q_int 1 else q_int (-1).
Definition number95 (x : Qc) : Qc := rsum (map (fun k => rmul (rdiv (of_int (fact95 (16 - k) * fact95 8)) (of_int (fact95 16 * fact95 k * fact95 (8 - k)))) (rpow x k)) (seq 0 9)).
Lemma number95_ok : forall x, pade_number of_int 8 x = number95 x.
Proof. intros x. unfold pade_number, number95, pade_coefficient. apply f_equal. apply map_ext. intros k. rewrite !fact95_ok. reflexivity. Qed.
Definition w95 : Qc := (1 / number95 (- Q2Qc (1 # 4)))%Qc.
Example C95_eigenfunctions_example : eigenfunction 2 [(0, 0)] t95 f95 (q_int (-1)) /\ extensional f95 /\ NoDup [(0, 0)] /\
  rmul (pade_number of_int 8 (ropp (rmul (rdiv rone (of_int 2)) (rmul (ropp half95) (q_int (-1)))))) w95 = rone /\
  eigenfunction 2 [(0, 0)] evolved95 f95 (rpow (rmul w95 (pade_number of_int 8 (Q2Qc (1 # 4)))) 2).
Proof.
  split. { intros s Hs. specialize (Hs (0, 0) (or_introl eq_refl)). cbn [fst snd] in Hs. unfold applied, f95. cbn [map fst snd length repeat].
    destruct (s 0 0) as [|[|v]] eqn:Es; [| |lia]; apply Qc_is_canon; vm_compute; reflexivity. }
  split. { intros s s' Hs. unfold f95. now rewrite Hs. }
  split. { repeat constructor; intros []. }
  split. { rewrite number95_ok. apply Qc_is_canon. vm_compute. reflexivity. }
  rewrite number95_ok. intros s Hs. specialize (Hs (0, 0) (or_introl eq_refl)). cbn [fst snd] in Hs. unfold applied, f95. cbn [map fst snd length repeat].
  destruct (s 0 0) as [|[|v]] eqn:Es; [| |lia]; apply Qc_is_canon; vm_compute; reflexivity.
Qed.

(** ** C95, conservation laws.  An operator on the same sites that commutes with the term commutes with the evolution operator; if the term equals its transposed, so does the evolution
    operator.  Missing: as above *)
Theorem C95_conserved_partial : forall (R : Type) (RR : Scalar R) (ER : ExpScalar R), exact_field R of_int ->
  forall (E : @env R) (gesv : gesv_routine R) (no_name X1 X2 : name), X1 <> X2 ->
  forall (k d : nat) (delta_t : R) (t : tensor unit R), fits_operator k d t -> 0 < d ->
  exists (pos : list nat -> nat) (H : matrix), numbers_spins k d pos /\
    (forall ins outs, site_spins k d ins -> site_spins k d outs -> H (pos ins) (pos outs) = rmul (ropp delta_t) (operator_element k t ins outs)) /\
    forall (lg : Z) (V : matrix), let scaled := mscale (rdiv rone (of_int (2 ^ Z.of_nat (Z.to_nat (1 + lg))))) H in
    solves gesv (d ^ k) -> (forall l, lists (d ^ k) l H -> trunc_log2 (largest real_lt real_zero (map rabs l)) = Some lg) -> (- 2 ^ 31 <= lg < 30)%Z ->
    inverse (d ^ k) V (pade_polynomial (d ^ k) of_int 8 (mopp scaled)) ->
    exists U, evolution E gesv no_name X1 X2 k delta_t t = Ok U /\ (forall X, commuting k d X t -> commuting k d X U) /\ (equal_transposed k d t -> equal_transposed k d U).
Proof. exact @evolution_keeps. Qed.
Print Assumptions C95_conserved_partial.

(** the exchange of the two states commutes with [t95], 1, 0; 0, 2 does not *)
Definition exchange95 : tensor unit Qc := operator83 1 (fun p => q_int (nth p [0; 1; 1; 0]%Z 0%Z)).
Definition diagonal95 : tensor unit Qc := operator83 1 (fun p => q_int (nth p [1; 0; 0; 2]%Z 0%Z)).
Lemma spins95 : forall l, site_spins 1 2 l -> l = [0] \/ l = [1].
Proof. intros [|a [|b l]] [L B]; try discriminate L. specialize (B a (or_introl eq_refl)). destruct a as [|[|a]]; [now left|now right|lia]. Qed.
Example C95_conserved_example : commuting 1 2 exchange95 t95 /\ equal_transposed 1 2 t95 /\ commuting 1 2 exchange95 evolved95 /\ equal_transposed 1 2 evolved95 /\
  ~ commuting 1 2 diagonal95 t95.
Proof.
  split; [intros i o Hi Ho; destruct (spins95 _ Hi) as [-> | ->]; destruct (spins95 _ Ho) as [-> | ->]; apply Qc_is_canon; vm_compute; reflexivity|].
  split; [intros i o Hi Ho; destruct (spins95 _ Hi) as [-> | ->]; destruct (spins95 _ Ho) as [-> | ->]; apply Qc_is_canon; vm_compute; reflexivity|].
  split; [intros i o Hi Ho; destruct (spins95 _ Hi) as [-> | ->]; destruct (spins95 _ Ho) as [-> | ->]; apply Qc_is_canon; vm_compute; reflexivity|].
  split; [intros i o Hi Ho; destruct (spins95 _ Hi) as [-> | ->]; destruct (spins95 _ Ho) as [-> | ->]; apply Qc_is_canon; vm_compute; reflexivity|].
  intros H. specialize (H [0] [1] ltac:(split; [reflexivity|intros s [<-|[]]; lia]) ltac:(split; [reflexivity|intros s [<-|[]]; lia])). apply (f_equal this) in H. vm_compute in H. discriminate H.
Qed.

(** the time step 0, or a term whose elements are all zero: the logarithm of zero is converted to int *)
Theorem C95_zero_refuted : exists (k d : nat) (t : tensor unit Qc), fits_operator k d t /\ 0 < d /\ (exists a b, operator_element k t a b <> 0%Qc) /\ evolution E95 solver 0 11 12 k 0%Qc t = UB.
Proof.
  exists 1, 2, t95. split; [apply operator83_ok; lia|]. split; [lia|]. split; [|vm_compute; reflexivity]. exists [0], [0]. intros H. apply (f_equal this) in H. revert H. vm_compute. discriminate.
Qed.
Print Assumptions C95_zero_refuted.
