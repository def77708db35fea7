(** C92: the spin operators Sx, Sy, Sz obey the algebra of spins when the library applies them.  [applied d ps A f]: the operator A on the sites ps applied to the state f, as
    the exact update and the terms of the simple update do (C83, C85; Spec/ExactOperator.v); [extensional]: f gives the same for equal configurations. *)
From Coq Require Import List Bool Arith ZArith QArith Qcanon Qreals Reals Lia.
From Verif Require Import Base.Outcome Base.SMap Model.Symmetry Model.Edge Model.Core Model.EdgeOperator Model.SpinOperators
  Spec.Contract Spec.Plain Spec.Grid Spec.Svd Spec.ExactState Spec.ExactOperator Spec.SpinModel Proof.SpinAlgebra Proof.ScalarQ Proof.ExExact Proof.ExObserve.
From Verif Require Model.Sampling Spec.Sampling.
Import ListNotations.
Local Open Scope nat_scope.

(** full claim: Sx Sy - Sy Sx = i Sz *)
Definition spin_algebra : Prop :=
  forall (C : Type) (RC : Scalar C), exact_arithmetic C -> associative_product C -> distributive_product C ->
  forall half mhalf i junk : C, radd half half = rone -> radd half mhalf = rzero -> radd (rmul i i) rone = rzero ->
  forall X Y Z, spin_x half junk = Ok X -> spin_y half mhalf (rmul i) junk = Ok Y -> spin_z half mhalf junk = Ok Z ->
  forall p (f : (nat -> nat -> nat) -> C) s, extensional f -> s (fst p) (snd p) < 2 ->
  applied 2 [p] X (applied 2 [p] Y f) s = radd (applied 2 [p] Y (applied 2 [p] X f) s) (rmul i (applied 2 [p] Z f s)).
(** what holds instead, for the three pairs: Sx Sy + i Sz = Sy Sx, that is the algebra with -i *)
Theorem C92_reversed :
  forall (C : Type) (RC : Scalar C), exact_arithmetic C -> associative_product C -> distributive_product C ->
  forall half mhalf i junk : C, radd half half = rone -> radd half mhalf = rzero -> radd (rmul i i) rone = rzero ->
  exists X Y Z, spin_x half junk = Ok X /\ spin_y half mhalf (rmul i) junk = Ok Y /\ spin_z half mhalf junk = Ok Z /\
  forall p f s, extensional f -> s (fst p) (snd p) < 2 ->
    radd (applied 2 [p] X (applied 2 [p] Y f) s) (rmul i (applied 2 [p] Z f s)) = applied 2 [p] Y (applied 2 [p] X f) s /\
    radd (applied 2 [p] Y (applied 2 [p] Z f) s) (rmul i (applied 2 [p] X f s)) = applied 2 [p] Z (applied 2 [p] Y f) s /\
    radd (applied 2 [p] Z (applied 2 [p] X f) s) (rmul i (applied 2 [p] Y f s)) = applied 2 [p] X (applied 2 [p] Z f) s.
Proof. exact @commutators. Qed.
Print Assumptions C92_reversed.

(** pairs of rational numbers; the state is one when the spin is up *)
Definition half92 : cplx := (Q2Qc (1 # 2), 0%Qc).
Definition mhalf92 : cplx := (Q2Qc (-1 # 2), 0%Qc).
Definition i92 : cplx := (0%Qc, 1%Qc).
Definition up92 (s : nat -> nat -> nat) : cplx := if s 0 0 =? 0 then rone else rzero.
Definition of92 (r : res (tensor unit cplx)) : tensor unit cplx := match r with Ok t => t | _ => operator83 1 (fun _ => rzero) end.
Lemma assoc92 : associative_product cplx.
Proof. intros [a b] [c d] [e f]. cbn. f_equal; ring. Qed.
Lemma distr92 : distributive_product cplx.
Proof. intros [a b] [c d] [e f]. cbn. f_equal; ring. Qed.
Example C92_numbers : exact_arithmetic cplx /\ associative_product cplx /\ distributive_product cplx /\ radd half92 half92 = rone /\ radd half92 mhalf92 = rzero /\ radd (rmul i92 i92) rone = rzero /\ extensional up92.
Proof.
  split; [exact c_exact|]. split; [exact assoc92|]. split; [exact distr92|]. split; [|split; [|split]].
  1-3: unfold half92, mhalf92, i92; cbn; f_equal; apply Qc_is_canon; reflexivity.
  intros s s' H. unfold up92. now rewrite H.
Qed.
Theorem C92_algebra_refuted : ~ spin_algebra.
Proof.
  intros H. destruct C92_numbers as [N1 [N2 [N3 [N4 [N5 [N6 N7]]]]]].
  specialize (H cplx _ N1 N2 N3 half92 mhalf92 i92 rzero N4 N5 N6 (of92 (spin_x half92 rzero)) (of92 (spin_y half92 mhalf92 (rmul i92) rzero)) (of92 (spin_z half92 mhalf92 rzero)) eq_refl eq_refl eq_refl (0, 0) up92 (fun _ _ => 0) N7 (le_S _ _ (le_n 1))).
  apply (f_equal (fun x : cplx => this (snd x))) in H. vm_compute in H. discriminate H.
Qed.
Print Assumptions C92_algebra_refuted.

(** the sampling reads operators the other way round.  One site and rational numbers: what is measured at a configuration *)
Definition measured92 (A : tensor unit Qc) (f : nat -> Qc) (s : nat) : res (option Qc) :=
  Sampling.observe (fun v => if Qc_eq_dec v 0 then true else false) (fun c => f (Z.to_nat (Sampling.spin c (0, 0)%Z))) Qcdiv Qcmult (fun v => v) Qcplus 0%Qc 2 [(0, 0)%Z]
    (Sampling.mkOperator 1 (fun index => match index with [i; o] => Ok (operator_element 1 A [Z.to_nat i] [Z.to_nat o]) | _ => UB end)) [[Z.of_nat s]] (f s).
(** full claim: it is the state with the operator applied, divided by the amplitude *)
Definition measured_is_applied : Prop :=
  forall (A : tensor unit Qc) (f : nat -> Qc), fits_operator 1 2 A -> f 0 <> 0%Qc -> f 1 <> 0%Qc ->
  forall s x, s < 2 -> measured92 A f s = Ok (Some x) -> x = Qcdiv (applied 2 [(0, 0)] A (fun s => f (s 0 0)) (fun _ _ => s)) (f s).
(** elements 1 for 0 to 0, 0 to 1 and 1 to 1; amplitudes 1 and 2 *)
Theorem C92_measured_refuted : ~ measured_is_applied.
Proof.
  intros H. specialize (H (operator83 1 (fun p => q_int (nth p [1; 1; 0; 1]%Z 0%Z))) (fun s => q_int (Z.of_nat (S s)))).
  specialize (H ltac:(apply operator83_ok; lia) ltac:(discriminate) ltac:(discriminate) 0 (q_int 3) ltac:(lia) ltac:(vm_compute; reflexivity)).
  apply (f_equal this) in H. vm_compute in H. discriminate H.
Qed.
Print Assumptions C92_measured_refuted.
