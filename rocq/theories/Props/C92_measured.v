(** C92, second part: what the sampling measures for an operator, compared with what the updates apply.  Scalars are Coq's real numbers.  [observe]: what one measurement of the sampling adds for
    a term; [read_by_sampling k A]: the operator of the tensor A on k sites; [t]: the spins of all sites in a list, [in_rows] in rows, [spin_on] as a function; [wave]: the amplitude of the lattice;
    [applied d ps A f]: A applied to f as by the updates, which contract the edges I with the state; [applied_transposed]: with the edges O instead. *)
From Coq Require Import List Bool Arith ZArith Reals Lra Lia.
From Verif Require Import Base.Outcome Base.SMap Model.Symmetry Model.Edge Model.Core Model.Schedule Model.Auxiliaries Model.Spins Model.Sampling Model.Statistics
  Spec.Blocks Spec.Sampling Spec.ExactOperator Spec.Contract Spec.Plain Spec.Grid Spec.SpinLattice Spec.Energy Spec.EnergyTerms Spec.Evolution Spec.Measured
  Proof.CoreFacts Proof.MeasuredFacts Proof.ExTensors Proof.ExFilled Proof.ExObserve.
Import ListNotations.
Open Scope nat_scope.

(** ** C92.  Any operator without a zero row, any sites, any lattice: the transposed operator is measured *)
Theorem C92_measured_transposed : forall (M N d : nat) (dim : bond -> nat) (T : nat -> nat -> tensor unit R) (ps : list (nat * nat)) (A : tensor unit R),
  0 < d -> NoDup ps -> (forall p, In p ps -> fst p < M /\ snd p < N) -> ps <> [] -> rows_nonzero (length ps) d A ->
  forall t, In t (all_spins M N d) -> psi_of M N dim T t <> 0%R ->
  observe zero_real (amplitude_of M N dim T) Rdiv Rmult (fun x => x) Rplus 0%R (Z.of_nat d) (integer_sites ps) (read_by_sampling (length ps) A) (in_rows M N t) (psi_of M N dim T t) =
  Ok (Some (applied_transposed d ps A (wave M N dim T) (spin_on N t) / psi_of M N dim T t)%R).
Proof. exact measured_transposed. Qed.
Print Assumptions C92_measured_transposed.

(** so an operator that equals its transposed is measured as it is applied.  Missing for the full claim: operators that are not symmetric, for which it is false (C92_measured_refuted), zero rows (C45) *)
Theorem C92_measured_partial : forall (M N d : nat) (dim : bond -> nat) (T : nat -> nat -> tensor unit R) (ps : list (nat * nat)) (A : tensor unit R),
  0 < d -> NoDup ps -> (forall p, In p ps -> fst p < M /\ snd p < N) -> ps <> [] -> rows_nonzero (length ps) d A -> symmetric_operator (length ps) d A ->
  forall t, In t (all_spins M N d) -> psi_of M N dim T t <> 0%R ->
  observe zero_real (amplitude_of M N dim T) Rdiv Rmult (fun x => x) Rplus 0%R (Z.of_nat d) (integer_sites ps) (read_by_sampling (length ps) A) (in_rows M N t) (psi_of M N dim T t) =
  Ok (Some (applied d ps A (wave M N dim T) (spin_on N t) / psi_of M N dim T t)%R).
Proof. exact measured_symmetric. Qed.
Print Assumptions C92_measured_partial.

(** one site with amplitudes 1 and 2; the operators 1, 2; 2, 1 and 1, 3; 2, 1 (rows are the edges I) *)
Definition site92 (i j : nat) : tensor unit R := filled [phys] [mkEdge false [(tt, 2)]] (fun _ p => if Nat.eqb p 0 then 1%R else 2%R).
Definition dim92 (b : bond) : nat := 2.
Definition symmetric92 : tensor unit R := operator83 1 (fun p => nth p [1; 2; 2; 1]%R 0%R).
Definition other92 : tensor unit R := operator83 1 (fun p => nth p [1; 3; 2; 1]%R 0%R).
Lemma elements92 : forall f a b, a < 2 -> b < 2 -> operator_element 1 (operator83 1 (f : nat -> R)) [a] [b] = f (a * 2 + b).
Proof. intros f [|[|a]] [|[|b]] Ha Hb; try lia; reflexivity. Qed.
Lemma spins92 : forall l, site_spins 1 2 l -> exists a, a < 2 /\ l = [a].
Proof. intros [|a [|b l]] [L B]; try discriminate L. exists a. split; [apply B; now left|reflexivity]. Qed.
Lemma psi92 : psi_of 1 1 dim92 site92 [0] = 1%R /\ psi_of 1 1 dim92 site92 [1] = 2%R.
Proof. split; cbv -[Rplus Rmult IZR]; lra. Qed.
Example C92_measured_example : rows_nonzero 1 2 symmetric92 /\ symmetric_operator 1 2 symmetric92 /\ rows_nonzero 1 2 other92 /\ ~ symmetric_operator 1 2 other92 /\
  applied 2 [(0, 0)] symmetric92 (wave 1 1 dim92 site92) (spin_on 1 [0]) = 5%R /\
  applied_transposed 2 [(0, 0)] other92 (wave 1 1 dim92 site92) (spin_on 1 [0]) = 7%R /\ applied 2 [(0, 0)] other92 (wave 1 1 dim92 site92) (spin_on 1 [0]) = 5%R.
Proof.
  assert (S0 : site_spins 1 2 [0]) by (split; [reflexivity|intros s [<-|[]]; lia]). assert (S1 : site_spins 1 2 [1]) by (split; [reflexivity|intros s [<-|[]]; lia]).
  split. { intros ins H. destruct (spins92 _ H) as [a [Ha ->]]. exists [a]. split; [exact H|]. unfold symmetric92. rewrite elements92 by assumption. destruct a as [|[|a]]; [| |lia]; cbn; lra. }
  split. { intros ins outs H H'. destruct (spins92 _ H) as [a [Ha ->]]. destruct (spins92 _ H') as [b [Hb ->]]. unfold symmetric92. rewrite !elements92 by assumption. destruct a as [|[|a]]; [| |lia]; (destruct b as [|[|b]]; [| |lia]); reflexivity. }
  split. { intros ins H. destruct (spins92 _ H) as [a [Ha ->]]. exists [a]. split; [exact H|]. unfold other92. rewrite elements92 by assumption. destruct a as [|[|a]]; [| |lia]; cbn; lra. }
  split. { intros H. specialize (H [0] [1] S0 S1). unfold other92 in H. rewrite !elements92 in H by lia. cbn in H. lra. }
  repeat split; cbv -[Rplus Rmult IZR]; lra.
Qed.
