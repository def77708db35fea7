(** A Hamiltonian that is a sum of terms, as a matrix between configurations of spins. *)
From Coq Require Import List Bool Arith ZArith Reals.
From Verif Require Import Base.Outcome Base.SMap Model.Symmetry Model.Edge Model.Core Model.Schedule Model.Sampling
  Spec.Bonds Spec.Lattice Spec.Sampling Spec.Grid Spec.SpinLattice Spec.Energy.
Import ListNotations.

Section Terms.
  Variables (m n d : nat).
  (** the rows of a configuration given as the list of all spins *)
  Definition in_rows (t : list nat) : configuration := map (fun i => map (fun j => Z.of_nat (spin_on n t i j)) (seq 0 n)) (seq 0 m).
  (** a term: the sites it acts on, the operator, its elements.  It is like the terms of C43: sites of the lattice without repetition, no zero row; and it is symmetric *)
  Record term := mkTerm { t_sites : list (Z * Z); t_operator : operator R; t_elements : list Z -> R }.
  Definition zero_real (x : R) : bool := if Req_EM_T x 0 then true else false.
  Definition symmetric_term (a : term) : Prop :=
    NoDup (t_sites a) /\ (forall p, In p (t_sites a) -> inside (Z.of_nat m) (Z.of_nat n) p) /\ body (t_operator a) = length (t_sites a) /\
    acts_as (Z.of_nat d) (t_operator a) (t_elements a) /\ no_zero_row zero_real (Z.of_nat d) (t_operator a) (t_elements a) /\
    forall ins outs, spins_of (Z.of_nat d) (body (t_operator a)) ins -> spins_of (Z.of_nat d) (body (t_operator a)) outs -> t_elements a (ins ++ outs) = t_elements a (outs ++ ins).
  (** the element between two configurations: the sum over the terms of their elements, where the other spins agree *)
  Definition matrix_of (terms : list term) (t t' : list nat) : R :=
    fold_right Rplus 0%R (map (fun a => if agree_off (Z.of_nat m) (Z.of_nat n) (t_sites a) (in_rows t) (in_rows t')
      then t_elements a (spins_at (in_rows t) (t_sites a) ++ spins_at (in_rows t') (t_sites a)) else 0%R) terms).
End Terms.
(** the amplitude of a configuration given in rows *)
Definition amplitude_of (m n : nat) (dim : bond -> nat) (T : nat -> nat -> tensor unit R) (c : configuration) : R :=
  psi m n dim T (fun i j => spin c (Z.of_nat i, Z.of_nat j)).
