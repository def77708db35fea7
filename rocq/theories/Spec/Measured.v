(** Operators given by tensors, as the sampling reads them: the edges I for the configuration measured, the edges O for the one it is connected with. *)
From Coq Require Import List Bool Arith ZArith Reals.
From Verif Require Import Base.Outcome Model.Symmetry Model.Edge Model.Core Model.Sampling Spec.Contract Spec.Plain Spec.ExactOperator Spec.Energy Spec.SpinLattice Spec.Grid Spec.Evolution.
Import ListNotations.
Open Scope nat_scope.

(** the numbers of an operator on k sites at 2 k indices: k of edges I, k of edges O *)
Definition element_at (k : nat) (A : tensor unit R) (index : list Z) : R := operator_element k A (map Z.to_nat (firstn k index)) (map Z.to_nat (skipn k index)).
Definition read_by_sampling (k : nat) (A : tensor unit R) : operator R :=
  mkOperator k (fun index => if Nat.eqb (length index) (2 * k) then Ok (element_at k A index) else UB).
Definition integer_sites (ps : list (nat * nat)) : list (Z * Z) := map (fun p => (Z.of_nat (fst p), Z.of_nat (snd p))) ps.
(** the amplitude of the network as a function of the spins *)
Definition wave (m n : nat) (dim : bond -> nat) (T : nat -> nat -> tensor unit R) : (nat -> nat -> nat) -> R := fun s => psi m n dim T (fun i j => Z.of_nat (s i j)).
(** A with the edges I and O exchanged, applied to f *)
Definition applied_transposed (d : nat) (ps : list (nat * nat)) (A : tensor unit R) (f : (nat -> nat -> nat) -> R) : (nat -> nat -> nat) -> R := fun s =>
  Sums (repeat d (length ps)) (fun q => (f (spins_put s ps q) * operator_element (length ps) A (map (fun p => s (fst p) (snd p)) ps) q)%R).
(** every row of A has an element that is not zero; A equals its transposed *)
Definition rows_nonzero (k d : nat) (A : tensor unit R) : Prop := forall ins, site_spins k d ins -> exists outs, site_spins k d outs /\ operator_element k A ins outs <> 0%R.
Definition symmetric_operator (k d : nat) (A : tensor unit R) : Prop :=
  forall ins outs, site_spins k d ins -> site_spins k d outs -> operator_element k A ins outs = operator_element k A outs ins.
