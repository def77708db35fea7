(** Spin 1/2: exchange of two spins, the number of spins that are down, and the terms of the Heisenberg model. *)
From Coq Require Import List Bool Arith ZArith.
From Verif Require Import Base.Outcome Model.Symmetry Model.Core Spec.Contract Spec.Plain Spec.Grid Spec.ExactState Spec.ExactOperator Spec.LocalUpdate.
From Verif Require Spec.Bonds.
Import ListNotations.

(** half = 1/2, mhalf = -1/2, [imaginary a] = a i in the complex numbers C, [part] the real part *)
Record spin_numbers {R C : Type} {RR : Scalar R} {RC : Scalar C} (half mhalf : R) (imaginary : R -> C) (part : C -> R) : Prop := {
  sn_half : radd half half = rone;
  sn_minus : radd half mhalf = rzero;
  sn_zero : part rzero = rzero;
  sn_square : forall a b, radd (part (rmul (imaginary a) (imaginary b))) (rmul a b) = rzero }.

(** s with the spins of the sites p and q exchanged *)
Definition swapped (p q : nat * nat) (s : nat -> nat -> nat) : nat -> nat -> nat :=
  fun i j => if pair_eqb p (i, j) then s (fst q) (snd q) else if pair_eqb q (i, j) then s (fst p) (snd p) else s i j.
(** f gives the same for equal configurations *)
Definition extensional {R : Type} (f : (nat -> nat -> nat) -> R) : Prop := forall s s', (forall i j, s i j = s' i j) -> f s = f s'.
(** the number of sites with spin 1 *)
Definition spins_down (m n : nat) (s : nat -> nat -> nat) : nat := fold_right Nat.add 0 (map (fun p => s (fst p) (snd p)) (sites m n)).
(** f is zero except where k spins are 1 *)
Definition in_sector {R : Type} {RR : Scalar R} (m n k : nat) (f : (nat -> nat -> nat) -> R) : Prop := forall s, spins_within m n 2 s -> spins_down m n s <> k -> f s = rzero.

(** the terms on a lattice with M rows and N columns: one site; a site and the one below it; a site and the one to its right *)
Definition site_term (M N : Z) (p : list (Z * Z)) : Prop := exists a, p = [a] /\ Bonds.inside M N a.
Definition below_term (M N : Z) (p : list (Z * Z)) : Prop := exists i j, p = [(i, j); (i + 1, j)%Z] /\ Bonds.inside M N (i, j) /\ Bonds.inside M N (i + 1, j)%Z.
Definition right_term (M N : Z) (p : list (Z * Z)) : Prop := exists i j, p = [(i, j); (i, j + 1)%Z] /\ Bonds.inside M N (i, j) /\ Bonds.inside M N (i, j + 1)%Z.
(** all terms exchange neighbours or other pairs of sites with the same operator *)
Definition pair_terms {R : Type} {RR : Scalar R} (m n : nat) (t : tensor unit R) (terms : list (list (nat * nat) * tensor unit R)) : Prop :=
  Forall (fun po => snd po = t /\ exists p q, fst po = [p; q] /\ on_lattice m n [p; q]) terms.
