(** The energy of a square lattice of real tensors as a function of one element of one tensor, and samples that follow the squared amplitude. *)
From Coq Require Import List Bool Arith ZArith Reals.
From Verif Require Import Base.Outcome Model.Symmetry Model.Edge Model.Core Model.EdgeOperator Model.Contract Model.Auxiliaries Model.Spins
  Spec.Blocks Spec.Contract Spec.Plain Spec.Grid Spec.SquareLattice Spec.SpinLattice.
Import ListNotations.

(** exact real numbers as scalars *)
#[export] Instance ScalarReal : Scalar R := {| rzero := 0%R; rone := 1%R; radd := Rplus; rmul := Rmult; ropp := Ropp; rsub := Rminus; rdiv := Rdiv; rconj := fun x => x |}.

Section Energy.
  Variables (m n d : nat) (dim : bond -> nat) (T : nat -> nat -> tensor unit R).

  (** a configuration is the list of the spins, row by row; all of them *)
  Definition all_spins : list (list nat) := tuples (repeat (seq 0 d) (m * n)).
  Definition spin_on (t : list nat) (i j : nat) : nat := nth (i * n + j) t 0.
  Definition as_spins (t : list nat) (i j : nat) : Z := Z.of_nat (spin_on t i j).
  Definition total (l : list (list nat)) (f : list nat -> R) : R := fold_right Rplus 0%R (map f l).

  (** a Hamiltonian is a matrix between configurations *)
  Variable h : list nat -> list nat -> R.
  Definition symmetric : Prop := forall t t', In t all_spins -> In t' all_spins -> h t t' = h t' t.
  Definition applied_to (f : list nat -> R) (t : list nat) : R := total all_spins (fun t' => (h t t' * f t')%R).
  Definition squares (f : list nat -> R) : R := total all_spins (fun t => (f t * f t)%R).
  (** <f|h|f> / <f|f> *)
  Definition energy (f : list nat -> R) : R := (total all_spins (fun t => (f t * applied_to f t)%R) / squares f)%R.

  (** the amplitude *)
  Definition psi_of (t : list nat) : R := psi m n dim T (as_spins t).
  (** the amplitude after the element p, u, v, l, r of site (i, j) is replaced by x *)
  Definition psi_with (i j p u v l r : nat) (x : R) (t : list nat) : R :=
    network_sum m n dim (fun i' j' u' v' l' r' =>
      if Nat.eqb i' i && Nat.eqb j' j && Nat.eqb (spin_on t i' j') p && (Nat.eqb u' u && Nat.eqb v' v && Nat.eqb l' l && Nat.eqb r' r) then x
      else spin_elements (T i' j') (spin_on t i' j') u' v' l' r').
  (** the energy the sampling assigns to a configuration *)
  Definition local_energy (t : list nat) : R := (applied_to psi_of t / psi_of t)%R.

  (** lists of configurations, longer and longer say, in which every configuration occurs with a frequency that tends to its squared amplitude *)
  Definition occurrences (t : list nat) (l : list (list nat)) : nat := count_occ (list_eq_dec Nat.eq_dec) l t.
  Definition follows_squares (picked : nat -> list (list nat)) : Prop :=
    (forall k, picked k <> [] /\ forall t, In t (picked k) -> In t all_spins /\ psi_of t <> 0%R) /\
    forall t, In t all_spins -> Un_cv (fun k => (INR (occurrences t (picked k)) / INR (length (picked k)))%R) (psi_of t * psi_of t / squares psi_of)%R.
  (** a configuration without amplitude has none for other values of the element, or the Hamiltonian does not lead to it *)
  Definition zeros_harmless (i j p u v l r : nat) : Prop :=
    forall t, In t all_spins -> psi_of t = 0%R -> (forall x, psi_with i j p u v l r x t = 0%R) \/ applied_to psi_of t = 0%R.
End Energy.
