(** Wave functions as vectors: one tensor with an edge P-<i>-<j> for every site. *)
From Coq Require Import List Bool Arith ZArith.
From Verif Require Import Base.Outcome Model.Symmetry Model.Edge Model.Core Model.Auxiliaries Model.Spins Model.SimpleTensor Model.Exact Proof.CoreFacts Spec.Contract Spec.Plain Spec.Grid Spec.SpinLattice Spec.Truncate.
Import ListNotations.

(** division undoes multiplication *)
Definition dividing (R : Type) {RR : Scalar R} : Prop := forall x c : R, c <> rzero -> rmul (rdiv x c) c = x.
(** only zero has no modulus, and a positive real number is not zero *)
Record modulus {R V : Type} {RR : Scalar R} (vzero : V) (greater : V -> V -> bool) (of_real : V -> R) (abs : R -> V) : Prop := {
  m_order : strict_order greater;
  m_zero : forall x, greater (abs x) vzero = false -> x = rzero;
  m_positive : forall v, greater v vzero = true -> of_real v <> rzero }.

Section ExactState.
  Context {R V : Type} {RR : Scalar R}.
  Notation tens := (tensor unit R).

  (** an edge P-<i>-<j> of dimension d for every site of m rows of n sites, no other edges *)
  Record exact_state (m n d : nat) (v : tens) : Prop := {
    e_wf : wf_tensor v;
    e_block : t_blocks v <> [];
    e_site : forall i j, i < m -> j < n -> dimension v (site_name i j) = Some d;
    e_only : forall k, In k (t_names v) -> exists i j, i < m /\ j < n /\ k = site_name i j }.
  (** the element for a configuration of spins *)
  Definition component (m n : nat) (v : tens) (s : nat -> nat -> nat) : R := value v (map (fun ij => (site_name (fst ij) (snd ij), s (fst ij) (snd ij))) (sites m n)).
  Definition spins_within (m n d : nat) (s : nat -> nat -> nat) : Prop := forall i j, i < m -> j < n -> s i j < d.
  Definition wave (m n : nat) (dim : bond -> nat) (T : nat -> nat -> tens) (s : nat -> nat -> nat) : R := psi m n dim T (fun i j => Z.of_nat (s i j)).
  (** the vector is the function up to a factor *)
  Definition proportional (m n d : nat) (f : (nat -> nat -> nat) -> R) (v : tens) : Prop := exists c, forall s, spins_within m n d s -> f s = rmul c (component m n v s).
  Definition not_zero (m n d : nat) (f : (nat -> nat -> nat) -> R) : Prop := exists s, spins_within m n d s /\ f s <> rzero.

  (** the contraction of a lattice with a weight for every index of every bond *)
  Definition weighted_wave (m n : nat) (dim : bond -> nat) (T : nat -> nat -> tens) (w : bond -> nat -> R) (s : nat -> nat -> nat) : R :=
    Over bond_eqb dim (bonds m n) (fun at_ => rmul (rprod (map (site_factor (fun i j => spin_elements (T i j) (s i j)) at_) (sites m n))) (rprod (map (fun b => w b (at_ b)) (bonds m n)))) (fun _ => 0).
End ExactState.
