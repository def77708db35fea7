(** The lattices of the simple update that a program can have: a new one, and what the terms of updates make of it. *)
From Coq Require Import List Bool Arith ZArith.
From Verif Require Import Base.Outcome Model.Symmetry Model.Core Model.SimpleTensor Spec.Contract Spec.Plain Spec.Grid Spec.ExactOperator Spec.WeightedLattice Spec.LocalUpdate.
From Verif Require Model.SimpleUpdate.
Import ListNotations.

Section LatticeLife.
  Context {R V : Type} {RR : Scalar R}.
  Notation tens := (tensor unit R).
  Notation net := (SimpleUpdate.network (res tens) (res (list (unit * list V)))).
  (** an operator for the sites of a term: one site of the lattice, or the two sites of a bond in one of the two orders *)
  Definition term_fits (m n d : nat) (ps : list (nat * nat)) (U : tens) : Prop :=
    (exists p, ps = [p] /\ fst p < m /\ snd p < n /\ fits_operator 1 d U) \/
    exists b, (ps = [first_site b; second_site b] \/ ps = [second_site b; first_site b]) /\ In b (bonds m n) /\ fits_operator 2 d U.
  (** lattices with m rows, n columns and d spin states that are made with the constructor [new] and terms of updates, and the largest dimension D given
      so far; [step] is a term of an update *)
  Inductive made (m n d : nat) (new : nat -> net -> Prop) (step : nat -> list (nat * nat) -> tens -> net -> res (net * bool)) : nat -> net -> Prop :=
  | made_new : forall D x, new D x -> made m n d new step D x
  | made_term : forall D x cut ps U x' w, made m n d new step D x -> 0 < cut -> term_fits m n d ps U -> step cut ps U x = Ok (x', w) -> made m n d new step (Nat.max D cut) x'.
  (** a lattice whose bonds have dimensions up to D *)
  Definition lattice_up_to (m n d D : nat) (x : net) : Prop := exists dim T, simple_lattice m n d dim T x /\ forall b, In b (bonds m n) -> dim b <= D.
End LatticeLife.
