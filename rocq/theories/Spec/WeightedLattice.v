(** Lattices of the simple update: tensors on the sites and an environment, a spectrum, on some of the bonds. *)
From Coq Require Import List Bool Arith ZArith.
From Verif Require Import Base.Outcome Base.SMap Model.Symmetry Model.Edge Model.Core Model.Auxiliaries Model.SimpleTensor Spec.Plain Spec.Grid Spec.SquareLattice Spec.SpinLattice.
From Verif Require Model.Schedule Model.SimpleUpdate.
Import ListNotations.

Section WeightedLattice.
  Context {R V : Type} {RR : Scalar R}.
  Notation tens := (tensor unit R).
  Notation net := (SimpleUpdate.network (res tens) (res (list (unit * list V)))).

  (** the key of a bond *)
  Definition bond_key (b : bond) : Schedule.bond :=
    match b with Right_of i j => (Schedule.DirR, (Z.of_nat i, Z.of_nat j)) | Below i j => (Schedule.DirD, (Z.of_nat i, Z.of_nat j)) end.
  (** tensors that fit on all sites; environments, where there are any, on bonds of the lattice and of their dimensions *)
  Record simple_lattice (m n d : nat) (dim : bond -> nat) (T : nat -> nat -> tens) (x : net) : Prop := {
    s_lattice : SimpleUpdate.lattice x = map (map Ok) (lattice_of m n T);
    s_site : forall i j, i < m -> j < n -> fits_spin m n dim d i j (T i j);
    s_environment : forall k s, mfind k (SimpleUpdate.environment x) = Some s -> exists b l, In b (bonds m n) /\ k = bond_key b /\ s = Ok [(tt, l)] /\ length l = dim b }.
  (** the weight of index k of a bond: one where there is no environment *)
  Definition weight_on (of_real : V -> R) (x : net) (b : bond) (k : nat) : R :=
    match mfind (bond_key b) (SimpleUpdate.environment x) with Some (Ok ((_, l) :: _)) => nth k (map of_real l) rzero | _ => rone end.
End WeightedLattice.
