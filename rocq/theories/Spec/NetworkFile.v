(** What it means that a lattice of tensors survives being written and read. *)
From Coq Require Import List Bool Arith ZArith.
From Verif Require Import Base.Outcome Base.SMap Model.Symmetry Model.Edge Model.Core Model.Binary Model.BinaryNetwork Model.Spins Spec.Binary.
From Verif Require Model.Schedule.
Import ListNotations.

Section NetworkFile.
  Context {R V : Type}.
  Notation tens := (tensor unit R).
  Notation spectrum := (list (unit * list V)).
  Variable good : tens -> Prop.
  Variable good_value : V -> Prop.
  (** a lattice that fits into the memory of the machine and into its integers *)
  Record storable_network (hp : list tens) (x : @network_file R) : Prop := {
    sn_base : storable_lattice good hp (nf_base x);
    sn_virtual : fits (nf_virtual x);
    sn_rows : fits (length (nf_sites x));
    sn_row : forall row, In row (nf_sites x) -> fits (length row);
    sn_site : forall row t, In row (nf_sites x) -> In t row -> good t }.
  Record storable_simple (hp : list tens) (x : @simple_file R V) : Prop := {
    ss_network : storable_network hp (sf_network x);
    ss_sorted : msorted (sf_environment x);
    ss_count : (Z.of_nat (length (sf_environment x)) < 2 ^ 31)%Z;
    ss_environment : forall k v, In (k, v) (sf_environment x) -> fits_int (fst (snd k)) /\ fits_int (snd (snd k)) /\ exists l, v = [(tt, l)] /\ fits (length l) /\ forall a, In a l -> good_value a }.
  (** equal tensors on all sites *)
  Definition same_network (hp hp' : list tens) (x x' : @network_file R) : Prop :=
    same_lattice hp hp' (nf_base x) (nf_base x') /\ nf_virtual x = nf_virtual x' /\ Forall2 (Forall2 same_tensor) (nf_sites x) (nf_sites x').
End NetworkFile.
