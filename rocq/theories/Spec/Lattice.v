(** A network of M by N tensors. *)
From Coq Require Import List ZArith.
From Verif Require Import Base.SMap Model.Schedule Model.SimpleUpdate.
Import ListNotations.

Definition rectangle {T} (M N : Z) (l : list (list T)) : Prop := length l = Z.to_nat M /\ forall row, In row l -> length row = Z.to_nat N.
(** M rows of N tensors; the environment is a std::map *)
Definition shaped {T S} (M N : Z) (n : network T S) : Prop := rectangle M N (lattice n) /\ msorted (environment n).
