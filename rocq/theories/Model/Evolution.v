(** The operators of imaginary time evolution that the simple update applies.  include/square/simple_update_lattice.hpp: update, 60-72. *)
From Coq Require Import List Bool Arith ZArith.
From Verif Require Import Base.Outcome Base.SMap Model.Symmetry Model.Edge Model.Core Model.EdgeOperator Model.Elementwise Model.Exponential Model.SimpleTensor.
Import ListNotations.

Section Evolution.
  Context {R : Type} {RR : Scalar R} {ER : ExpScalar R}.
  Variables (E : @env R) (gesv : gesv_routine R) (no_name X1 X2 : name).
  (** 66-69: the set of the pairs I0 O0, I1 O1, ...  The set is sorted by name; with more than ten sites "I10" precedes "I2", here the pairs are in the order of the sites *)
  Definition site_pairs (k : nat) : list (name * name) := map (fun i => (in_name i, out_name i)) (seq 0 k).
  (** 70: (-delta_t * *term).exponential(pairs, 8) *)
  Definition evolution (k : nat) (delta_t : R) (term : tensor unit R) : res (tensor unit R) :=
    bind (scalar_number E (rmul (ropp delta_t)) term) (fun scaled => exponential E gesv no_name X1 X2 scaled (site_pairs k) 8).
End Evolution.
