(** The exact lattice: include/square/exact_lattice.hpp and its constructors in include/square/conversion.hpp.  Input and output of lattices
    is modelled elsewhere; the output to the terminal is left out. *)
From Coq Require Import String Ascii List Bool Arith ZArith Cantor.
From Verif Require Import Base.Outcome Base.SMap Model.Symmetry Model.Edge Model.Core Model.EdgeOperator Model.Elementwise Model.Contract Model.Misc Model.ShrinkExpand Model.Auxiliaries Model.Spins Model.SimpleTensor.
From Verif Require Model.Schedule Model.SimpleUpdate.
Import ListNotations.

(** the names "D<j>", "P-<i>-<j>" *)
Definition down_name (j : nat) : name := 102 + 4 * j.
Definition site_name (i j : nat) : name := 103 + 4 * Cantor.to_nat (i, j).

Section Exact.
  Context {R V : Type} {RR : Scalar R}.
  Notation tens := (tensor unit R).
  Variables (E : @env R) (J : internal).
  Variables (vzero : V) (greater : V -> V -> bool) (of_real : V -> R) (abs : R -> V).
  Notation norm_t := (norm_t vzero greater abs).
  Notation normal := (normal vzero greater of_real abs).

  (** ** ExactLattice(SamplingGradientLattice), 47-59 of conversion.hpp *)
  Definition absorb (v : tens) (i j : nat) (t : tens) : res tens :=
    bind (contract E J v (edge_rename t [(nm Down 0, down_name j); (phys, site_name i j)]) [(nm Rgt 0, nm Lft 0); (down_name j, nm Up 0)]) (fun w => Ok (normal w)).
  Definition all_sites (M N : nat) : list (nat * nat) := flat_map (fun i => map (pair i) (seq 0 N)) (seq 0 M).
  Definition exact_vector (M N : nat) (lattice : list (list tens)) : res tens :=
    foldM (fun v ij => bind (cell lattice (fst ij) (snd ij)) (absorb v (fst ij) (snd ij))) (all_sites M N) unit_tensor.
  (** ** ExactLattice(SimpleUpdateLattice), 61-75 *)
  Definition exact_weighted (M N : nat) (n : SimpleUpdate.network (res tens) (res (list (unit * list V)))) : res tens :=
    foldM (fun v ij => bind (cell (SimpleUpdate.lattice n) (fst ij) (snd ij)) (fun t => bind (weighted_t E of_real n (fst ij) (snd ij) t) (absorb v (fst ij) (snd ij))))
      (all_sites M N) unit_tensor.

  (** ** ExactLattice.  Positions are not negative *)
  (** map_in and map_out, 70-76 and 102-108, as functions of names *)
  Definition map_in (positions : list (nat * nat)) : list (name * name) := map (fun k => (in_name k, let (x, y) := nth k positions (0, 0) in site_name x y)) (seq 0 (length positions)).
  Definition map_out (positions : list (nat * nat)) : list (name * name) := map (fun k => (out_name k, let (x, y) := nth k positions (0, 0) in site_name x y)) (seq 0 (length positions)).
  (** 77 and 109-110 *)
  Definition apply_term (v : tens) (positions : list (nat * nat)) (operator : tens) : res tens :=
    bind (contract_all_edge E J v (edge_rename operator (map_in positions))) (fun w => Ok (edge_rename w (map_out positions))).
  (** to<real<T>>(), the conversion of the only element: [to_real] is the identity for real scalars and the real part for complex ones,
      tensor.hpp:383-409 *)
  Variables (vadd vsub vmul vdiv : V -> V -> V) (vabs : V -> V) (of_nat : nat -> V) (to_real : R -> V).
  (** 92-94 *)
  Definition denominator (v : tens) : res V := bind (contract_all_edge E J v v) (fun s => bind (to_scalar s) (fun x => Ok (to_real x))).
  (** 96-118.  Both scalar types are the same *)
  Definition observe (v : tens) (positions : list (nat * nat)) (observer : tens) (calculate_denominator : bool) : res V :=
    bind (apply_term v positions observer) (fun w =>
    bind (contract_all_edge E J w v) (fun s =>
    bind (to_scalar s) (fun x =>
    let numerator := to_real x in
    if calculate_denominator then bind (denominator v) (fun y => Ok (vdiv numerator y)) else Ok numerator))).
  (** 120-126 *)
  Definition observe_energy (M N : nat) (v : tens) (hamiltonians : list (list (nat * nat) * tens)) : res V :=
    bind (foldM (fun e po => bind (observe v (fst po) (snd po) false) (fun x => Ok (vadd e x))) hamiltonians vzero) (fun e =>
    bind (denominator v) (fun y => Ok (vdiv (vdiv e y) (of_nat (M * N))))).
  (** one step of update, 67-84: the new vector and the energy *)
  Definition hamiltonian_times (v : tens) (hamiltonians : list (list (nat * nat) * tens)) : res tens :=
    bind (same_shape (env_junk E) v) (fun z =>
    foldM (fun w po => bind (apply_term v (fst po) (snd po)) (fun x => scalar_inplace E radd w x)) hamiltonians (zero_tensor z)).
  Definition update_step (a : V) (hamiltonians : list (list (nat * nat) * tens)) (v : tens) : res (tens * V) :=
    bind (hamiltonian_times v hamiltonians) (fun w =>
    let v := transform (fun x => rmul x (of_real a)) v in
    bind (scalar_inplace E rsub v w) (fun v =>
    let n := norm_t v in
    Ok (transform (fun x => rdiv x (of_real n)) v, vsub a n))).
  (** update, 62-90 *)
  Definition exact_update (M N : nat) (total_step : nat) (approximate_energy : V) (hamiltonians : list (list (nat * nat) * tens)) (v : tens) : res (tens * V) :=
    let a := vmul (vmul (vabs approximate_energy) (of_nat M)) (of_nat N) in
    bind (foldM (fun ve _ => update_step a hamiltonians (fst ve)) (seq 0 total_step) (v, vzero)) (fun ve => Ok (fst ve, vdiv (snd ve) (of_nat (M * N)))).
End Exact.
