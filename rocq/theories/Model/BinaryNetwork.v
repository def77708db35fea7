(** Binary files of the lattices of include/square: AbstractNetworkLattice, SimpleUpdateLattice, ExactLattice, SamplingGradientLattice.
    Tensors without symmetry. *)
From Coq Require Import List Bool Arith ZArith.
From Verif Require Import Base.Outcome Base.SMap Model.Symmetry Model.Edge Model.Core Model.EdgeOperator Model.Contract Model.Binary Model.Spins.
From Verif Require Model.Schedule.
Import ListNotations.

(** std::tuple<char, int, int>, the key of an environment: libstdc++ stores the last component first; three bytes of padding at the end.
    A letter other than D and R is outside of the model *)
#[global] Instance Plain_bond : Plain Schedule.bond := {
  size_of := 12;
  to_bytes := fun pad k => little 4 (snd (snd k)) ++ little 4 (fst (snd k)) ++ [match fst k with Schedule.DirD => 68 | Schedule.DirR => 82 end; pad; pad; pad]%Z;
  from_bytes := fun l =>
    match nth 8 l 0%Z with
    | 68%Z => Some (Schedule.DirD, (signed 4 (firstn 4 (skipn 4 l)), signed 4 (firstn 4 l)))
    | 82%Z => Some (Schedule.DirR, (signed 4 (firstn 4 (skipn 4 l)), signed 4 (firstn 4 l)))
    | _ => None
    end }.

Section Network.
  Context {R V : Type} {RR : Scalar R} {RIO : ScalarIO R} {VIO : ScalarIO V} {NIO : NameIO}.
  Notation tens := (tensor unit R).
  Notation spectrum := (list (unit * list V)).
  Variables (pad : Z) (junk : R) (vjunk : V).

  (** abstract_network_lattice.hpp:30-33 *)
  Record network_file := mkNetworkFile { nf_base : lattice; nf_virtual : nat; nf_sites : list (list tens) }.
  (** 70-77 *)
  Definition dump_network (hp : list tens) (x : network_file) : res bytes :=
    bind (dump_lattice pad hp (nf_base x)) (fun b =>
    bind (write_list pad (write_list pad (dump_tensor pad)) (nf_sites x)) (fun l => Ok (b ++ to_bytes pad (nf_virtual x) ++ l))).
  (** 79-86 *)
  Definition load_network (hp : list tens) (x : network_file) : reader (list tens * network_file) := fun s =>
    bind (load_lattice pad junk hp (nf_base x) s) (fun b =>
    bind (read_plain (holding pad (nf_virtual x)) (snd b)) (fun v =>
    bind (read_list (read_list (load_tensor pad junk)) (snd v)) (fun l => Ok ((fst (fst b), mkNetworkFile (snd (fst b)) (fst v) (fst l)), snd l)))).

  (** simple_update_lattice.hpp:327-337 *)
  Record simple_file := mkSimpleFile { sf_network : network_file; sf_environment : list (Schedule.bond * spectrum) }.
  Definition dump_simple (hp : list tens) (x : simple_file) : res bytes :=
    bind (dump_network hp (sf_network x)) (fun b =>
    bind (mapM (fun ks => bind (dump_singular pad (snd ks)) (fun l => Ok (to_bytes pad (fst ks) ++ l))) (sf_environment x)) (fun l =>
    Ok (b ++ write_count pad (length (sf_environment x)) ++ concat l))).
  (** 339-353; the loop counter is an int: 2^31 environments and more are outside of the model.  A new tuple holds zeros *)
  Definition load_simple (hp : list tens) (x : simple_file) : reader (list tens * simple_file) := fun s =>
    bind (load_network hp (sf_network x) s) (fun n =>
    bind (read_count (snd n)) (fun k =>
    bind (repeatM (fst k) (fun st =>
            bind (read_plain (repeat (Some 0%Z) 12) (snd st)) (fun p =>
            bind (load_singular pad vjunk (snd p)) (fun v => Ok (mset (fst p) (fst v) (fst st), snd v)))) ([], snd k)) (fun e =>
    Ok ((fst (fst n), mkSimpleFile (snd (fst n)) (fst e)), snd e)))).

  (** exact_lattice.hpp:129-143 *)
  Record exact_file := mkExactFile { xf_base : lattice; xf_vector : tens }.
  Definition dump_exact (hp : list tens) (x : exact_file) : res bytes :=
    bind (dump_lattice pad hp (xf_base x)) (fun b => bind (dump_tensor pad (xf_vector x)) (fun v => Ok (b ++ v))).
  Definition load_exact (hp : list tens) (x : exact_file) : reader (list tens * exact_file) := fun s =>
    bind (load_lattice pad junk hp (xf_base x) s) (fun b =>
    bind (load_tensor pad junk (snd b)) (fun v => Ok ((fst (fst b), mkExactFile (snd (fst b)) (fst v)), snd v))).

  (** sampling_gradient_lattice.hpp:562-570 *)
  Record sampling_file := mkSamplingFile { gf_network : network_file; gf_cut : nat; gf_spins : @spins R }.
  Definition dump_sampling (hp : list tens) (x : sampling_file) : res bytes :=
    bind (dump_network hp (gf_network x)) (fun b =>
    bind (write_list pad (fun row => Ok (write_vector pad row)) (s_spin (gf_spins x))) (fun l => Ok (b ++ to_bytes pad (gf_cut x) ++ l))).
  (** 572-584: a new configuration of the size read; the spins are set in it unless the table read is empty *)
  Variables (E : @env R) (J : internal).
  Definition load_sampling (hp : list tens) (x : sampling_file) : reader (list tens * sampling_file) := fun s =>
    bind (load_network hp (gf_network x) s) (fun n =>
    bind (read_plain (holding pad (gf_cut x)) (snd n)) (fun c =>
    let y := snd (fst n) in
    let m := Z.to_nat (l_m (nf_base y)) in
    let k := Z.to_nat (l_n (nf_base y)) in
    bind (read_list (read_vector pad 0%Z) (snd c)) (fun l =>
    bind (match fst l with [] => Ok (fresh m k) | _ => initialize_spin E J m k (nf_sites y) (cell (fst l)) (fresh m k) end) (fun sp =>
    Ok ((fst (fst n), mkSamplingFile y (fst c) sp), snd l))))).
End Network.
