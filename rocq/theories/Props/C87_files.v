(** C87: files of lattices of tensors. *)
From Coq Require Import List Bool Arith ZArith Lia.
From Verif Require Import Base.Outcome Base.SMap Model.Symmetry Model.Edge Model.Core Model.EdgeOperator Model.Contract Model.Qr Model.Svd Model.Names Model.Auxiliaries Model.Binary Model.BinaryNetwork Model.Spins
  Spec.Blocks Spec.Contract Spec.Plain Spec.Grid Spec.SquareLattice Spec.SpinLattice Spec.Lapack Spec.Factor Spec.Truncate Spec.Spectrum Spec.Svd Spec.Binary Spec.NetworkFile.
From Verif Require Import Proof.SymmetryFacts Proof.CoreFacts Proof.BinaryFacts Proof.BinaryTensor Proof.BinaryLattice Proof.BinaryNetwork Proof.ScalarZ Proof.ExTensors Proof.ExBinary.
From Verif Require Model.Schedule Props.C78_C80_spins.
Import ListNotations.

(** tensors a file can hold: scalars in [ok_scalar] and names in [ok_names] survive *)
Notation writable ok_scalar ok_names := (fun t : tensor unit _ => wf_tensor t /\ has_dimensions t /\ storable (fun _ => True) ok_scalar ok_names t).

(** ** C87.  Loading a dumped lattice, in any process and into any lattice object, gives the lattice that was written: size, dimensions, terms
    (as C48) and equal tensors on all sites *)
Theorem C87_network : forall (R : Type) (RIO : ScalarIO R) (NIO : NameIO) (ok_scalar : R -> Prop), ScalarLaws R ok_scalar ->
  forall ok_names : list name -> Prop, NameLaws NIO ok_names -> forall (pad : Z) (junk : R) (hp : list (tensor unit R)) (x : @network_file R),
  storable_network (writable ok_scalar ok_names) hp x ->
  exists b, dump_network pad hp x = Ok b /\
  forall hp0 x0, exists new x', reads (load_network pad junk hp0 x0) b (hp0 ++ new, x') /\ same_network hp (hp0 ++ new) x x'.
Proof. exact @network_file_back. Qed.
Print Assumptions C87_network.

(** and for the simple update the same environments *)
Theorem C87_simple : forall (R V : Type) (RIO : ScalarIO R) (VIO : ScalarIO V) (NIO : NameIO) (ok_scalar : R -> Prop), ScalarLaws R ok_scalar ->
  forall ok_value : V -> Prop, ScalarLaws V ok_value -> forall ok_names : list name -> Prop, NameLaws NIO ok_names ->
  forall (pad : Z) (junk : R) (vjunk : V) (hp : list (tensor unit R)) (x : @simple_file R V),
  storable_simple (writable ok_scalar ok_names) ok_value hp x ->
  exists b, dump_simple pad hp x = Ok b /\
  forall hp0 x0, exists new x', reads (load_simple pad junk vjunk hp0 x0) b (hp0 ++ new, x') /\
    same_network hp (hp0 ++ new) (sf_network x) (sf_network x') /\ sf_environment x' = sf_environment x.
Proof. exact @simple_file_back. Qed.
Print Assumptions C87_simple.

(** an exact lattice: an equal state vector *)
Theorem C87_exact : forall (R : Type) (RIO : ScalarIO R) (NIO : NameIO) (ok_scalar : R -> Prop), ScalarLaws R ok_scalar ->
  forall ok_names : list name -> Prop, NameLaws NIO ok_names -> forall (pad : Z) (junk : R) (hp : list (tensor unit R)) (x : @exact_file R),
  storable_lattice (writable ok_scalar ok_names) hp (xf_base x) -> writable ok_scalar ok_names (xf_vector x) ->
  exists b, dump_exact pad hp x = Ok b /\
  forall hp0 x0, exists new x', reads (load_exact pad junk hp0 x0) b (hp0 ++ new, x') /\
    same_lattice hp (hp0 ++ new) (xf_base x) (xf_base x') /\ same_tensor (xf_vector x) (xf_vector x').
Proof. exact @exact_file_back. Qed.
Print Assumptions C87_exact.

(** a sampling lattice: the same spins (some may be unset), and when all are set, a configuration as made by setting them (so that C78 and C80
    hold of it) with the amplitude of what was written, whatever cut tensors were held when it was written *)
Theorem C87_sampling : forall (R : Type) (RR : Scalar R) (RIO : ScalarIO R) (NIO : NameIO) (ok_scalar : R -> Prop), ScalarLaws R ok_scalar ->
  forall ok_names : list name -> Prop, NameLaws NIO ok_names -> forall (pad : Z) (junk : R), exact_arithmetic R ->
  forall (E : @env R) (J : internal), NoDup [i_contract_0 J; i_contract_1 J; i_contract_2 J] ->
  forall (hp : list (tensor unit R)) (x : @sampling_file R) (M N d : nat) (dim : bond -> nat) (T : nat -> nat -> tensor unit R) (sp : nat -> nat -> Z),
  storable_network (writable ok_scalar ok_names) hp (gf_network x) -> fits (gf_cut x) ->
  l_m (nf_base (gf_network x)) = Z.of_nat M -> l_n (nf_base (gf_network x)) = Z.of_nat N ->
  nf_sites (gf_network x) = lattice_of M N T -> (forall i j, i < M -> j < N -> fits_spin M N dim d i j (T i j)) ->
  s_spin (gf_spins x) = map (fun i => map (sp i) (seq 0 N)) (seq 0 M) -> (forall i j, i < M -> j < N -> (-1 <= sp i j < Z.of_nat d)%Z /\ fits_int (sp i j)) ->
  exists b, dump_sampling pad hp x = Ok b /\
  forall hp0 x0, exists new x' T', reads (load_sampling pad junk E J hp0 x0) b (hp0 ++ new, x') /\
    same_network hp (hp0 ++ new) (gf_network x) (gf_network x') /\ gf_cut x' = gf_cut x /\ s_spin (gf_spins x') = s_spin (gf_spins x) /\
    nf_sites (gf_network x') = lattice_of M N T' /\ (forall i j, i < M -> j < N -> same_tensor (T i j) (T' i j)) /\
    ((forall i j, i < M -> j < N -> sp i j <> (-1)%Z) -> configured E J M N dim d T' (gf_spins x') sp /\ psi M N dim T' sp = psi M N dim T sp).
Proof. exact @sampling_file_back. Qed.
Print Assumptions C87_sampling.
Theorem C87_sampling_amplitude : forall (R V : Type) (RR : Scalar R) (RIO : ScalarIO R) (NIO : NameIO) (ok_scalar : R -> Prop), ScalarLaws R ok_scalar ->
  forall ok_names : list name -> Prop, NameLaws NIO ok_names -> forall (pad : Z) (junk : R), exact_arithmetic R -> associative_product R -> distributive_product R ->
  forall (E : @env R) (J : internal) (Iq : qr_names) (Is : svd_names) (L : qr_lapack R) (gesvd : nat -> nat -> list R -> bool * (list V * list R * list R))
    (vzero vjunk : V) (greater : V -> V -> bool) (of_real : V -> R),
  NoDup [i_contract_0 J; i_contract_1 J; i_contract_2 J] -> own_names Iq Is -> qr_sound L -> svd_sound of_real vzero greater gesvd -> strict_order greater ->
  forall hp (x : @sampling_file R) M N d dim T sp, 0 < M -> 0 < N -> 0 < gf_cut x ->
  storable_network (writable ok_scalar ok_names) hp (gf_network x) -> fits (gf_cut x) ->
  l_m (nf_base (gf_network x)) = Z.of_nat M -> l_n (nf_base (gf_network x)) = Z.of_nat N ->
  nf_sites (gf_network x) = lattice_of M N T -> (forall i j, i < M -> j < N -> fits_spin M N dim d i j (T i j)) ->
  s_spin (gf_spins x) = map (fun i => map (sp i) (seq 0 N)) (seq 0 M) -> (forall i j, i < M -> j < N -> (0 <= sp i j < Z.of_nat d)%Z /\ fits_int (sp i j)) ->
  rows_within M N dim (gf_cut x) ->
  exists b, dump_sampling pad hp x = Ok b /\
  forall hp0 x0, exists hp' x', reads (load_sampling pad junk E J hp0 x0) b (hp', x') /\
    unless_reported L gesvd (fun v => v = psi M N dim T sp)
      (spin_amplitude E J Iq Is L gesvd vzero vjunk greater of_real (Z.to_nat (l_m (nf_base (gf_network x')))) (Z.to_nat (l_n (nf_base (gf_network x')))) (gf_cut x') (gf_spins x')).
Proof. exact @sampling_file_amplitude. Qed.
Print Assumptions C87_sampling_amplitude.

(** the two rows of two sites of C78, one term, and two environments *)
Import C78_C80_spins.
Definition base87 : lattice := mkLattice 2 2 2 [([(0, 0); (0, 1)]%Z, 0)].
Definition heap87 : list (tensor unit Z) := [T78 0 0].
Definition network87 : @network_file Z := mkNetworkFile base87 2 (lattice_of 2 2 T78).
Definition simple87 : @simple_file Z Z := mkSimpleFile network87 [((Schedule.DirD, (0, 1)%Z), [(tt, [2; 1]%Z)]); ((Schedule.DirR, (0, 0)%Z), [(tt, [3; 1]%Z)])].
Definition sampling87 (c : @spins Z) : @sampling_file Z := mkSamplingFile network87 4 c.
Lemma T78_writable : forall i j, i < 2 -> j < 2 -> writable int64 fast_ok (T78 i j).
Proof.
  intros i j Hi Hj. split; [exact (p_wf _ _ _ _ _ _ _ (fits78 _ i j Hi Hj))|]. assert (D : (i = 0 \/ i = 1) /\ (j = 0 \/ j = 1)) by lia. clear Hi Hj.
  destruct D as [[-> | ->] [-> | ->]]; (split; [intros _ e; vm_compute; intros H; repeat destruct H as [<-|H]; try discriminate; destruct H|
               apply (storableb_ok (fun _ => true)); [trivial|]; vm_compute; reflexivity]).
Qed.
Example C87_hypotheses : storable_simple (writable int64 fast_ok) int64 heap87 simple87 /\ writable int64 fast_ok (T78 1 0).
Proof.
  split; [|apply T78_writable; lia]. constructor.
  - constructor.
    + constructor; [split; now vm_compute|split; now vm_compute|now vm_compute|repeat constructor|now vm_compute|].
      intros p i [E|[]]; injection E as <- <-; (split; [reflexivity|]); (split; [intros xy [<-|[<-|[]]]; split; split; now vm_compute|]). exists (T78 0 0). split; [reflexivity|]. apply T78_writable; lia.
    + now vm_compute.
    + now vm_compute.
    + intros row Hrow. apply in_map_iff in Hrow as [i [<- _]]. rewrite map_length. now vm_compute.
    + intros row t Hrow Ht. apply in_map_iff in Hrow as [i [<- Hi]]. apply in_map_iff in Ht as [j [<- Hj]]. apply in_seq in Hi, Hj. apply T78_writable; lia.
  - repeat constructor.
  - now vm_compute.
  - intros k v [E|[E|[]]]; injection E as <- <-; (split; [split; now vm_compute|split; [split; now vm_compute|]]); eexists; (split; [reflexivity|]); (split; [now vm_compute|]);
      intros a [<-|[<-|[]]]; split; now vm_compute.
Qed.
Example C87_hypotheses_sampling : (forall i j, i < 2 -> j < 2 -> fits_spin 2 2 dim78 2 i j (T78 i j)) /\ s_spin (c78 actions78) = map (fun i => map (spins78 i) (seq 0 2)) (seq 0 2) /\
  (forall i j, i < 2 -> j < 2 -> (0 <= spins78 i j < 2)%Z /\ fits_int (spins78 i j)) /\ rows_within 2 2 dim78 4.
Proof.
  split; [intros; now apply fits78|]. split; [vm_compute; reflexivity|]. split; [|exact (proj1 (proj2 C78_hypotheses))].
  intros i j Hi Hj. assert (D : (i = 0 \/ i = 1) /\ (j = 0 \/ j = 1)) by lia. clear Hi Hj. unfold fits_int. destruct D as [[-> | ->] [-> | ->]]; cbn; lia.
Qed.
Example C87_simple_example : exists b hp x, @dump_simple Z Z _ _ fast_name_io 7 heap87 simple87 = Ok b /\
  @load_simple Z Z _ _ fast_name_io 7 77%Z 78%Z [] (mkSimpleFile (mkNetworkFile (mkLattice 0 0 0 []) 9 []) []) (b, true) = Ok ((hp, x), ([], true)) /\
  sf_environment x = sf_environment simple87 /\ nf_sites (sf_network x) = lattice_of 2 2 T78 /\ nf_virtual (sf_network x) = 2 /\ l_m (nf_base (sf_network x)) = 2%Z.
Proof. do 3 eexists. split; [vm_compute; reflexivity|]. split; [vm_compute; reflexivity|]. repeat split; vm_compute; reflexivity. Qed.
Example C87_sampling_example : exists b hp x, @dump_sampling Z _ fast_name_io 7 heap87 (sampling87 (c78 actions78)) = Ok b /\
  @load_sampling Z _ _ fast_name_io 7 77%Z exE J78 [] (mkSamplingFile (mkNetworkFile (mkLattice 0 0 0 []) 9 []) 0 (fresh 0 0)) (b, true) = Ok ((hp, x), ([], true)) /\
  amp78 (gf_spins x) = Ok (13776%Z, false) /\ psi 2 2 dim78 T78 spins78 = 13776%Z /\ gf_cut x = 4.
Proof. do 3 eexists. split; [vm_compute; reflexivity|]. split; [vm_compute; reflexivity|]. repeat split; vm_compute; reflexivity. Qed.
