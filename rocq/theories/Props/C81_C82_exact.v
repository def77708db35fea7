(** C81: the vector of an exact lattice made from a lattice of tensors.  C82: exact lattices and sampling lattices made from a lattice of the
    simple update.
    [wave T s]: the contraction of the lattice [T] with the edge P of every site fixed at the spin [s] of the site; [weighted_wave T w s]: the
    same with a factor [w b k] for index k of bond b; [component v s]: the element of the vector; [proportional f v]: f is the vector times a
    factor (Spec/ExactState.v).  [weight_on x]: the environments of the lattice [x], one where there is none (Spec/WeightedLattice.v).
    The vector is divided by its largest modulus on the way, which is possible if the wave function is not zero.  Exact arithmetic, in which
    division undoes multiplication ([dividing]) and only zero has modulus zero ([modulus]). *)
From Coq Require Import String Ascii List Bool Arith ZArith QArith Qcanon Lia.
From Verif Require Import Base.Outcome Base.SMap Model.Symmetry Model.Edge Model.Core Model.EdgeOperator Model.Contract Model.Auxiliaries Model.Spins Model.SimpleTensor Model.Exact
  Spec.Contract Spec.Plain Spec.Grid Spec.Truncate Spec.Svd Spec.SquareLattice Spec.SpinLattice Spec.ExactState Spec.WeightedLattice Proof.ExactMain Proof.WeightedMain Proof.ScalarQ Proof.ExFilled Proof.ExExact.
From Verif Require Model.Schedule Model.SimpleUpdate Proof.SymmetryFacts Proof.SimpleUpdateFacts.
From Coq Require Qcabs.
Import ListNotations.
Local Open Scope nat_scope.

(** ** C81 *)
Theorem C81_exact_vector :
  forall (R V : Type) (RR : Scalar R), exact_arithmetic R -> associative_product R -> distributive_product R -> dividing R ->
  forall (E : @env R) (J : internal), NoDup [i_contract_0 J; i_contract_1 J; i_contract_2 J] ->
  forall (vzero : V) (greater : V -> V -> bool) (of_real : V -> R) (abs : R -> V), modulus vzero greater of_real abs ->
  forall (M N d : nat) (dim : bond -> nat) (T : nat -> nat -> tensor unit R), (forall i j, i < M -> j < N -> fits_spin M N dim d i j (T i j)) ->
  exists v, exact_vector E J vzero greater of_real abs M N (lattice_of M N T) = Ok v /\ exact_state M N d v /\
    (not_zero M N d (wave M N dim T) -> proportional M N d (wave M N dim T) v).
Proof. exact @exact_vector_ok. Qed.
Print Assumptions C81_exact_vector.

(** ** C82 *)
Theorem C82_exact_from_simple :
  forall (R V : Type) (RR : Scalar R), exact_arithmetic R -> associative_product R -> distributive_product R -> dividing R ->
  forall (E : @env R) (J : internal), NoDup [i_contract_0 J; i_contract_1 J; i_contract_2 J] ->
  forall (vzero : V) (greater : V -> V -> bool) (of_real : V -> R) (abs : R -> V), modulus vzero greater of_real abs ->
  forall (M N d : nat) (dim : bond -> nat) (T : nat -> nat -> tensor unit R) (x : SimpleUpdate.network (res (tensor unit R)) (res (list (unit * list V)))), simple_lattice M N d dim T x ->
  let w := weight_on of_real x in
  exists v, exact_weighted E J vzero greater of_real abs M N x = Ok v /\ exact_state M N d v /\
    (not_zero M N d (weighted_wave M N dim T w) -> proportional M N d (weighted_wave M N dim T w) v).
Proof. exact @exact_weighted_ok. Qed.
Print Assumptions C82_exact_from_simple.

Theorem C82_sampling_from_simple :
  forall (R V : Type) (RR : Scalar R), exact_arithmetic R -> associative_product R -> distributive_product R -> dividing R ->
  forall (E : @env R)
  (vzero : V) (greater : V -> V -> bool) (of_real : V -> R) (abs : R -> V), modulus vzero greater of_real abs ->
  forall (M N d : nat) (dim : bond -> nat) (T : nat -> nat -> tensor unit R) (x : SimpleUpdate.network (res (tensor unit R)) (res (list (unit * list V)))), simple_lattice M N d dim T x ->
  let w := weight_on of_real x in
  exists T', sampling_sites E vzero greater of_real abs M N x = Ok (lattice_of M N T') /\ (forall i j, i < M -> j < N -> fits_spin M N dim d i j (T' i j)) /\
    (not_zero M N d (weighted_wave M N dim T w) -> exists c, forall s, spins_within M N d s -> weighted_wave M N dim T w s = rmul c (wave M N dim T' s)).
Proof. exact @sampling_ok. Qed.
Print Assumptions C82_sampling_from_simple.

(** ** two rows of two sites; an environment on one of the four bonds, of the bond below site (0, 1) *)
Definition J81 := mkInternal 1 2 3 5 6 7.
Definition spins81 (i j : nat) : nat := match i, j with 0, 1 => 1 | _, _ => 0 end.
Definition ones81 (i j : nat) : nat := 1.
Definition x82 : SimpleUpdate.network (res (tensor unit Qc)) (res (list (unit * list Qc))) :=
  SimpleUpdate.mkNetwork (map (map Ok) (lattice_of 2 2 T81)) [((Schedule.DirD, (0, 1)%Z), Ok [(tt, [q_int 1; q_int 3])])].
Example C81_hypotheses : exact_arithmetic Qc /\ associative_product Qc /\ distributive_product Qc /\ dividing Qc /\ modulus 0%Qc qgreater (fun x => x) Qcabs.Qcabs /\
  NoDup [i_contract_0 J81; i_contract_1 J81; i_contract_2 J81] /\ (forall i j, i < 2 -> j < 2 -> fits_spin 2 2 dim81 2 i j (T81 i j)) /\ not_zero 2 2 2 (wave 2 2 dim81 T81).
Proof.
  split; [exact q_exact|]. split; [exact q_assoc|]. split; [exact q_distr|]. split; [exact q_dividing|]. split; [exact q_modulus|].
  split; [repeat constructor; cbn; intuition discriminate|]. split; [intros; now apply fits81|]. exists spins81. split; [intros [|[|i]] [|[|j]] Hi Hj; cbn; lia|].
  intro H. apply (f_equal this) in H. vm_compute in H. discriminate H.
Qed.
(** the factor is the same for two configurations *)
Example C81_example : exists v, exact_vector eq_env J81 0%Qc qgreater (fun x => x) Qcabs.Qcabs 2 2 (lattice_of 2 2 T81) = Ok v /\
  map this [wave 2 2 dim81 T81 spins81; wave 2 2 dim81 T81 ones81; component 2 2 v spins81; component 2 2 v ones81] = [18420 # 1; 15721524 # 1; 1535 # 1310127; 1 # 1]%Q.
Proof. eexists. split; [vm_compute; reflexivity|]. vm_compute. reflexivity. Qed.
Example C82_hypotheses : simple_lattice 2 2 2 dim81 T81 x82 /\ not_zero 2 2 2 (weighted_wave 2 2 dim81 T81 (weight_on (fun x => x) x82)).
Proof.
  split.
  - constructor; [reflexivity|intros; now apply fits81|]. intros k s H. cbn [x82 SimpleUpdate.environment mfind] in H. destruct (eqb k _) eqn:Q in H; [|discriminate H]. injection H as <-.
    apply eqb_eq in Q. subst k. exists (Below 0 1), [q_int 1; q_int 3]. split; [cbn; auto|]. auto.
  - exists spins81. split; [intros [|[|i]] [|[|j]] Hi Hj; cbn; lia|]. intro H. apply (f_equal this) in H. vm_compute in H. discriminate H.
Qed.
Definition w82 := weighted_wave 2 2 dim81 T81 (weight_on (fun x => x) x82).
Example C82_example : exists v T', exact_weighted eq_env J81 0%Qc qgreater (fun x => x) Qcabs.Qcabs 2 2 x82 = Ok v /\ sampling_sites eq_env 0%Qc qgreater (fun x => x) Qcabs.Qcabs 2 2 x82 = Ok T' /\
  map this [w82 spins81; w82 ones81; (component 2 2 v spins81 * (w82 ones81 / component 2 2 v ones81))%Qc] = [56240 # 1; 41480592 # 1; 56240 # 1]%Q.
Proof. eexists. eexists. split; [vm_compute; reflexivity|]. split; [vm_compute; reflexivity|]. vm_compute. reflexivity. Qed.
