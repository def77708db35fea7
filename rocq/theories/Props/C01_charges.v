(** C01: charges of every symmetry kind form an ordered abelian group with a parity. *)
From Coq Require Import Bool ZArith.
From Verif Require Import Base.SMap Model.Symmetry Spec.Charge Proof.SymmetryFacts Proof.ChargeFacts.

Theorem C01_charges_form_ordered_group :
  charge_type unit sadd szero sneg slt sodd /\
  charge_type bool sadd szero sneg slt sodd /\
  charge_type Z sadd szero sneg slt sodd /\
  charge_type fermi16 sadd szero sneg slt sodd /\
  charge_type (fermi16 * bool) sadd szero sneg slt sodd /\
  charge_type (fermi16 * Z) sadd szero sneg slt sodd.
Proof.
  exact (conj (charge_type_holds _ _ _) (conj (charge_type_holds _ _ _) (conj (charge_type_holds _ _ _)
        (conj (charge_type_holds _ _ _) (conj (charge_type_holds _ _ _) (charge_type_holds _ _ _)))))).
Qed.
Print Assumptions C01_charges_form_ordered_group.

(** The 16-bit fermion number wraps around exactly as two's complement; parity is that of the number. *)
Theorem C01_fermion_number_wraps : forall a b : fermi16,
  is_wrapped 16 (fermi_z a + fermi_z b) (fermi_z (sadd a b)) /\
  is_wrapped 16 (- fermi_z a) (fermi_z (sneg a)).
Proof. exact fermi_machine. Qed.
Print Assumptions C01_fermion_number_wraps.

Theorem C01_parity_is_fermion_number_parity :
  (forall f : fermi16, sodd f = Z.odd (fermi_z f)) /\
  (forall (f : fermi16) (b : bool), sodd (f, b) = Z.odd (fermi_z f)) /\
  (forall (f : fermi16) (z : Z), sodd (f, z) = Z.odd (fermi_z f)) /\
  (forall u : unit, sodd u = false) /\ (forall b : bool, sodd b = false) /\ (forall z : Z, sodd z = false).
Proof. exact parity_meaning. Qed.
Print Assumptions C01_parity_is_fermion_number_parity.

(** U1: the 32-bit machine operations are defined exactly when the result fits, and then agree with the group. *)
Theorem C01_u1_machine_arithmetic : forall a b : Z,
  (forall c, u1_add_machine a b = Some c <-> c = sadd a b /\ (-2^31 <= c < 2^31)%Z) /\
  (forall c, u1_neg_machine a = Some c <-> c = sneg a /\ (-2^31 <= c < 2^31)%Z).
Proof. exact u1_machine. Qed.
Print Assumptions C01_u1_machine_arithmetic.

(** concrete cases: wrap-around of the fermion number keeps the parity law *)
Example C01_wrap_example :
  fermi_z (sadd (to_fermi 32767) (to_fermi 2)) = (-32767)%Z /\
  sodd (sadd (to_fermi 32767) (to_fermi 2)) = xorb (sodd (to_fermi 32767)) (sodd (to_fermi 2)) /\
  fermi_z (sneg (to_fermi (-32768))) = (-32768)%Z /\
  slt (to_fermi (-3), true) (to_fermi 2, false).
Proof. repeat split. Qed.
Example C01_u1_example : u1_add_machine 2147483647 1 = None /\ u1_add_machine (-5) 7 = Some 2%Z.
Proof. split; reflexivity. Qed.
