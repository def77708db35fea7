(** Integer scalars, used only for concrete examples. *)
From Coq Require Import ZArith.
From Verif Require Import Model.Core Spec.Contract.
#[global] Instance Scalar_Z : Scalar Z :=
  { rzero := 0%Z; rone := 1%Z; radd := Z.add; rmul := Z.mul; ropp := Z.opp; rsub := Z.sub; rdiv := Z.div; rconj := fun x => x }.

Lemma exact_Z : exact_arithmetic Z.
Proof.
  constructor.
  - exact Z.add_comm.
  - exact Z.add_assoc.
  - exact Z.add_0_l.
  - exact Z.mul_comm.
  - exact Z.mul_0_l.
  - exact Z.mul_1_l.
Qed.
