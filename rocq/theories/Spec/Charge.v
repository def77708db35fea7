(** What it means to be a good charge type, stated without reference to the library's definitions. *)
From Coq Require Import ZArith.

Section Charge.
  Variable S : Type.
  Variables (add : S -> S -> S) (zero : S) (neg : S -> S).
  Variables (lt : S -> S -> Prop) (odd : S -> bool).

  Record abelian_group : Prop := {
    ag_assoc : forall a b c, add a (add b c) = add (add a b) c;
    ag_comm : forall a b, add a b = add b a;
    ag_zero : forall a, add zero a = a;
    ag_inverse : forall a, add a (neg a) = zero }.

  Record strict_total_order : Prop := {
    so_irrefl : forall a, ~ lt a a;
    so_trans : forall a b c, lt a b -> lt b c -> lt a c;
    so_total : forall a b, lt a b \/ a = b \/ lt b a }.

  Record parity_homomorphism : Prop := {
    ph_add : forall a b, odd (add a b) = xorb (odd a) (odd b);
    ph_neg : forall a, odd (neg a) = odd a;
    ph_zero : odd zero = false }.

  Definition charge_type : Prop := abelian_group /\ strict_total_order /\ parity_homomorphism.
End Charge.

(** [r] is the two's-complement value of [z] in [bits] bits *)
Definition is_wrapped (bits : Z) (z r : Z) : Prop :=
  (- 2 ^ (bits - 1) <= r < 2 ^ (bits - 1))%Z /\ exists k : Z, z = (r + k * 2 ^ bits)%Z.
