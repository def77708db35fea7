(** Spins of several sites and their numbers; eigenfunctions of operators; the Pade approximation of the exponential of a number. *)
From Coq Require Import List Arith ZArith.
From Verif Require Import Model.Symmetry Model.Edge Model.Core Spec.Contract Spec.Plain Spec.ExactOperator Spec.Matrix.
Import ListNotations.
Open Scope nat_scope.

(** the spins of k sites with d states each *)
Definition site_spins (k d : nat) (l : list nat) : Prop := length l = k /\ forall s, In s l -> s < d.
(** [pos] numbers them by 0, ..., d^k - 1 *)
Definition numbers_spins (k d : nat) (pos : list nat -> nat) : Prop :=
  (forall l, site_spins k d l -> pos l < d ^ k) /\ (forall l l', site_spins k d l -> site_spins k d l' -> pos l = pos l' -> l = l') /\ (forall i, i < d ^ k -> exists l, site_spins k d l /\ pos l = i).

Section Eigen.
  Context {R : Type} {RR : Scalar R}.
  (** A f = c f *)
  Definition eigenfunction (d : nat) (ps : list (nat * nat)) (A : tensor unit R) (f : (nat -> nat -> nat) -> R) (c : R) : Prop :=
    forall s, (forall p, In p ps -> s (fst p) (snd p) < d) -> applied d ps A f s = rmul c (f s).
  Fixpoint rpow (x : R) (k : nat) : R := match k with O => rone | S k => rmul x (rpow x k) end.
  (** the numerator at a number; the denominator is the numerator at the opposite number *)
  Definition pade_number (of_int : Z -> R) (q : nat) (x : R) : R := rsum (map (fun k => rmul (pade_coefficient of_int q k) (rpow x k)) (seq 0 (q + 1))).
  (** X A = A X, element by element; and A equal to its transposed *)
  Definition commuting (k d : nat) (X A : tensor unit R) : Prop := forall ins outs, site_spins k d ins -> site_spins k d outs ->
    Sums (repeat d k) (fun q => rmul (operator_element k X ins q) (operator_element k A q outs)) = Sums (repeat d k) (fun q => rmul (operator_element k A ins q) (operator_element k X q outs)).
  Definition equal_transposed (k d : nat) (A : tensor unit R) : Prop := forall ins outs, site_spins k d ins -> site_spins k d outs -> operator_element k A ins outs = operator_element k A outs ins.
End Eigen.
