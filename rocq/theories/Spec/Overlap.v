(** The overlap of two tensors without symmetry. *)
From Coq Require Import List Arith.
From Verif Require Import Model.Symmetry Model.Edge Model.Core Spec.Contract Spec.Plain Spec.Linear.
Import ListNotations.

Section Overlap.
  Context {R : Type} {RR : Scalar R}.
  (** the sum over the indices of all edges of t of the element of t times the conjugate of the element of u with the same named indices *)
  Definition overlap (real : bool) (t u : tensor unit R) : R :=
    Sums (map (fun n => size (dimension t n)) (t_names t))
      (fun idx => let a := combine (t_names t) idx in rmul (value t a) (conjugated real (value u a))).
End Overlap.
