(** The sum of the squares of the elements of a tensor of any symmetry. *)
From Coq Require Import List Arith.
From Verif Require Import Model.Symmetry Model.Edge Model.Core Spec.Contract Spec.Linear.
Import ListNotations.

Section Squares.
  Context {S R : Type} {SS : Sym S} {RR : Scalar R}.
  (** over all coordinates; where there is no element it counts as zero *)
  Definition squares (real : bool) (t : tensor S R) : R :=
    rsum (map (fun pt => let x := element t (combine (t_names t) pt) in rmul x (conjugated real x)) (points (map emap (t_edges t)))).
End Squares.
