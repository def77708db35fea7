(** Tensors without symmetry that can be contracted, and that have the same edges and elements. *)
From Coq Require Import List Arith.
From Verif Require Import Model.Symmetry Model.Edge Model.Core Spec.Blocks Spec.Relabel Spec.Contract Spec.Plain Proof.CoreFacts.
Import ListNotations.

Section Linear.
  Context {R : Type} {RR : Scalar R}.
  (** a tensor with its block *)
  Definition plain_tensor (t : tensor unit R) : Prop := wf_tensor t /\ t_blocks t <> [].
  (** the same edges with the same dimensions, in any order *)
  Definition same_dimensions (t t' : tensor unit R) : Prop := forall n, dimension t n = dimension t' n.
  Definition inside_edges (t : tensor unit R) (a : list (nat * nat)) : Prop := forall n d, dimension t n = Some d -> index a n < d.
  Definition same_elements (t t' : tensor unit R) : Prop := same_dimensions t t' /\ forall a, inside_edges t a -> value t a = value t' a.
  (** the pairs join edges of equal dimensions, every edge at most once, and no two of the edges that are left have the same name *)
  Definition joinable (t1 t2 : tensor unit R) (pairs : list (nat * nat)) : Prop :=
    NoDup (map fst pairs) /\ NoDup (map snd pairs) /\ (forall a b, In (a, b) pairs -> dimension t1 a = dimension t2 b) /\
    forall n, dimension t1 n <> None -> ~ In n (map fst pairs) -> dimension t2 n <> None -> ~ In n (map snd pairs) -> False.
  (** conjugation of the numbers: a real type is left as it is, for a complex one it keeps zero, sums and products *)
  Definition conjugated (real : bool) (x : R) : R := if real then x else rconj x.
  Definition conjugation_laws (real : bool) : Prop :=
    real = true \/ (rconj rzero = rzero :> R /\ (forall x y : R, rconj (radd x y) = radd (rconj x) (rconj y)) /\ forall x y : R, rconj (rmul x y) = rmul (rconj x) (rconj y)).
End Linear.
