(** Tensors without symmetry: dimensions and elements by name, sums over indices. *)
From Coq Require Import List Bool Arith.
From Verif Require Import Base.Outcome Base.SMap Model.Symmetry Model.Edge Model.Core Spec.Relabel Spec.Contract.
Import ListNotations.

Section Plain.
  Context {R : Type} {RR : Scalar R}.

  (** an index for every name; 0 where none is given.  The first entry counts *)
  Definition index (at_ : list (nat * nat)) (n : nat) : nat := match mfind n at_ with Some i => i | None => 0 end.
  (** the dimension of the edge n; None if there is no such edge *)
  Definition dimension (t : tensor unit R) (n : nat) : option nat :=
    match mfind n (legs_of t) with
    | Some e => Some (match emap e with sd :: _ => snd sd | [] => 0 end)
    | None => None
    end.
  (** a missing edge counts as one of dimension one *)
  Definition size (d : option nat) : nat := match d with Some d => d | None => 1 end.
  (** the element at these indices; indices of names the tensor does not have do not matter *)
  Definition value (t : tensor unit R) (at_ : list (nat * nat)) : R :=
    element t (map (fun n => (n, (tt, index at_ n))) (t_names t)).

  Definition Sum (n : nat) (f : nat -> R) : R := rsum (map f (seq 0 n)).
  Fixpoint Sums (ds : list nat) (f : list nat -> R) : R :=
    match ds with
    | [] => f []
    | d :: ds' => Sum d (fun i => Sums ds' (fun l => f (i :: l)))
    end.
End Plain.
