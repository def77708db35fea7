(** What a tensor holds at a coordinate, for coordinates whose charge may be absent from the tensor. *)
From Coq Require Import List Bool.
From Verif Require Import Base.Outcome Base.SMap Model.Symmetry Model.Edge Model.Core Spec.Sign Spec.Relabel.
Import ListNotations.

Section Values.
  Context {S R : Type} {SS : Sym S} {RR : Scalar R}.
  (** some leg of t does not have the charge the coordinate gives to it *)
  Definition lacks (t : tensor S R) (pos : list (nat * (S * nat))) : Prop :=
    exists n e, In (n, e) (combine (t_names t) (t_edges t)) /\ ~ In (fst (coord pos n)) (map fst (emap e)).
  (** v is the element of t at pos, absent elements counting as zero *)
  Definition value_or_zero (t : tensor S R) (pos : list (nat * (S * nat))) (v : R) : Prop :=
    (const_at t pos = Ok v /\ ~ lacks t pos) \/ (lacks t pos /\ v = rzero).
  (** the same with the sign (-1)^k for the elements present *)
  Definition signed_value_or_zero (k : nat) (t : tensor S R) (pos : list (nat * (S * nat))) (v : R) : Prop :=
    (exists w, const_at t pos = Ok w /\ v = signed ropp k w /\ ~ lacks t pos) \/ (lacks t pos /\ v = rzero).
  (** the legs of two tensors with the same names have the same dimension for every charge they share *)
  Definition compatible (t1 t2 : tensor S R) : Prop :=
    forall n e1 e2 s d1 d2, In (n, e1) (combine (t_names t1) (t_edges t1)) -> In (n, e2) (combine (t_names t2) (t_edges t2)) ->
      In (s, d1) (emap e1) -> In (s, d2) (emap e2) -> d1 = d2.
  (** pos gives to each leg a charge of one of the two tensors and an index below its dimension; the charges add up to zero *)
  Definition common_coordinate (t1 t2 : tensor S R) (pos : list (nat * (S * nat))) : Prop :=
    (forall n, In n (t_names t1) -> exists s i, mfind n pos = Some (s, i) /\
       exists e d, (In (n, e) (combine (t_names t1) (t_edges t1)) \/ In (n, e) (combine (t_names t2) (t_edges t2))) /\ In (s, d) (emap e) /\ i < d) /\
    ssum (map (fun n => fst (coord pos n)) (t_names t1)) = szero.
  (** all stored elements in storage order: blocks in increasing order of their charges, each block as stored *)
  Definition stored (t : tensor S R) : list R := concat (map snd (t_blocks t)).
End Values.
