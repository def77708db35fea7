(** Contraction of fermionic tensors: the sign of every product of two elements. *)
From Coq Require Import List Bool Arith.
From Verif Require Import Base.Outcome Base.SMap Model.Symmetry Model.Edge Model.Core Spec.Sign Spec.Relabel Spec.Contract.
Import ListNotations.

(** negation of exact numbers *)
Record exact_negation (R : Type) {RR : Scalar R} : Prop := {
  en_opp : forall x : R, radd x (ropp x) = rzero;
  en_mul : forall x y : R, rmul (ropp x) y = ropp (rmul x y) }.

Section Fermi.
  Context {S R : Type} {SS : Sym S} {RR : Scalar R}.
  Notation entry := (S * nat)%type.

  (** The contracted edges of the first tensor are brought behind its other edges (in reversed order), those of the second in front
      of its other edges, each exchange of two odd edges giving a factor -1.  Then contracted edges face each other; a pair whose
      first edge has arrow false gives another -1 if it is odd. *)
  Definition pair_sign (t1 t2 : tensor S R) (pairs : list (nat * nat)) (pos1 pos2 : position) : nat :=
    exchanged_odd (leg_odd pos1) (t_names t1) (free_names (t_names t1) (map fst pairs) ++ rev (map fst pairs))
    + exchanged_odd (leg_odd pos2) (t_names t2) (map snd pairs ++ free_names (t_names t2) (map snd pairs))
    + count (fun n => negb (earrow (edge_named (legs_of t1) n)) && leg_odd pos1 n) (map fst pairs).

  (** as [contract_sum], every product with its sign *)
  Definition signed_sum (t1 t2 : tensor S R) (pairs : list (nat * nat)) (pos : position) : R :=
    rsum (map (fun pt =>
            let pos1 := combine (map fst pairs) pt ++ pos in
            let pos2 := combine (map snd pairs) (map opposite pt) ++ pos in
            signed ropp (pair_sign t1 t2 pairs pos1 pos2) (rmul (element t1 pos1) (element t2 pos2)))
         (points (map (fun p => emap (edge_named (legs_of t1) (fst p))) pairs))).

  (** edges fused into one take the arrow of the first of them that has a charge with a non-zero number of fermions (a single edge
      its own); without one the library reads an arrow that nobody wrote.  [arrow] is what it finds there, [None] if that is to be
      regarded as undefined *)
  Definition group_arrow_known (arrow : option bool) (t : tensor S R) (names : list nat) : Prop :=
    arrow <> None \/ length names = 1 \/ exists n, In n names /\ arrow_valid (edge_named (legs_of t) n) = true.
End Fermi.
