(** Sums of products: what a contraction and a trace are. *)
From Coq Require Import List Bool Arith.
From Verif Require Import Base.Outcome Base.SMap Model.Symmetry Model.Edge Model.Core Spec.Relabel.
Import ListNotations.

(** exact arithmetic *)
Record exact_arithmetic (R : Type) {RR : Scalar R} : Prop := {
  ea_add_comm : forall x y : R, radd x y = radd y x;
  ea_add_assoc : forall x y z : R, radd x (radd y z) = radd (radd x y) z;
  ea_add_0 : forall x : R, radd rzero x = x;
  ea_mul_comm : forall x y : R, rmul x y = rmul y x;
  ea_mul_0 : forall x : R, rmul rzero x = rzero;
  ea_mul_1 : forall x : R, rmul rone x = x }.

Section Sums.
  Context {S R : Type} {SS : Sym S} {RR : Scalar R}.
  Notation entry := (S * nat)%type.

  Definition rsum (l : list R) : R := fold_right radd rzero l.

  (** all coordinates of a list of edges: one (charge, index) per edge, the index below the dimension of the charge *)
  Fixpoint points (maps : list (list entry)) : list (list entry) :=
    match maps with
    | [] => [[]]
    | m :: ms => flat_map (fun sd => flat_map (fun i => map (cons (fst sd, i)) (points ms)) (seq 0 (snd sd))) m
    end.

  (** the element at a coordinate, zero where there is none *)
  Definition element (t : tensor S R) (pos : position) : R :=
    match const_at t pos with Ok v => v | _ => rzero end.

  Definition opposite (x : entry) : entry := (sneg (fst x), snd x).
  Definition legs_of (t : tensor S R) : list (nat * edge S) := combine (t_names t) (t_edges t).

  (** sum over all coordinates of the contracted edges of the product of the elements; the second tensor gets the opposite
      charges.  pos: coordinate of the remaining edges *)
  Definition contract_sum (t1 t2 : tensor S R) (pairs : list (nat * nat)) (pos : position) : R :=
    rsum (map (fun pt => rmul (element t1 (combine (map fst pairs) pt ++ pos))
                              (element t2 (combine (map snd pairs) (map opposite pt) ++ pos)))
              (points (map (fun p => emap (edge_named (legs_of t1) (fst p))) pairs))).

  (** sum over all coordinates of the first edges of the pairs of the elements whose second edges have the opposite charge and
      the same index *)
  Definition trace_sum (t : tensor S R) (pairs : list (nat * nat)) (pos : position) : R :=
    rsum (map (fun pt => element t (combine (map fst pairs) pt ++ combine (map snd pairs) (map opposite pt) ++ pos))
              (points (map (fun p => emap (edge_named (legs_of t) (fst p))) pairs))).
  (** some block has opposite charges on the two edges of every pair *)
  Definition diagonal_block (t : tensor S R) (pairs : list (nat * nat)) : Prop :=
    exists key data, In (key, data) (t_blocks t) /\
      forall a b, In (a, b) pairs -> mfind b (combine (t_names t) key) = option_map sneg (mfind a (combine (t_names t) key)).

  (** names of t that no pair mentions, in the order of t *)
  Definition free_names (names contracted : list nat) : list nat := filter (fun n => negb (member n contracted)) names.
End Sums.
