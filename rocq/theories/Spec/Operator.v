(** Tensors read as operators: the names are paired, the first of each pair being the row and the second the column. *)
From Coq Require Import List Bool Arith.
From Verif Require Import Base.SMap Model.Symmetry Model.Edge Model.Core Spec.Blocks Spec.Fuse Spec.Relabel Spec.Contract.
Import ListNotations.

Section Operator.
  Context {S : Type} {SS : Sym S}.
  Notation entry := (S * nat)%type.

  (** [idx] numbers, for each charge s, the points of the edges [maps] with total charge s by 0, ..., cnt s - 1 *)
  Definition numbering (maps : list (list entry)) (cnt : S -> nat) (idx : list entry -> nat) : Prop :=
    (forall x, in_range maps x -> idx x < cnt (total x)) /\
    (forall x y, in_range maps x -> in_range maps y -> total x = total y -> idx x = idx y -> x = y) /\
    (forall s i, i < cnt s -> exists x, in_range maps x /\ total x = s /\ idx x = i).
  (** the position in row x and column y: the first name of every pair at the coordinate given by x, the second one at the coordinate
      opposite to the one given by y *)
  Definition row_column (pairs : list (nat * nat)) (x y : list entry) : list (nat * entry) :=
    combine (map fst pairs) x ++ combine (map snd pairs) (map opposite y).
  (** where row i and column j of an n times n matrix is stored; [columns] when column by column *)
  Definition cell (columns : bool) (n i j : nat) : nat := if columns then j * n + i else i * n + j.
End Operator.

(** l lists the entries of the n times n matrix A, row by row or column by column *)
Definition lists {R : Type} {RR : Scalar R} (n : nat) (l : list R) (A : nat -> nat -> R) : Prop :=
  length l = n * n /\ exists columns, forall i j, i < n -> j < n -> nth (cell columns n i j) l rzero = A i j.
