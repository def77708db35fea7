(** The contraction of a square lattice of tensors: the sum over all indices of all bonds of the product of the elements of the sites. *)
From Coq Require Import List Bool Arith.
From Verif Require Import Model.Core Spec.Contract Spec.Plain.
Import ListNotations.

Definition distributive_product (R : Type) {RR : Scalar R} : Prop := forall x y z : R, rmul x (radd y z) = radd (rmul x y) (rmul x z).

(** the bond to the right of site (i, j), the bond below it *)
Inductive bond := Right_of (i j : nat) | Below (i j : nat).
Definition bond_eqb (a b : bond) : bool :=
  match a, b with
  | Right_of i j, Right_of k l | Below i j, Below k l => Nat.eqb i k && Nat.eqb j l
  | _, _ => false
  end.

Section Grid.
  Context {R : Type} {RR : Scalar R}.
  Definition rprod (l : list R) : R := fold_right rmul rone l.

  (** sum over all indices of the bonds listed *)
  Fixpoint Over {B : Type} (same : B -> B -> bool) (dim : B -> nat) (bonds : list B) (f : (B -> nat) -> R) (at_ : B -> nat) : R :=
    match bonds with
    | [] => f at_
    | b :: bs => Sum (dim b) (fun i => Over same dim bs f (fun b' => if same b' b then i else at_ b'))
    end.

  Definition sites (m n : nat) : list (nat * nat) := flat_map (fun i => map (pair i) (seq 0 n)) (seq 0 m).
  (** m rows of n - 1 bonds and m - 1 rows of n bonds *)
  Definition bonds (m n : nat) : list bond :=
    map (fun ij => Right_of (fst ij) (snd ij)) (sites m (n - 1)) ++ map (fun ij => Below (fst ij) (snd ij)) (sites (m - 1) n).

  (** site i j u d l r: the element of site (i, j) with these indices of the edges up, down, left, right.  There is no bond above the
      first row and so on; the index is 0 there *)
  Definition site_factor (site : nat -> nat -> nat -> nat -> nat -> nat -> R) (at_ : bond -> nat) (ij : nat * nat) : R :=
    let (i, j) := ij in
    site i j (match i with 0 => 0 | Datatypes.S i' => at_ (Below i' j) end) (at_ (Below i j))
             (match j with 0 => 0 | Datatypes.S j' => at_ (Right_of i j') end) (at_ (Right_of i j)).
  Definition network_sum (m n : nat) (dim : bond -> nat) (site : nat -> nat -> nat -> nat -> nat -> nat -> R) : R :=
    Over bond_eqb dim (bonds m n) (fun at_ => rprod (map (site_factor site at_) (sites m n))) (fun _ => 0).
End Grid.
