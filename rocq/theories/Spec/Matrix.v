(** Square matrices over a field, their powers, and the Pade approximants of the exponential. *)
From Coq Require Import List Arith ZArith Factorial.
From Verif Require Import Model.Core Spec.Contract.
Import ListNotations.

(** exact arithmetic with division by integers *)
Record exact_field (R : Type) {RR : Scalar R} (of_int : Z -> R) : Prop := {
  ef_ea : exact_arithmetic R;
  ef_mul_assoc : forall x y z : R, rmul x (rmul y z) = rmul (rmul x y) z;
  ef_distr : forall x y z : R, rmul x (radd y z) = radd (rmul x y) (rmul x z);
  ef_opp : forall x : R, radd x (ropp x) = rzero;
  ef_one : of_int 1%Z = rone;
  ef_mul : forall a b, of_int (a * b)%Z = rmul (of_int a) (of_int b);
  ef_div : forall (x : R) d, d <> 0%Z -> rmul (rdiv x (of_int d)) (of_int d) = x;
  ef_cancel : forall (x : R) d, d <> 0%Z -> rdiv (rmul x (of_int d)) (of_int d) = x }.

Section Matrix.
  Context {R : Type} {RR : Scalar R}.
  Definition matrix : Type := nat -> nat -> R.
  Variable n : nat.
  (** equal n by n matrices *)
  Definition meq (A B : matrix) : Prop := forall i j, i < n -> j < n -> A i j = B i j.
  Definition ident : matrix := fun i j => if Nat.eqb i j then rone else rzero.
  Definition mmul (A B : matrix) : matrix := fun i j => rsum (map (fun l => rmul (A i l) (B l j)) (seq 0 n)).
  Fixpoint mpow (A : matrix) (k : nat) : matrix := match k with 0 => ident | Datatypes.S k => mmul A (mpow A k) end.
  Definition mscale (c : R) (A : matrix) : matrix := fun i j => rmul c (A i j).
  Definition mopp (A : matrix) : matrix := fun i j => ropp (A i j).
  Definition inverse (V A : matrix) : Prop := meq (mmul V A) ident /\ meq (mmul A V) ident.
  (** rows one after the other; columns one after the other *)
  Definition by_rows (l : list R) : matrix := fun i j => nth (i * n + j) l rzero.
  Definition by_columns (rows : nat) (l : list R) : matrix := fun i j => nth (i + j * rows) l rzero.
  (** a buffer of n rows *)
  Definition holds (l : list R) (M : matrix) : Prop := length l = n * n /\ meq (by_rows l) M.

  Variable of_int : Z -> R.
  (** (2q-k)! q! / ((2q)! k! (q-k)!) *)
  Definition pade_coefficient (q k : nat) : R :=
    rdiv (of_int (Z.of_nat (fact (2 * q - k)) * Z.of_nat (fact q)))
         (of_int (Z.of_nat (fact (2 * q)) * Z.of_nat (fact k) * Z.of_nat (fact (q - k)))).
  (** the numerator; the denominator is the numerator of the opposite matrix *)
  Definition pade_polynomial (q : nat) (A : matrix) : matrix := fun i j =>
    rsum (map (fun k => rmul (pade_coefficient q k) (mpow A k i j)) (seq 0 (q + 1))).

End Matrix.

(** xGESV solves every system of n equations whose matrix has an inverse *)
Definition solves {R : Type} {RR : Scalar R} (gesv : nat -> nat -> list R -> list R -> bool * list R) (n : nat) : Prop :=
  forall nrhs (A B : list R), length A = n * n -> length B = n * nrhs -> (exists V, inverse n V (by_columns n A)) ->
  length (snd (gesv n nrhs A B)) = n * nrhs /\
  forall i c, i < n -> c < nrhs ->
    rsum (map (fun l => rmul (by_columns n A i l) (by_columns n (snd (gesv n nrhs A B)) l c)) (seq 0 n)) = by_columns n B i c.

(** the largest of a list *)
Definition largest {F : Type} (lt : F -> F -> bool) (zero : F) (l : list F) : F :=
  fold_right (fun x m => if lt m x then x else m) zero (rev l).
