(** What LAPACK's factorisations promise: partial correctness of the calls that report success.  Matrices are stored column by column. *)
From Coq Require Import List Bool Arith.
From Verif Require Import Base.Outcome Model.Core Model.Qr Spec.Contract Spec.Matrix.
Import ListNotations.

(** complex conjugation *)
Record exact_conjugation (R : Type) {RR : Scalar R} : Prop := {
  ec_zero : rconj (rzero : R) = rzero;
  ec_opp : forall x : R, rconj (ropp x) = ropp (rconj x) }.

Section Lapack.
  Context {R : Type} {RR : Scalar R}.
  (** the first k columns of an m-row matrix are orthonormal; the first k rows of an n-column matrix are *)
  Definition orthonormal_columns (m k : nat) (Q : @matrix R) : Prop :=
    forall a b, a < k -> b < k -> rsum (map (fun i => rmul (rconj (Q i a)) (Q i b)) (seq 0 m)) = ident a b.
  Definition orthonormal_rows (k n : nat) (Q : @matrix R) : Prop :=
    forall a b, a < k -> b < k -> rsum (map (fun j => rmul (Q a j) (rconj (Q b j))) (seq 0 n)) = ident a b.

  (** xGEQRF then xORGQR: A = Q R with R the upper triangle of what xGEQRF leaves; xGELQF then xORGLQ: A = L Q with L the lower triangle *)
  Record qr_sound (L : qr_lapack R) : Prop := {
    qs_qr : forall m n A A' tau, 0 < m -> 0 < n -> length A = m * n -> geqrf L m n A = Some (A', tau) -> length A' = m * n /\
      let k := Nat.min m n in
      forall Q, orgqr L m k k (firstn (m * k) A') tau = Some Q ->
        length Q = m * k /\ orthonormal_columns m k (by_columns m Q) /\
        forall i j, i < m -> j < n -> by_columns m A i j =
          rsum (map (fun l => rmul (by_columns m Q i l) (if Nat.leb l j then by_columns m A' l j else rzero)) (seq 0 k));
    qs_lq : forall m n A A' tau, 0 < m -> 0 < n -> length A = m * n -> gelqf L m n A = Some (A', tau) -> length A' = m * n /\
      let k := Nat.min m n in
      forall B Q, length B = k * n -> (forall i j, i < k -> j < n -> by_columns k B i j = by_columns m A' i j) -> orglq L k n k B tau = Some Q ->
        length Q = k * n /\ orthonormal_rows k n (by_columns k Q) /\
        forall i j, i < m -> j < n -> by_columns m A i j =
          rsum (map (fun l => rmul (if Nat.leb l i then by_columns m A' i l else rzero) (by_columns k Q l j)) (seq 0 k)) }.

  (** no call reports an error *)
  Record qr_never_fails (L : qr_lapack R) : Prop := {
    nf_geqrf : forall m n A, length A = m * n -> geqrf L m n A <> None;
    nf_gelqf : forall m n A, length A = m * n -> gelqf L m n A <> None;
    nf_orgqr : forall m n k A tau, length A = m * n -> orgqr L m n k A tau <> None;
    nf_orglq : forall m n k A tau, length A = m * n -> orglq L m n k A tau <> None }.
End Lapack.
