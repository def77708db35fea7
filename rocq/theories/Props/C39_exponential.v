(** C39: the matrix exponential. *)
From Coq Require Import String List Bool Arith ZArith QArith Qcanon Lia.
From Verif Require Import Base.Outcome Model.Core Model.Exponential Spec.Contract Spec.Matrix Proof.MatrixFacts Proof.ExponentialFacts Proof.ScalarQ.
Import ListNotations.
Local Open Scope nat_scope.

(** Spec/Matrix.v.  The numerator and the denominator are the Pade polynomials of order q of the matrix and of its opposite. *)
Theorem C39_pade : forall (R : Type) (RR : Scalar R) (ER : ExpScalar R), exact_field R of_int ->
  forall n q (A : list R) (B : matrix) (X1 X2 N D : list R), (Z.of_nat q * (Z.of_nat q + 1) < 2 ^ 31)%Z -> holds n A B ->
  holds n X1 ident -> length X2 = n * n -> holds n N ident -> holds n D ident ->
  exists s, pade_loop n A (Z.of_nat q) (mkPade (of_int 1) X1 X2 N D) = Ok s /\
    holds n (p_n s) (pade_polynomial n of_int q B) /\ holds n (p_d s) (pade_polynomial n of_int q (mopp B)).
Proof. exact @pade_loop_ok. Qed.
Print Assumptions C39_pade.

(** every number of squarings, odd or even *)
Theorem C39_squaring : forall (R : Type) (RR : Scalar R) (ER : ExpScalar R), exact_field R of_int ->
  forall n j (r F f2 : list R) (M : matrix), 0 < j -> holds n r M -> length F = n * n -> length f2 = n * n ->
  exists b, squaring n j (mkBuffers r f2 F) = Ok b /\ holds n (b_f b) (mpow n M (2 ^ j)).
Proof. exact @squaring_ok. Qed.
Print Assumptions C39_squaring.

(** The whole function: V is the inverse of the denominator, l the truncated logarithm of the largest magnitude.
    Missing from C39: the zero matrix, magnitudes of 2^30 and more, orders with q (q + 1) >= 2^31, see below. *)
Theorem C39_exponential_partial : forall (R : Type) (RR : Scalar R) (ER : ExpScalar R) (junk : R) (gesv : gesv_routine R), exact_field R of_int ->
  forall n q l (A F : list R) (V : matrix), solves gesv n -> 0 < n -> length A = n * n -> length F = n * n ->
  (Z.of_nat q * (Z.of_nat q + 1) < 2 ^ 31)%Z -> trunc_log2 (largest real_lt real_zero (map rabs A)) = Some l -> (- 2 ^ 31 <= l < 30)%Z ->
  let j := Z.to_nat (1 + l) in
  let B := mscale (rdiv rone (of_int (2 ^ Z.of_nat j))) (by_rows n A) in
  inverse n V (pade_polynomial n of_int q (mopp B)) ->
  exists A' F', matrix_exponential junk gesv n A F (Z.of_nat q) = Ok (A', F') /\ length F' = n * n /\
    meq n (by_rows n F') (mpow n (mmul n V (pade_polynomial n of_int q B)) (2 ^ j)).
Proof. exact @exponential_ok. Qed.
Print Assumptions C39_exponential_partial.

(** order 2, two squarings *)
Definition qq (n : Z) (d : positive) : Qc := Q2Qc (n # d).
Definition ex39_a : list Qc := [qq 1 1; qq 2 1; qq 3 1; qq 1 1].
Definition ex39_b : matrix := mscale (rdiv rone (of_int 4)) (by_rows 2 ex39_a).
Definition ex39_d : matrix := pade_polynomial 2 of_int 2 (mopp ex39_b).
Definition ex39_v : matrix := by_rows 2 (let det := (ex39_d 0%nat 0%nat * ex39_d 1%nat 1%nat - ex39_d 0%nat 1%nat * ex39_d 1%nat 0%nat)%Qc in
  [(ex39_d 1%nat 1%nat / det)%Qc; (- ex39_d 0%nat 1%nat / det)%Qc; (- ex39_d 1%nat 0%nat / det)%Qc; (ex39_d 0%nat 0%nat / det)%Qc]).
Definition shown (x : res (list Qc * list Qc)) : res (list Q) := match x with Ok (_, f) => Ok (map this f) | Throw e => Throw e | UB => UB | OutOfFuel => OutOfFuel end.
Example C39_example : solves cramer 2 /\ exact_field Qc of_int /\
  trunc_log2 (largest real_lt real_zero (map rabs ex39_a)) = Some 1%Z /\ inverse 2 ex39_v ex39_d /\
  shown (matrix_exponential (qq 77 1) cramer 2 ex39_a (repeat (qq 88 1) 4) 2) =
    Ok (map this (flat_map (fun i => map (mpow 2 (mmul 2 ex39_v (pade_polynomial 2 of_int 2 ex39_b)) 4 i) [0; 1]) [0; 1])).
Proof.
  split; [exact cramer_solves|]. split; [exact exact_Q|]. split; [vm_compute; reflexivity|]. split; [|vm_compute; reflexivity].
  split; intros i j Hi Hj; apply Qc_is_canon; (destruct i as [|[|i]]; [| |lia]); (destruct j as [|[|j]]; [| |lia]); vm_compute; reflexivity.
Qed.

(** magnitudes from 2^30 to 2^31: 1 << 31 is negative, the matrix is scaled by -1/2^31 and the exponential of its opposite is returned *)
Theorem C39_reversed : forall (R : Type) (RR : Scalar R) (ER : ExpScalar R) (junk : R) (gesv : gesv_routine R), exact_field R of_int ->
  forall n q (A F : list R) (V : matrix), solves gesv n -> 0 < n -> length A = n * n -> length F = n * n ->
  (Z.of_nat q * (Z.of_nat q + 1) < 2 ^ 31)%Z -> trunc_log2 (largest real_lt real_zero (map rabs A)) = Some 30%Z ->
  let B := mscale (rdiv rone (of_int (- 2 ^ 31))) (by_rows n A) in
  inverse n V (pade_polynomial n of_int q (mopp B)) ->
  exists A' F', matrix_exponential junk gesv n A F (Z.of_nat q) = Ok (A', F') /\ length F' = n * n /\
    meq n (by_rows n F') (mpow n (mmul n V (pade_polynomial n of_int q B)) (2 ^ 31)).
Proof. exact @exponential_reversed. Qed.
Print Assumptions C39_reversed.

(** larger magnitudes, and large orders, are undefined *)
Theorem C39_shift_undefined : forall (R : Type) (RR : Scalar R) (ER : ExpScalar R) (junk : R) (gesv : gesv_routine R) n (A F : list R) q l,
  length A = n * n -> trunc_log2 (largest real_lt real_zero (map rabs A)) = Some l -> (31 <= l)%Z -> matrix_exponential junk gesv n A F q = UB.
Proof. exact @exponential_shift. Qed.
Print Assumptions C39_shift_undefined.
Theorem C39_order_undefined : forall (R : Type) (RR : Scalar R) (ER : ExpScalar R) (junk : R) (gesv : gesv_routine R), exact_field R of_int ->
  forall n q l (A F : list R), 0 < n -> length A = n * n -> length F = n * n ->
  (2 ^ 31 <= Z.of_nat q * (Z.of_nat q + 1))%Z -> trunc_log2 (largest real_lt real_zero (map rabs A)) = Some l -> (- 2 ^ 31 <= l < 31)%Z ->
  matrix_exponential junk gesv n A F (Z.of_nat q) = UB.
Proof. exact @order_undefined. Qed.
Print Assumptions C39_order_undefined.

(** the zero matrix, whose exponential is the identity: the logarithm of its largest magnitude is minus infinity *)
Theorem C39_refuted : forall (R : Type) (RR : Scalar R) (ER : ExpScalar R) (junk : R) (gesv : gesv_routine R) n (F : list R) q,
  real_lt real_zero real_zero = false -> rabs rzero = real_zero -> trunc_log2 real_zero = None ->
  matrix_exponential junk gesv n (repeat rzero (n * n)) F q = UB.
Proof. exact @zero_undefined. Qed.
Print Assumptions C39_refuted.
Example C39_refuted_example : matrix_exponential (qq 77 1) cramer 2 (repeat rzero 4) (repeat (qq 88 1) 4) 2 = UB.
Proof. vm_compute. reflexivity. Qed.
