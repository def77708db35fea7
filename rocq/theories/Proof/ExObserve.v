(** Rational numbers with their modulus, complex rational numbers, and a row of two sites, for the examples. *)
From Coq Require Import String List Bool Arith ZArith QArith Qabs Qcanon Qcabs Lia.
From Verif Require Import Base.Outcome Base.SMap Model.Symmetry Model.Edge Model.Core Model.EdgeOperator Model.Auxiliaries Model.Spins Model.SimpleTensor Model.Exact
  Spec.Contract Spec.Plain Spec.Lapack Spec.Grid Spec.SpinLattice Spec.Factor Spec.Truncate Spec.Svd Spec.ExactState Spec.ExactOperator Proof.CoreFacts Proof.ExFilled Proof.ScalarQ Proof.ExExact.
Import ListNotations.
Local Open Scope nat_scope.

Lemma q_sub : subtracting Qc.
Proof. intros x y. cbn. split; ring. Qed.
Lemma qle : forall x y, qgreater x y = false <-> (x <= y)%Qc.
Proof. intros x y. rewrite <- not_true_iff_false, qgreater_iff. split; [apply Qcnot_lt_le|apply Qcle_not_lt]. Qed.
Lemma Qcabs_mul : forall x y, Qcabs (x * y)%Qc = (Qcabs x * Qcabs y)%Qc.
Proof. intros. apply Qcabs_Qcmult. Qed.
Lemma abs_div : forall x v, (0 < v)%Qc -> (Qcabs (x / v) * v = Qcabs x)%Qc.
Proof.
  intros x v Hv. assert (Nz : v <> 0%Qc) by (intro; subst; now apply Qclt_not_eq in Hv). transitivity (Qcabs (x / v) * Qcabs v)%Qc.
  - f_equal. symmetry. apply Qcabs_pos. now apply Qclt_le_weak.
  - rewrite <- Qcabs_mul. f_equal. field. exact Nz.
Qed.
Lemma q_multiplicative : multiplicative_modulus 0%Qc 1%Qc Qcmult qgreater (fun x => x) Qcabs.
Proof.
  constructor.
  - apply Qcabs_mul.
  - intro x. ring.
  - intros x y z. rewrite !qle. intro H. rewrite !(Qcmult_comm (Qcabs x)). apply Qcmult_le_compat_r; [exact H|]. apply Qcabs_nonneg.
  - intros x v. rewrite qgreater_iff, !qle. intros Hv H. apply (Qcmult_lt_0_le_reg_r _ _ v Hv). cbn [rdiv Scalar_Q]. rewrite abs_div by exact Hv. now rewrite Qcmult_1_l.
  - intro x. rewrite qgreater_iff. intro Hv. cbn [rdiv Scalar_Q]. pose proof (abs_div x (Qcabs x) Hv) as H. rewrite <- (Qcmult_1_l (Qcabs x)) in H at 3.
    assert (Nz : Qcabs x <> 0%Qc) by (intro Q; rewrite Q in Hv; now apply Qclt_not_eq in Hv). apply (f_equal (fun z => z / Qcabs x)%Qc) in H. transitivity (Qcabs (x / Qcabs x) * Qcabs x / Qcabs x)%Qc; [field; exact Nz|]. rewrite H. field. exact Nz.
  - reflexivity.
Qed.
Lemma q_difference : real_difference 0%Qc Qcminus qgreater (fun x => x) Qcabs.
Proof.
  assert (P : forall x y : Qc, (y < x)%Qc -> (0 < x - y)%Qc).
  { intros x y H. apply Qcnot_le_lt. intro Q. apply Qcle_not_lt in H; [exact H|]. apply (Qcplus_le_compat _ _ y y) in Q; [|apply Qcle_refl]. now replace (x - y + y)%Qc with x in Q by ring; replace (0 + y)%Qc with y in Q by ring. }
  constructor.
  - intros x y. rewrite qgreater_iff. intro H. cbn [rsub Scalar_Q]. apply Qcabs_pos. apply Qclt_le_weak. now apply P.
  - intros x y. rewrite !qgreater_iff. apply P.
  - intros x y. ring.
Qed.

(** complex numbers *)
Definition cplx : Type := Qc * Qc.
#[global] Instance Scalar_cplx : Scalar cplx :=
  { rzero := (0%Qc, 0%Qc); rone := (1%Qc, 0%Qc);
    radd := fun x y => (fst x + fst y, snd x + snd y)%Qc;
    rmul := fun x y => (fst x * fst y - snd x * snd y, fst x * snd y + snd x * fst y)%Qc;
    ropp := fun x => (- fst x, - snd x)%Qc;
    rsub := fun x y => (fst x - fst y, snd x - snd y)%Qc;
    rdiv := fun x y => let n := (fst y * fst y + snd y * snd y)%Qc in ((fst x * fst y + snd x * snd y) / n, (snd x * fst y - fst x * snd y) / n)%Qc;
    rconj := fun x => (fst x, - snd x)%Qc }.
Lemma c_exact : exact_arithmetic cplx.
Proof. constructor; intros; repeat match goal with x : cplx |- _ => destruct x end; cbn; f_equal; ring. Qed.
Definition c_env : @env cplx := mkEnv (q_int (-7), q_int 3) None false (fun _ => false).

(** vectors of a row of n sites with two spins each, operators on k sites *)
Definition vector83 {R : Type} {RR : Scalar R} (n : nat) (f : nat -> R) : tensor unit R := filled (map (site_name 0) (seq 0 n)) (repeat (mkEdge false [(tt, 2)]) n) (fun _ p => f p).
Definition operator83 {R : Type} {RR : Scalar R} (k : nat) (f : nat -> R) : tensor unit R :=
  filled (map in_name (seq 0 k) ++ map out_name (seq 0 k)) (repeat (mkEdge false [(tt, 2)]) (k + k)) (fun _ p => f p).
Lemma vector83_ok : forall (R : Type) (RR : Scalar R) n (f : nat -> R), 0 < n <= 2 -> exact_state 1 n 2 (vector83 n f).
Proof.
  intros R RR n f Hn. assert (D : n = 1 \/ n = 2) by lia. destruct D as [-> | ->]; (constructor; [now apply (filled_wf _ _ _ _ _)|discriminate| |]).
  - intros [|i] [|j] Hi Hj; try lia. reflexivity.
  - intros k Hk. cbn in Hk. destruct Hk as [<-|[]]. exists 0, 0. repeat split; lia.
  - intros [|i] [|[|j]] Hi Hj; try lia; reflexivity.
  - intros k Hk. cbn in Hk. destruct Hk as [<-|[<-|[]]]; [exists 0, 0|exists 0, 1]; repeat split; lia.
Qed.
Lemma operator83_ok : forall (R : Type) (RR : Scalar R) k (f : nat -> R), 0 < k <= 2 -> fits_operator k 2 (operator83 k f).
Proof.
  intros R RR k f Hk. assert (D : k = 1 \/ k = 2) by lia. destruct D as [-> | ->]; (constructor; [now apply (filled_wf _ _ _ _ _)|discriminate| | |]).
  - intros [|i] Hi; try lia. reflexivity.
  - intros [|i] Hi; try lia. reflexivity.
  - intros n Hn. cbn in Hn. destruct Hn as [<-|[<-|[]]]; exists 0; split; auto.
  - intros [|[|i]] Hi; try lia; reflexivity.
  - intros [|[|i]] Hi; try lia; reflexivity.
  - intros n Hn. cbn in Hn. destruct Hn as [<-|[<-|[<-|[<-|[]]]]]; [exists 0|exists 1|exists 0|exists 1]; split; auto.
Qed.
Lemma on_two : on_lattice 1 2 [(0, 1); (0, 0)] /\ on_lattice 1 2 [(0, 0)] /\ on_lattice 1 1 [(0, 0)].
Proof. repeat split; repeat constructor; cbn; intuition (try discriminate; lia). Qed.
