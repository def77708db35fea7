(** The commutators of the single spin operators, as the library applies them. *)
From Coq Require Import List Bool Arith ZArith Lia Ring.
From Verif Require Import Base.Outcome Base.SMap Model.Symmetry Model.Edge Model.Core Model.EdgeOperator Model.Elementwise Model.Contract Model.SimpleTensor Model.Exact Model.NetworkNew Model.SpinOperators
  Spec.Blocks Spec.Relabel Spec.Contract Spec.Plain Spec.Grid Spec.Svd Spec.SquareLattice Spec.ExactState Spec.ExactOperator Spec.LocalUpdate Spec.SpinModel
  Proof.SymmetryFacts Proof.LoopFacts Proof.SumFacts Proof.CoreFacts Proof.PlainFacts Proof.LineMath Proof.GridSum Proof.ExactApply Proof.ExactObserve Proof.SpinOpFacts Proof.Heisenberg.
Import ListNotations.

Section Algebra.
  Context {C : Type} {RC : Scalar C}.
  Hypotheses (EA : exact_arithmetic C) (MA : associative_product C) (MD : distributive_product C).
  Add Ring scalars93 : (semi_ring EA MA MD).
  Notation "x +r y" := (radd x y) (at level 50, left associativity).
  Notation "x *r y" := (rmul x y) (at level 40, left associativity).
  Lemma applied_one : forall p A g s, applied 2 [p] A g s = g (spins_put s [p] [0]) *r operator_element 1 A [0] [s (fst p) (snd p)] +r g (spins_put s [p] [1]) *r operator_element 1 A [1] [s (fst p) (snd p)].
  Proof. intros p A g s. unfold applied. cbn [length repeat map Sums]. unfold Sum. cbn [seq map rsum fold_right]. ring. Qed.
  Lemma put_at : forall s (p : nat * nat) q, spins_put s [p] [q] (fst p) (snd p) = q.
  Proof. intros s [i j] q. unfold spins_put. cbn [combine find fst snd]. destruct (pair_spec (i, j) (i, j)); [reflexivity|congruence]. Qed.
  Lemma put_put : forall (f : (nat -> nat -> nat) -> C) s p q r, extensional f -> f (spins_put (spins_put s [p] [q]) [p] [r]) = f (spins_put s [p] [r]).
  Proof. intros f s p q r Hf. apply Hf. intros i j. unfold spins_put. cbn [combine find fst snd]. destruct (pair_eqb p (i, j)); reflexivity. Qed.
End Algebra.
Section Commutators.
  Context {C : Type} {RC : Scalar C}.
  Hypotheses (EA : exact_arithmetic C) (MA : associative_product C) (MD : distributive_product C).
  Notation "x +r y" := (radd x y) (at level 50, left associativity).
  Notation "x *r y" := (rmul x y) (at level 40, left associativity).
  Variables (half mhalf i : C) (junk : C).
  Hypotheses (H1 : half +r half = rone) (H2 : half +r mhalf = rzero) (H3 : i *r i +r rone = rzero).
  Definition minus (x : C) : C := (mhalf +r mhalf) *r x.
  Lemma full_ring : ring_theory rzero rone radd rmul (fun x y : C => x +r minus y) minus eq.
  Proof.
    destruct (semi_ring EA MA MD) as [A1 A2 A3 A4 A5 A6 A7 A8]. constructor; auto.
    intros x. unfold minus. assert (Q : rone +r (mhalf +r mhalf) = rzero).
    { rewrite <- H1. rewrite <- A3. rewrite (A3 half mhalf mhalf). rewrite H2, A1. exact H2. }
    rewrite <- (A4 x) at 1. rewrite <- A8, Q. apply A5.
  Qed.
  Add Ring scalars94 : full_ring.
  Lemma mhalf_is : mhalf = minus half.
  Proof. transitivity (minus half +r (half +r mhalf)); [ring|]. rewrite H2. ring. Qed.
  Lemma i_is : i *r i = minus rone.
  Proof. transitivity (minus rone +r (i *r i +r rone)); [ring|]. rewrite H3. ring. Qed.
  Theorem commutators : exists X Y Z, spin_x half junk = Ok X /\ spin_y half mhalf (rmul i) junk = Ok Y /\ spin_z half mhalf junk = Ok Z /\
    forall p f s, extensional f -> s (fst p) (snd p) < 2 ->
      applied 2 [p] X (applied 2 [p] Y f) s +r i *r applied 2 [p] Z f s = applied 2 [p] Y (applied 2 [p] X f) s /\
      applied 2 [p] Y (applied 2 [p] Z f) s +r i *r applied 2 [p] X f s = applied 2 [p] Z (applied 2 [p] Y f) s /\
      applied 2 [p] Z (applied 2 [p] X f) s +r i *r applied 2 [p] Y f s = applied 2 [p] X (applied 2 [p] Z f) s.
  Proof.
    destruct (spin_x_ok half junk) as [X [X1 [_ X3]]]. destruct (spin_y_ok half mhalf (rmul i) junk) as [Y [Y1 [_ Y3]]]. destruct (spin_z_ok half mhalf junk) as [Z [Z1 [_ Z3]]].
    exists X, Y, Z. split; [exact X1|]. split; [exact Y1|]. split; [exact Z1|]. intros p f s Hf Hs.
    assert (T1 : forall t : C, i *r t = i *r t *r (half +r half)) by (intros t; rewrite H1; ring).
    rewrite (T1 (applied 2 [p] Z f s)), (T1 (applied 2 [p] X f s)), (T1 (applied 2 [p] Y f s)).
    rewrite !(applied_one EA MA MD), !put_at, !(put_put f s p _ _ Hf).
    destruct (s (fst p) (snd p)) as [|[|c]]; [| |lia]; rewrite !X3, !Y3, !Z3 by lia; cbn [Nat.eqb].
    all: generalize (f (spins_put s [p] [0])) (f (spins_put s [p] [1])); intros a b; rewrite mhalf_is; assert (I := i_is).
    all: split; [|split]; ring [I].
  Qed.
End Commutators.
