(** Rational numbers with their order and modulus, and a lattice of two rows of two sites, for the examples. *)
From Coq Require Import String List Bool Arith ZArith QArith Qabs Qcanon Qcabs Lia.
From Verif Require Import Base.Outcome Base.SMap Model.Symmetry Model.Edge Model.Core Model.EdgeOperator Model.Auxiliaries Model.Spins Model.SimpleTensor Model.Exact
  Spec.Contract Spec.Plain Spec.Lapack Spec.Grid Spec.SpinLattice Spec.Factor Spec.Truncate Spec.Svd Spec.ExactState Proof.ExFilled Proof.ScalarQ.
Import ListNotations.
Local Open Scope nat_scope.

Definition qgreater (x y : Qc) : bool := match Qccompare x y with Gt => true | _ => false end.
Lemma qgreater_iff : forall x y, qgreater x y = true <-> (y < x)%Qc.
Proof. intros x y. unfold qgreater. pose proof (Qcgt_alt x y) as H. destruct (Qccompare x y); split; intro Q; try discriminate; [apply H in Q; discriminate|apply H in Q; discriminate|now apply H|reflexivity]. Qed.
Lemma q_order : strict_order qgreater.
Proof.
  constructor.
  - intro x. apply not_true_iff_false. rewrite qgreater_iff. intro H. exact (Qclt_not_eq _ _ H eq_refl).
  - intros x y z. rewrite !qgreater_iff. intros H1 H2. now apply (Qclt_trans _ y).
  - intros x y. rewrite !qgreater_iff. destruct (Qc_dec x y) as [[H|H]|H]; auto.
Qed.
Lemma q_exact : exact_arithmetic Qc.
Proof. constructor; intros; cbn; ring. Qed.
Lemma q_assoc : associative_product Qc.
Proof. intros x y z. cbn. ring. Qed.
Lemma q_distr : distributive_product Qc.
Proof. intros x y z. cbn. ring. Qed.
Lemma q_dividing : dividing Qc.
Proof. intros x c Hc. cbn in *. field. exact Hc. Qed.
Lemma q_modulus : modulus 0%Qc qgreater (fun x => x) Qcabs.
Proof.
  constructor; [exact q_order| |].
  - intros x H. apply Qcle_antisym; cbn [rzero Scalar_Q].
    + apply (Qcle_trans _ (Qcabs x)); [apply Qcle_Qcabs|]. apply Qcnot_lt_le. rewrite <- qgreater_iff. congruence.
    + assert (G : (Qcabs x <= 0)%Qc) by (apply Qcnot_lt_le; rewrite <- qgreater_iff; congruence). apply Qcabs_Qcle_condition in G. destruct G as [G _]. now rewrite (ltac:(ring) : (- 0 = 0)%Qc) in G.
  - intros v H E. rewrite qgreater_iff in H. subst v. exact (Qclt_not_eq _ _ H eq_refl).
Qed.

Definition dim81 (b : bond) : nat := 2.
Definition edges81 (i j : nat) : list (nat * nat) :=
  [(phys, 2)] ++ match i with 0 => [] | S i' => [(nm Up 0, dim81 (Below i' j))] end ++ (if 1 + i <? 2 then [(nm Down 0, dim81 (Below i j))] else []) ++
  match j with 0 => [] | S j' => [(nm Lft 0, dim81 (Right_of i j'))] end ++ (if 1 + j <? 2 then [(nm Rgt 0, dim81 (Right_of i j))] else []).
Definition make81 (f : nat -> Qc) (i j : nat) : tensor unit Qc := filled (map fst (edges81 i j)) (map (fun p => mkEdge false [(tt, snd p)]) (edges81 i j)) (fun _ p => f p).
Definition T81 (i j : nat) : tensor unit Qc := make81 (fun p => q_int (Z.of_nat (1 + i + 2 * j + p * p) - 5)) i j.
Lemma fits81 : forall f i j, i < 2 -> j < 2 -> fits_spin 2 2 dim81 2 i j (make81 f i j).
Proof.
  intros f i j Hi Hj. assert (D : (i = 0 \/ i = 1) /\ (j = 0 \/ j = 1)) by lia. clear Hi Hj. destruct D as [[-> | ->] [-> | ->]];
    (constructor; [now apply (filled_wf _ _ _ _ _)|discriminate|reflexivity|reflexivity|reflexivity|reflexivity|reflexivity|intros n Hn; cbn in Hn; cbn; intuition]).
Qed.
Definition eq_env : @env Qc := mkEnv (q_int (-7)) None false (fun _ => false).
