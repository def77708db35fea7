(** Algebra of square matrices. *)
From Coq Require Import List Bool Arith ZArith Lia Factorial.
From Verif Require Import Base.Outcome Model.Core Spec.Contract Spec.Matrix Proof.SumFacts.
Import ListNotations.

Section Algebra.
  Context {R : Type} {RR : Scalar R} {of_int : Z -> R}.
  Local Notation matrix := (@matrix R).
  Hypothesis EF : exact_field R of_int.
  Let EA : exact_arithmetic R := ef_ea _ _ EF.

  Lemma mul_0_r : forall x : R, rmul x rzero = rzero.
  Proof. intro x. rewrite (ea_mul_comm _ EA). apply (ea_mul_0 _ EA). Qed.
  Lemma add_0_r : forall x : R, radd x rzero = x.
  Proof. intro x. rewrite (ea_add_comm _ EA). apply (ea_add_0 _ EA). Qed.
  Lemma mul_1_r : forall x : R, rmul x rone = x.
  Proof. intro x. rewrite (ea_mul_comm _ EA). apply (ea_mul_1 _ EA). Qed.
  Lemma distr_r : forall x y z : R, rmul (radd y z) x = radd (rmul y x) (rmul z x).
  Proof. intros x y z. rewrite (ea_mul_comm _ EA), (ef_distr _ _ EF), !(ea_mul_comm _ EA x). reflexivity. Qed.
  Lemma opp_unique : forall x y : R, radd x y = rzero -> y = ropp x.
  Proof.
    intros x y H. rewrite <- (ea_add_0 _ EA y), <- (ef_opp _ _ EF x), (ea_add_comm _ EA x), <- (ea_add_assoc _ EA), H. apply add_0_r.
  Qed.
  Lemma opp_mul_l : forall x y : R, rmul (ropp x) y = ropp (rmul x y).
  Proof. intros x y. apply opp_unique. rewrite <- distr_r, (ef_opp _ _ EF). apply (ea_mul_0 _ EA). Qed.
  Lemma opp_mul_r : forall x y : R, rmul x (ropp y) = ropp (rmul x y).
  Proof. intros x y. rewrite (ea_mul_comm _ EA), opp_mul_l. f_equal. apply (ea_mul_comm _ EA). Qed.
  Lemma opp_opp : forall x : R, ropp (ropp x) = x.
  Proof. intro x. symmetry. apply opp_unique. rewrite (ea_add_comm _ EA). apply (ef_opp _ _ EF). Qed.
  Lemma opp_0 : ropp rzero = rzero :> R.
  Proof. symmetry. apply opp_unique. apply add_0_r. Qed.
  Lemma opp_add : forall x y : R, ropp (radd x y) = radd (ropp x) (ropp y).
  Proof.
    intros x y. symmetry. apply opp_unique. rewrite (ea_add_comm _ EA (ropp x)), (ea_add_assoc _ EA), <- (ea_add_assoc _ EA x), (ef_opp _ _ EF), add_0_r. apply (ef_opp _ _ EF).
  Qed.

  Lemma rsum_cons : forall (x : R) l, rsum (x :: l) = radd x (rsum l).
  Proof. reflexivity. Qed.
  Lemma rsum_nil : rsum [] = rzero :> R.
  Proof. reflexivity. Qed.
  Lemma rsum_mul_l : forall c (l : list R), rmul c (rsum l) = rsum (map (rmul c) l).
  Proof. induction l as [|x l IH]; cbn [map]; rewrite ?rsum_cons, ?rsum_nil; [apply mul_0_r|]. now rewrite (ef_distr _ _ EF), IH. Qed.
  Lemma rsum_mul_r : forall c (l : list R), rmul (rsum l) c = rsum (map (fun x => rmul x c) l).
  Proof. induction l as [|x l IH]; cbn [map]; rewrite ?rsum_cons, ?rsum_nil; [apply (ea_mul_0 _ EA)|]. now rewrite distr_r, IH. Qed.
  Lemma rsum_opp : forall l : list R, ropp (rsum l) = rsum (map ropp l).
  Proof. induction l as [|x l IH]; cbn [map]; rewrite ?rsum_cons, ?rsum_nil; [apply opp_0|]. now rewrite opp_add, IH. Qed.
  Lemma rsum_add : forall A (f g : A -> R) l, rsum (map (fun x => radd (f x) (g x)) l) = radd (rsum (map f l)) (rsum (map g l)).
  Proof.
    induction l as [|x l IH]; cbn [map]; rewrite ?rsum_cons, ?rsum_nil; [now rewrite (ea_add_0 _ EA)|]. rewrite IH.
    rewrite <- !(ea_add_assoc _ EA). f_equal. rewrite !(ea_add_assoc _ EA). f_equal. apply (ea_add_comm _ EA).
  Qed.
  Lemma rsum_swap : forall A B (f : A -> B -> R) l1 l2,
    rsum (map (fun x => rsum (map (f x) l2)) l1) = rsum (map (fun y => rsum (map (fun x => f x y) l1)) l2).
  Proof.
    induction l1 as [|x l1 IH]; intro l2; cbn [map]; rewrite ?rsum_cons, ?rsum_nil.
    - symmetry. apply (rsum_zero EA). intros z Hz. apply in_map_iff in Hz. destruct Hz as [y [<- _]]. reflexivity.
    - rewrite IH, <- rsum_add. apply rsum_ext. intros y _. now rewrite rsum_cons.
  Qed.
  Lemma rsum_map_const_mul : forall A c (f : A -> R) l, rsum (map (fun x => rmul c (f x)) l) = rmul c (rsum (map f l)).
  Proof. intros. rewrite rsum_mul_l, map_map. reflexivity. Qed.

  Section Size.
    Variable n : nat.
    Notation "A == B" := (meq n A B) (at level 70).
    Lemma meq_refl : forall A : matrix, A == A.
    Proof. intros A i j _ _. reflexivity. Qed.
    Lemma meq_sym : forall A B : matrix, A == B -> B == A.
    Proof. intros A B H i j Hi Hj. symmetry. auto. Qed.
    Lemma meq_trans : forall A B C : matrix, A == B -> B == C -> A == C.
    Proof. intros A B C H1 H2 i j Hi Hj. rewrite H1 by auto. auto. Qed.
    Lemma mmul_ext : forall A A' B B' : matrix, A == A' -> B == B' -> mmul n A B == mmul n A' B'.
    Proof.
      intros A A' B B' HA HB i j Hi Hj. unfold mmul. apply rsum_ext. intros l Hl. apply in_seq in Hl. rewrite HA, HB by lia. reflexivity.
    Qed.
    Lemma rsum_delta : forall (f : nat -> R) m i, i < m -> rsum (map (fun l => rmul (ident i l) (f l)) (seq 0 m)) = f i.
    Proof.
      intros f m i Hi. replace m with (i + Datatypes.S (m - Datatypes.S i)) by lia. rewrite seq_app, map_app, (rsum_app EA).
      cbn [seq map plus]. rewrite rsum_cons. rewrite !(rsum_zero EA).
      - rewrite (ea_add_0 _ EA), add_0_r. unfold ident. rewrite Nat.eqb_refl. apply (ea_mul_1 _ EA).
      - intros x Hx. apply in_map_iff in Hx. destruct Hx as [l [<- Hl]]. apply in_seq in Hl. unfold ident.
        destruct (Nat.eqb_spec i l); [lia|]. apply (ea_mul_0 _ EA).
      - intros x Hx. apply in_map_iff in Hx. destruct Hx as [l [<- Hl]]. apply in_seq in Hl. unfold ident.
        destruct (Nat.eqb_spec i l); [lia|]. apply (ea_mul_0 _ EA).
    Qed.
    Lemma mmul_id_l : forall A : matrix, mmul n ident A == A.
    Proof. intros A i j Hi Hj. unfold mmul. exact (rsum_delta (fun l => A l j) n i Hi). Qed.
    Lemma ident_sym : forall i j, ident i j = ident j i :> R.
    Proof. intros. unfold ident. now rewrite Nat.eqb_sym. Qed.
    Lemma mmul_id_r : forall A : matrix, mmul n A ident == A.
    Proof.
      intros A i j Hi Hj. unfold mmul. rewrite <- (rsum_delta (fun l => A i l) n j Hj). apply rsum_ext. intros l _.
      rewrite (ea_mul_comm _ EA), ident_sym. reflexivity.
    Qed.
    Lemma mmul_assoc : forall A B C : matrix, mmul n A (mmul n B C) == mmul n (mmul n A B) C.
    Proof.
      intros A B C i j _ _. unfold mmul.
      transitivity (rsum (map (fun l => rsum (map (fun m => rmul (A i l) (rmul (B l m) (C m j))) (seq 0 n))) (seq 0 n))).
      { apply rsum_ext. intros l _. rewrite rsum_mul_l, map_map. reflexivity. }
      rewrite rsum_swap. apply rsum_ext. intros m _. rewrite rsum_mul_r, map_map. apply rsum_ext. intros l _. apply (ef_mul_assoc _ _ EF).
    Qed.
    Lemma mpow_ext : forall (A B : matrix) k, A == B -> mpow n A k == mpow n B k.
    Proof. intros A B k H. induction k as [|k IH]; cbn; [apply meq_refl|]. now apply mmul_ext. Qed.
    Lemma mpow_add : forall (A : matrix) a b, mmul n (mpow n A a) (mpow n A b) == mpow n A (a + b).
    Proof.
      intros A a b. induction a as [|a IH]; cbn; [apply mmul_id_l|].
      eapply meq_trans; [apply meq_sym, mmul_assoc|]. apply mmul_ext; [apply meq_refl|exact IH].
    Qed.
    Lemma mpow_opp : forall (A : matrix) k, mpow n (mopp A) k == (fun i j => if Nat.odd k then ropp (mpow n A k i j) else mpow n A k i j).
    Proof.
      intros A k. induction k as [|k IH]; [apply meq_refl|]. intros i j Hi Hj. cbn [mpow].
      rewrite (mmul_ext _ _ _ _ (meq_refl (mopp A)) IH i j Hi Hj). rewrite Nat.odd_succ, <- Nat.negb_odd.
      unfold mmul, mopp. destruct (Nat.odd k); cbn [negb].
      - apply rsum_ext. intros l _. rewrite opp_mul_l, opp_mul_r. apply opp_opp.
      - rewrite rsum_opp, map_map. apply rsum_ext. intros l _. apply opp_mul_l.
    Qed.
  End Size.

  (** ** coefficients *)
  Lemma div_unique : forall (x y : R) d, d <> 0%Z -> rmul x (of_int d) = y -> x = rdiv y (of_int d).
  Proof. intros x y d Hd <-. symmetry. now apply (ef_cancel _ _ EF). Qed.
  Lemma mul_cancel : forall (x y : R) d, d <> 0%Z -> rmul x (of_int d) = rmul y (of_int d) -> x = y.
  Proof. intros x y d Hd H. rewrite <- (ef_cancel _ _ EF x d Hd), H. now apply (ef_cancel _ _ EF). Qed.
  Lemma fact_nz : forall k, Z.of_nat (fact k) <> 0%Z.
  Proof. intro k. pose proof (lt_O_fact k). lia. Qed.
  Lemma coefficient_0 : forall q, pade_coefficient of_int q 0 = rone.
  Proof.
    intro q. unfold pade_coefficient. rewrite !Nat.sub_0_r. symmetry. apply div_unique.
    - pose proof (fact_nz (2 * q)). pose proof (fact_nz q). pose proof (fact_nz 0). rewrite !Z.eq_mul_0. intuition.
    - rewrite (ea_mul_1 _ EA). f_equal. change (fact 0) with 1. lia.
  Qed.
  Lemma coefficient_step : forall q k, k < q ->
    rdiv (rmul (pade_coefficient of_int q k) (of_int (Z.of_nat q - Z.of_nat k))) (of_int ((2 * Z.of_nat q - Z.of_nat k) * (Z.of_nat k + 1))) =
    pade_coefficient of_int q (k + 1).
  Proof.
    intros q k Hk. set (x := rdiv _ _). unfold pade_coefficient.
    set (d := ((2 * Z.of_nat q - Z.of_nat k) * (Z.of_nat k + 1))%Z) in *.
    assert (Hd : d <> 0%Z) by (unfold d; rewrite Z.eq_mul_0; lia).
    set (Q0 := (Z.of_nat (fact (2 * q)) * Z.of_nat (fact k) * Z.of_nat (fact (q - k)))%Z).
    set (Q1 := (Z.of_nat (fact (2 * q)) * Z.of_nat (fact (k + 1)) * Z.of_nat (fact (q - (k + 1))))%Z).
    set (P0 := (Z.of_nat (fact (2 * q - k)) * Z.of_nat (fact q))%Z). set (P1 := (Z.of_nat (fact (2 * q - (k + 1))) * Z.of_nat (fact q))%Z).
    assert (NQ0 : Q0 <> 0%Z) by (unfold Q0; rewrite !Z.eq_mul_0; pose proof (fact_nz (2 * q)); pose proof (fact_nz k); pose proof (fact_nz (q - k)); intuition).
    assert (NQ1 : Q1 <> 0%Z) by (unfold Q1; rewrite !Z.eq_mul_0; pose proof (fact_nz (2 * q)); pose proof (fact_nz (k + 1)); pose proof (fact_nz (q - (k + 1))); intuition).
    assert (HP : P0 = ((2 * Z.of_nat q - Z.of_nat k) * P1)%Z).
    { unfold P0, P1. replace (2 * q - k) with (Datatypes.S (2 * q - (k + 1))) by lia.
      change (fact (Datatypes.S ?m)) with (Datatypes.S m * fact m). rewrite Nat2Z.inj_mul. replace (Z.of_nat (Datatypes.S (2 * q - (k + 1)))) with (2 * Z.of_nat q - Z.of_nat k)%Z by lia. ring. }
    assert (HQ : (Q0 * (Z.of_nat k + 1) = Q1 * (Z.of_nat q - Z.of_nat k))%Z).
    { unfold Q0, Q1. replace (q - k) with (Datatypes.S (q - (k + 1))) by lia. replace (k + 1) with (Datatypes.S k) by lia.
      change (fact (Datatypes.S k)) with (Datatypes.S k * fact k). change (fact (Datatypes.S (q - Datatypes.S k))) with (Datatypes.S (q - Datatypes.S k) * fact (q - Datatypes.S k)).
      rewrite !Nat2Z.inj_mul. replace (Z.of_nat (Datatypes.S (q - Datatypes.S k))) with (Z.of_nat q - Z.of_nat k)%Z by lia. replace (Z.of_nat (Datatypes.S k)) with (Z.of_nat k + 1)%Z by lia. ring. }
    apply div_unique; [exact NQ1|].
    apply (mul_cancel _ _ ((Z.of_nat q - Z.of_nat k) * (2 * Z.of_nat q - Z.of_nat k))); [rewrite Z.eq_mul_0; lia|].
    rewrite <- (ef_mul_assoc _ _ EF), <- !(ef_mul _ _ EF).
    replace (Q1 * ((Z.of_nat q - Z.of_nat k) * (2 * Z.of_nat q - Z.of_nat k)))%Z with (d * Q0)%Z by (unfold d; nia).
    rewrite (ef_mul _ _ EF), (ef_mul_assoc _ _ EF). unfold x. rewrite (ef_div _ _ EF) by exact Hd. unfold pade_coefficient. fold P0 Q0.
    rewrite <- (ef_mul_assoc _ _ EF), (ea_mul_comm _ EA (of_int (Z.of_nat q - Z.of_nat k))), (ef_mul_assoc _ _ EF), (ef_div _ _ EF) by exact NQ0.
    rewrite <- (ef_mul _ _ EF). f_equal. nia.
  Qed.
End Algebra.
