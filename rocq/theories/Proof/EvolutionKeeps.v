(** What commutes with a term commutes with its evolution operator; symmetric terms have symmetric evolution operators. *)
From Coq Require Import String List Bool Arith ZArith Lia Permutation.
From Verif Require Import Base.Outcome Base.SMap Model.Symmetry Model.Edge Model.Core Model.EdgeOperator Model.Elementwise Model.Exponential Model.SimpleTensor Model.Evolution
  Spec.Blocks Spec.Fuse Spec.Relabel Spec.Plain Spec.ExactOperator Spec.SpinModel Spec.Contract Spec.Matrix Spec.Operator Spec.Evolution
  Proof.SymmetryFacts Proof.CoreFacts Proof.SumFacts Proof.MatrixFacts Proof.ExpOperator Proof.EvolutionFacts Proof.EvolutionEigen.
Import ListNotations.
Open Scope nat_scope.

Section Matrices.
  Context {R : Type} {RR : Scalar R}.
  Variable of_int : Z -> R.
  Hypothesis EF : exact_field R of_int.
  Variable n : nat.
  Notation EA := (ef_ea _ _ EF).
  Notation "A == B" := (meq n A B) (at level 70).
  Definition commutes (X A : matrix) : Prop := mmul n X A == mmul n A X.

  Lemma commutes_sym : forall X A : matrix, commutes X A -> commutes A X.
  Proof. intros X A H. apply meq_sym. exact H. Qed.
  Lemma commutes_self : forall A : matrix, commutes A A.
  Proof. intros A. apply meq_refl. Qed.
  Lemma commutes_product : forall X A B : matrix, commutes X A -> commutes X B -> commutes X (mmul n A B).
  Proof.
    intros X A B HA HB. unfold commutes in *. eapply meq_trans; [apply (mmul_assoc EF)|]. eapply meq_trans; [apply mmul_ext; [exact HA|apply meq_refl]|]. eapply meq_trans; [apply meq_sym, (mmul_assoc EF)|].
    eapply meq_trans; [apply mmul_ext; [apply meq_refl|exact HB]|]. apply (mmul_assoc EF).
  Qed.
  Lemma commutes_power : forall (X A : matrix) k, commutes X A -> commutes X (mpow n A k).
  Proof.
    intros X A k HA. induction k as [|k IH]; cbn [mpow]; [|now apply commutes_product].
    unfold commutes. eapply meq_trans; [apply (mmul_id_r EF)|apply meq_sym, (mmul_id_l EF)].
  Qed.
  Lemma commutes_scale : forall (X A : matrix) c, commutes X A -> commutes X (mscale c A).
  Proof.
    intros X A c HA. unfold commutes. eapply meq_trans; [apply (mul_scale_r of_int EF)|]. eapply meq_trans; [apply scale_ext; exact HA|]. apply meq_sym, (mul_scale_l of_int EF).
  Qed.
  Lemma commutes_opp : forall X A : matrix, commutes X A -> commutes X (mopp A).
  Proof.
    intros X A HA i j Hi Hj. specialize (HA i j Hi Hj). unfold mmul, mopp in *. transitivity (ropp (rsum (map (fun l => rmul (X i l) (A l j)) (seq 0 n)))).
    - rewrite (rsum_opp EF), map_map. apply rsum_ext. intros l _. apply (opp_mul_r EF).
    - rewrite HA, (rsum_opp EF), map_map. apply rsum_ext. intros l _. symmetry. apply (opp_mul_l EF).
  Qed.
  Lemma commutes_pade : forall (X A : matrix) q, commutes X A -> commutes X (pade_polynomial n of_int q A).
  Proof.
    intros X A q HA i j Hi Hj. unfold mmul at 1 2, pade_polynomial, mscale.
    transitivity (rsum (map (fun k => rmul (pade_coefficient of_int q k) (mmul n X (mpow n A k) i j)) (seq 0 (q + 1)))).
    - transitivity (rsum (map (fun l => rsum (map (fun k => rmul (pade_coefficient of_int q k) (rmul (X i l) (mpow n A k l j))) (seq 0 (q + 1)))) (seq 0 n))).
      + apply rsum_ext. intros l _. rewrite (rsum_mul_l EF), map_map. apply rsum_ext. intros k _. rewrite !(ef_mul_assoc _ _ EF). f_equal. apply (ea_mul_comm _ EA).
      + rewrite (rsum_swap EF). apply rsum_ext. intros k _. unfold mmul. now rewrite (rsum_map_const_mul EF).
    - transitivity (rsum (map (fun l => rsum (map (fun k => rmul (pade_coefficient of_int q k) (rmul (mpow n A k i l) (X l j))) (seq 0 (q + 1)))) (seq 0 n))).
      + rewrite (rsum_swap EF). apply rsum_ext. intros k _. rewrite (rsum_map_const_mul EF). f_equal. exact (commutes_power X A k HA i j Hi Hj).
      + apply rsum_ext. intros l _. rewrite (rsum_mul_r EF), map_map. apply rsum_ext. intros k _. apply (ef_mul_assoc _ _ EF).
  Qed.
  Lemma commutes_inverse : forall X B V : matrix, commutes X B -> inverse n V B -> commutes X V.
  Proof.
    intros X B V HB [VB BV]. unfold commutes. apply meq_sym. apply meq_trans with (mmul n (mmul n V X) (mmul n B V)).
    - eapply meq_trans; [apply meq_sym, (mmul_id_r EF)|]. apply mmul_ext; [apply meq_refl|]. apply meq_sym. exact BV.
    - apply meq_trans with (mmul n (mmul n V (mmul n X B)) V).
      + eapply meq_trans; [apply (mmul_assoc EF)|]. apply mmul_ext; [|apply meq_refl]. apply meq_sym, (mmul_assoc EF).
      + eapply meq_trans; [apply mmul_ext; [apply mmul_ext; [apply meq_refl|exact HB]|apply meq_refl]|].
        eapply meq_trans; [apply mmul_ext; [apply (mmul_assoc EF)|apply meq_refl]|]. apply mmul_ext; [|apply meq_refl]. eapply meq_trans; [apply mmul_ext; [exact VB|apply meq_refl]|]. apply (mmul_id_l EF).
  Qed.
  Theorem commutes_exponential : forall (X A V : matrix) c q m, commutes X A -> inverse n V (pade_polynomial n of_int q (mopp (mscale c A))) ->
    commutes X (mpow n (mmul n V (pade_polynomial n of_int q (mscale c A))) m).
  Proof.
    intros X A V c q m HA HV. apply commutes_power, commutes_product.
    - eapply commutes_inverse; [|exact HV]. now apply commutes_pade, commutes_opp, commutes_scale.
    - now apply commutes_pade, commutes_scale.
  Qed.

  Definition flip (A : @matrix R) : @matrix R := fun i j => A j i.
  Definition sym (A : matrix) : Prop := flip A == A.
  Lemma flip_product : forall A B : matrix, flip (mmul n A B) == mmul n (flip B) (flip A).
  Proof. intros A B i j _ _. unfold flip, mmul. apply rsum_ext. intros l _. apply (ea_mul_comm _ EA). Qed.
  Lemma flip_ext : forall A B : matrix, A == B -> flip A == flip B.
  Proof. intros A B H i j Hi Hj. now apply H. Qed.
  Lemma sym_product : forall A B : matrix, sym A -> sym B -> commutes A B -> sym (mmul n A B).
  Proof. intros A B HA HB C. unfold sym. eapply meq_trans; [apply flip_product|]. eapply meq_trans; [apply mmul_ext; [exact HB|exact HA]|]. apply meq_sym. exact C. Qed.
  Lemma sym_power : forall (A : matrix) k, sym A -> sym (mpow n A k).
  Proof.
    intros A k HA. induction k as [|k IH]; cbn [mpow]; [intros i j _ _; apply ident_sym|]. apply sym_product; [exact HA|exact IH|]. apply commutes_power, commutes_self.
  Qed.
  Lemma sym_pade : forall (A : matrix) q, sym A -> sym (pade_polynomial n of_int q A).
  Proof. intros A q HA i j Hi Hj. unfold flip, pade_polynomial, mscale. apply rsum_ext. intros k _. f_equal. exact (sym_power A k HA i j Hi Hj). Qed.
  Lemma sym_inverse : forall V B : matrix, sym B -> inverse n V B -> sym V.
  Proof.
    intros V B HB [VB BV]. unfold sym. apply meq_trans with (mmul n (flip V) (mmul n B V)).
    - eapply meq_trans; [apply meq_sym, (mmul_id_r EF)|]. apply mmul_ext; [apply meq_refl|]. apply meq_sym. exact BV.
    - eapply meq_trans; [apply (mmul_assoc EF)|]. apply meq_trans with (mmul n ident V); [|apply (mmul_id_l EF)]. apply mmul_ext; [|apply meq_refl].
      apply meq_trans with (flip (mmul n B V)); [|intros i j Hi Hj; unfold flip; rewrite (BV j i Hj Hi); apply ident_sym].
      eapply meq_trans; [|apply meq_sym, flip_product]. apply mmul_ext; [apply meq_refl|]. apply meq_sym. exact HB.
  Qed.
  Theorem sym_exponential : forall (A V : matrix) c q m, sym A -> inverse n V (pade_polynomial n of_int q (mopp (mscale c A))) -> sym (mpow n (mmul n V (pade_polynomial n of_int q (mscale c A))) m).
  Proof.
    intros A V c q m HA HV. assert (SC : sym (mscale c A)) by (intros i j Hi Hj; unfold flip, mscale; f_equal; now apply HA).
    apply sym_power, sym_product.
    - eapply sym_inverse; [|exact HV]. apply sym_pade. intros i j Hi Hj. unfold flip, mopp. f_equal. now apply SC.
    - now apply sym_pade.
    - apply commutes_sym. eapply commutes_inverse; [|exact HV]. apply commutes_pade, commutes_opp, commutes_sym, commutes_pade, commutes_self.
  Qed.
End Matrices.

Section Evolve.
  Context {R : Type} {RR : Scalar R} {ER : ExpScalar R}.
  Hypothesis EF : exact_field R of_int.
  Notation EA := (ef_ea _ _ EF).
  Variables (E : @env R) (gesv : gesv_routine R) (no_name X1 X2 : name).
  Hypothesis HX : X1 <> X2.
  Theorem evolution_keeps : forall k d delta_t t, fits_operator k d t -> 0 < d ->
    exists (pos : list nat -> nat) (H : matrix), numbers_spins k d pos /\
      (forall ins outs, site_spins k d ins -> site_spins k d outs -> H (pos ins) (pos outs) = rmul (ropp delta_t) (operator_element k t ins outs)) /\
      forall (lg : Z) (V : matrix), let scaled := mscale (rdiv rone (of_int (2 ^ Z.of_nat (Z.to_nat (1 + lg))))) H in
      solves gesv (d ^ k) -> (forall l, lists (d ^ k) l H -> trunc_log2 (Spec.Matrix.largest real_lt real_zero (map rabs l)) = Some lg) -> (- 2 ^ 31 <= lg < 30)%Z ->
      inverse (d ^ k) V (pade_polynomial (d ^ k) of_int 8 (mopp scaled)) ->
      exists U, evolution E gesv no_name X1 X2 k delta_t t = Ok U /\ (forall X, commuting k d X t -> commuting k d X U) /\ (equal_transposed k d t -> equal_transposed k d U).
  Proof.
    intros k d delta_t t F Hd. destruct (evolution_fits EF E gesv no_name X1 X2 HX k d delta_t t F Hd) as [pos [H [NS [HH Main]]]]. exists pos, H. split; [exact NS|]. split; [exact HH|].
    intros lg V scaled Sol Lg Rg Inv. destruct (Main lg V Sol Lg Rg Inv) as [U [EU [FU VU]]]. exists U. split; [exact EU|].
    set (n := d ^ k) in *. set (M := mpow n (mmul n V (pade_polynomial n of_int 8 scaled)) (2 ^ Z.to_nat (1 + lg))) in *.
    set (el := fun (A : tensor unit R) => (fun i j => operator_element k A (back k d pos i) (back k d pos j)) : matrix).
    assert (El : forall A ins outs, site_spins k d ins -> site_spins k d outs -> el A (pos ins) (pos outs) = operator_element k A ins outs) by (intros A ins outs H1 H2; unfold el; now rewrite !(back_pos k d pos NS)).
    assert (Mul : forall (A B : matrix) ins outs, site_spins k d ins -> site_spins k d outs -> Sums (repeat d k) (fun q => rmul (A (pos ins) (pos q)) (B (pos q) (pos outs))) = mmul n A B (pos ins) (pos outs)).
    { intros A B ins outs H1 H2. rewrite (Sums_tuples EA), (sum_numbers EA k d pos NS). unfold mmul. apply rsum_ext. intros l Hl. apply in_seq in Hl. destruct (back_spins k d pos NS l ltac:(unfold n in *; lia)) as [_ B2]. now rewrite B2. }
    assert (ElM : meq n (el U) M).
    { intros i j Hi Hj. destruct (back_spins k d pos NS i Hi) as [A1 A2]. destruct (back_spins k d pos NS j Hj) as [B1 B2]. unfold el. rewrite VU by assumption. now rewrite A2, B2. }
    assert (ElH : meq n (mscale (ropp delta_t) (el t)) H).
    { intros i j Hi Hj. destruct (back_spins k d pos NS i Hi) as [A1 A2]. destruct (back_spins k d pos NS j Hj) as [B1 B2]. unfold el, mscale. rewrite <- HH by assumption. now rewrite A2, B2. }
    split.
    - intros X HXt.
      assert (C : forall A, commuting k d X A <-> commutes n (el X) (el A)).
      { intros A. split.
        - intros HC i j Hi Hj. destruct (back_spins k d pos NS i Hi) as [A1 A2]. destruct (back_spins k d pos NS j Hj) as [B1 B2]. specialize (HC _ _ A1 B1). rewrite <- A2, <- B2, <- !Mul by assumption.
          rewrite !(Sums_tuples EA) in *. etransitivity; [|etransitivity; [exact HC|]]; apply rsum_ext; intros q Hq; apply spin_tuples_in in Hq; now rewrite !El.
        - intros HC ins outs H1 H2. assert (P1 := proj1 NS ins H1). assert (P2 := proj1 NS outs H2). specialize (HC _ _ P1 P2). rewrite <- !Mul in HC by assumption.
          rewrite !(Sums_tuples EA) in *. etransitivity; [|etransitivity; [exact HC|]]; apply rsum_ext; intros q Hq; apply spin_tuples_in in Hq; now rewrite !El. }
      apply C. apply C in HXt. assert (Hc : commutes n (el X) H).
      { unfold commutes. eapply meq_trans; [apply mmul_ext; [apply meq_refl|apply meq_sym; exact ElH]|]. eapply meq_trans; [apply (commutes_scale of_int EF n _ _ (ropp delta_t) HXt)|]. apply mmul_ext; [exact ElH|apply meq_refl]. }
      assert (Q := commutes_exponential of_int EF n (el X) H V _ 8 (2 ^ Z.to_nat (1 + lg)) Hc Inv). unfold commutes in *.
      eapply meq_trans; [apply mmul_ext; [apply meq_refl|exact ElM]|]. eapply meq_trans; [exact Q|]. apply mmul_ext; [apply meq_sym; exact ElM|apply meq_refl].
    - intros St ins outs H1 H2. rewrite !VU by assumption. symmetry.
      refine (sym_exponential of_int EF n H V _ 8 (2 ^ Z.to_nat (1 + lg)) _ Inv (pos ins) (pos outs) (proj1 NS _ H1) (proj1 NS _ H2)).
      intros i j Hi Hj. destruct (back_spins k d pos NS i Hi) as [A1 A2]. destruct (back_spins k d pos NS j Hj) as [B1 B2]. unfold flip. rewrite <- A2, <- B2, !HH by assumption. f_equal. now apply St.
  Qed.
End Evolve.
