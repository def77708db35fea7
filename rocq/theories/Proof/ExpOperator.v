(** Exponential of bosonic tensors read as operators. *)
From Coq Require Import String List Bool Arith ZArith Lia Sorted Permutation.
From Verif Require Import Base.Outcome Base.SMap Model.Symmetry Model.Edge Model.Core Model.Transpose Model.EdgeOperator Model.Elementwise Model.Contract Model.Exponential
  Spec.Blocks Spec.Fuse Spec.Sign Spec.Relabel Spec.Contract Spec.Matrix Spec.Operator Proof.SymmetryFacts Proof.LoopFacts Proof.CoreFacts Proof.ConstructFacts Proof.ElemFacts Proof.OffsetFacts
  Proof.TableFacts Proof.SumFacts Proof.TwoLegs Proof.MatrixFacts Proof.ExponentialFacts Proof.ExpTensor.
Import ListNotations.

Section Transposed.
  Context {R : Type} {RR : Scalar R} {of_int : Z -> R}.
  Local Notation matrix := (@matrix R).
  Hypothesis EF : exact_field R of_int.
  Let EA : exact_arithmetic R := ef_ea _ _ EF.
  Variable n : nat.
  Notation "A == B" := (meq n A B) (at level 70).

  Definition tr (A : matrix) : matrix := fun i j => A j i.
  Lemma tr_ext : forall A B : matrix, A == B -> tr A == tr B.
  Proof. intros A B H i j Hi Hj. now apply H. Qed.
  Lemma tr_mul : forall A B : matrix, mmul n (tr A) (tr B) == tr (mmul n B A).
  Proof. intros A B i j _ _. unfold mmul, tr. apply rsum_ext. intros l _. apply (ea_mul_comm _ EA). Qed.
  Lemma tr_ident : tr ident == ident.
  Proof. intros i j _ _. unfold tr. now apply ident_sym. Qed.
  Lemma pow_comm : forall (A : matrix) k, mmul n (mpow n A k) A == mmul n A (mpow n A k).
  Proof.
    intros A k. eapply meq_trans; [apply mmul_ext; [apply meq_refl|apply meq_sym, (mmul_id_r EF)]|].
    eapply meq_trans; [exact (mpow_add EF n A k 1)|]. rewrite Nat.add_comm. cbn. apply meq_refl.
  Qed.
  Lemma tr_pow : forall (A : matrix) k, mpow n (tr A) k == tr (mpow n A k).
  Proof.
    intros A k. induction k as [|k IH]; cbn [mpow]; [apply meq_sym, tr_ident|].
    eapply meq_trans; [apply mmul_ext; [apply meq_refl|exact IH]|]. eapply meq_trans; [apply tr_mul|]. apply tr_ext, pow_comm.
  Qed.
  Lemma pade_ext : forall (A B : matrix) q, A == B -> pade_polynomial n of_int q A == pade_polynomial n of_int q B.
  Proof. intros A B q H i j Hi Hj. unfold pade_polynomial. apply rsum_ext. intros k _. f_equal. now apply mpow_ext. Qed.
  Lemma tr_pade : forall (A : matrix) q, pade_polynomial n of_int q (tr A) == tr (pade_polynomial n of_int q A).
  Proof. intros A q i j Hi Hj. unfold pade_polynomial, tr at 2. apply rsum_ext. intros k _. f_equal. now apply (tr_pow A k i j). Qed.

  Lemma commute_pow : forall (C A : matrix) k, mmul n C A == mmul n A C -> mmul n C (mpow n A k) == mmul n (mpow n A k) C.
  Proof.
    intros C A k H. induction k as [|k IH]; cbn [mpow].
    - eapply meq_trans; [apply (mmul_id_r EF)|apply meq_sym, (mmul_id_l EF)].
    - eapply meq_trans; [apply (mmul_assoc EF)|]. eapply meq_trans; [apply mmul_ext; [exact H|apply meq_refl]|].
      eapply meq_trans; [apply meq_sym, (mmul_assoc EF)|]. eapply meq_trans; [apply mmul_ext; [apply meq_refl|exact IH]|]. apply (mmul_assoc EF).
  Qed.
  Lemma commute_pade : forall (C A : matrix) q, mmul n C A == mmul n A C -> mmul n C (pade_polynomial n of_int q A) == mmul n (pade_polynomial n of_int q A) C.
  Proof.
    intros C A q H i j Hi Hj. unfold mmul, pade_polynomial.
    transitivity (rsum (map (fun k => rmul (pade_coefficient of_int q k) (mmul n C (mpow n A k) i j)) (seq 0 (q + 1)))).
    - transitivity (rsum (map (fun l => rsum (map (fun k => rmul (pade_coefficient of_int q k) (rmul (C i l) (mpow n A k l j))) (seq 0 (q + 1)))) (seq 0 n))).
      + apply rsum_ext. intros l _. rewrite (rsum_mul_l EF), map_map. apply rsum_ext. intros k _. rewrite !(ef_mul_assoc _ _ EF). f_equal. apply (ea_mul_comm _ EA).
      + rewrite (rsum_swap EF). apply rsum_ext. intros k _. unfold mmul. now rewrite (rsum_map_const_mul EF).
    - transitivity (rsum (map (fun l => rsum (map (fun k => rmul (pade_coefficient of_int q k) (rmul (mpow n A k i l) (C l j))) (seq 0 (q + 1)))) (seq 0 n))).
      + rewrite (rsum_swap EF). apply rsum_ext. intros k _. rewrite (rsum_map_const_mul EF). f_equal. exact (commute_pow C A k H i j Hi Hj).
      + apply rsum_ext. intros l _. rewrite (rsum_mul_r EF), map_map. apply rsum_ext. intros k _. now rewrite (ef_mul_assoc _ _ EF).
  Qed.
  Lemma opp_commute : forall A : matrix, mmul n A (mopp A) == mmul n (mopp A) A.
  Proof.
    intros A i j _ _. unfold mmul, mopp.
    transitivity (ropp (rsum (map (fun l => rmul (A i l) (A l j)) (seq 0 n)))).
    - rewrite (rsum_opp EF), map_map. apply rsum_ext. intros l _. apply (opp_mul_r EF).
    - rewrite (rsum_opp EF), map_map. apply rsum_ext. intros l _. symmetry. apply (opp_mul_l EF).
  Qed.
  (** the quotient may be taken from the left or from the right *)
  Lemma quotient_comm : forall (V B : matrix) q, inverse n V (pade_polynomial n of_int q (mopp B)) ->
    mmul n (pade_polynomial n of_int q B) V == mmul n V (pade_polynomial n of_int q B).
  Proof.
    intros V B q [H1 H2]. set (D := pade_polynomial n of_int q (mopp B)) in *. set (N := pade_polynomial n of_int q B).
    assert (HC : mmul n D N == mmul n N D).
    { apply commute_pade. apply meq_sym. apply commute_pade. apply opp_commute. }
    eapply meq_trans; [apply meq_sym, (mmul_id_l EF)|]. eapply meq_trans; [apply mmul_ext; [apply meq_sym; exact H1|apply meq_refl]|].
    eapply meq_trans; [apply meq_sym, (mmul_assoc EF)|]. apply mmul_ext; [apply meq_refl|].
    eapply meq_trans; [apply (mmul_assoc EF)|]. eapply meq_trans; [apply mmul_ext; [exact HC|apply meq_refl]|].
    eapply meq_trans; [apply meq_sym, (mmul_assoc EF)|]. eapply meq_trans; [apply mmul_ext; [apply meq_refl|exact H2]|]. apply (mmul_id_r EF).
  Qed.
  Lemma scale_ext : forall c (A B : matrix), A == B -> mscale c A == mscale c B.
  Proof. intros c A B H i j Hi Hj. unfold mscale. now rewrite H. Qed.
  Lemma opp_ext : forall (A B : matrix), A == B -> mopp A == mopp B.
  Proof. intros A B H i j Hi Hj. unfold mopp. now rewrite H. Qed.
  Lemma inverse_ext : forall (V A B : matrix), A == B -> inverse n V A -> inverse n V B.
  Proof.
    intros V A B H [H1 H2]. split.
    - eapply meq_trans; [|exact H1]. apply mmul_ext; [apply meq_refl|now apply meq_sym].
    - eapply meq_trans; [|exact H2]. apply mmul_ext; [now apply meq_sym|apply meq_refl].
  Qed.
  Lemma inverse_tr : forall V A : matrix, inverse n V A -> inverse n (tr V) (tr A).
  Proof.
    intros V A [H1 H2]. split.
    - eapply meq_trans; [apply tr_mul|]. eapply meq_trans; [apply tr_ext; exact H2|apply tr_ident].
    - eapply meq_trans; [apply tr_mul|]. eapply meq_trans; [apply tr_ext; exact H1|apply tr_ident].
  Qed.
End Transposed.

Section Lists.
  Context {R : Type} {RR : Scalar R} {ER : ExpScalar R}.
  Local Notation matrix := (@matrix R).
  Hypothesis EF : exact_field R of_int.
  Variables (junk : R) (gesv : gesv_routine R).

  Lemma exponential_cells : forall col n q l (M : list R) (Op V : matrix), solves gesv n -> 0 < n -> length M = n * n ->
    (forall i j, i < n -> j < n -> nth (cell col n i j) M rzero = Op i j) ->
    (Z.of_nat q * (Z.of_nat q + 1) < 2 ^ 31)%Z -> trunc_log2 (largest real_lt real_zero (map rabs M)) = Some l -> (- 2 ^ 31 <= l < 30)%Z ->
    inverse n V (pade_polynomial n of_int q (mopp (mscale (rdiv rone (of_int (2 ^ Z.of_nat (Z.to_nat (1 + l))))) Op))) ->
    exists A' F', matrix_exponential junk gesv n M (repeat junk (n * n)) (Z.of_nat q) = Ok (A', F') /\ length F' = n * n /\
      forall i j, i < n -> j < n -> nth (cell col n i j) F' rzero =
        mpow n (mmul n V (pade_polynomial n of_int q (mscale (rdiv rone (of_int (2 ^ Z.of_nat (Z.to_nat (1 + l))))) Op))) (2 ^ Z.to_nat (1 + l)) i j.
  Proof.
    intros col n q l M Op V Hs Hn HL HOp Hq Hl Hr HV. set (k := Z.to_nat (1 + l)) in *. set (c := rdiv rone (of_int (2 ^ Z.of_nat k))) in *.
    pose (sw := fun A : matrix => if col then tr A else A).
    assert (Hrow : meq n (by_rows n M) (sw Op)).
    { intros i j Hi Hj. unfold sw, by_rows. destruct col; [exact (HOp j i Hj Hi)|exact (HOp i j Hi Hj)]. }
    assert (Hsc : meq n (mscale c (by_rows n M)) (sw (mscale c Op))).
    { eapply meq_trans; [apply scale_ext; exact Hrow|]. unfold sw. destruct col; apply meq_refl. }
    assert (HV' : inverse n (sw V) (pade_polynomial n of_int q (mopp (mscale c (by_rows n M))))).
    { apply (inverse_ext n (sw V) (sw (pade_polynomial n of_int q (mopp (mscale c Op))))).
      - apply meq_sym. eapply meq_trans; [apply pade_ext, opp_ext; exact Hsc|]. unfold sw. destruct col; [|apply meq_refl]. exact (tr_pade EF n (mopp (mscale c Op)) q).
      - unfold sw. destruct col; [now apply (inverse_tr EF)|exact HV]. }
    destruct (exponential_ok (RR := RR) (ER := ER) junk gesv EF n q l M (repeat junk (n * n)) (sw V) Hs Hn HL (repeat_length _ _) Hq Hl Hr HV') as [A' [F' [E1 [E2 E3]]]].
    exists A', F'. split; [exact E1|]. split; [exact E2|]. fold k c in E3.
    assert (Hw : meq n (mmul n (sw V) (pade_polynomial n of_int q (mscale c (by_rows n M)))) (sw (mmul n V (pade_polynomial n of_int q (mscale c Op))))).
    { eapply meq_trans; [apply mmul_ext; [apply meq_refl|apply pade_ext; exact Hsc]|]. unfold sw. destruct col; [|apply meq_refl].
      eapply meq_trans; [apply mmul_ext; [apply meq_refl|exact (tr_pade EF n (mscale c Op) q)]|]. eapply meq_trans; [apply (tr_mul EF)|]. apply tr_ext. now apply (quotient_comm EF). }
    assert (Hp : meq n (by_rows n F') (sw (mpow n (mmul n V (pade_polynomial n of_int q (mscale c Op))) (2 ^ k)))).
    { eapply meq_trans; [exact E3|]. eapply meq_trans; [apply mpow_ext; exact Hw|]. unfold sw. destruct col; [apply (tr_pow EF)|apply meq_refl]. }
    intros i j Hi Hj. unfold sw, cell in *. destruct col; [exact (Hp j i Hj Hi)|exact (Hp i j Hi Hj)].
  Qed.
End Lists.

Section Operator.
  Context {S R : Type} {SS : Sym S} {SL : SymLaws S} {RR : Scalar R} {ER : ExpScalar R}.
  Notation entry := (S * nat)%type.
  Local Notation matrix := (@matrix R).
  Hypothesis Nf : @is_fermi S SS = false.
  Hypothesis EF : exact_field R of_int.
  Variables (E : @env R) (gesv : gesv_routine R).
  Variables (no_name X1 X2 : name).
  Hypothesis HX : X1 <> X2.
  Variables (t : tensor S R) (pairs : list (nat * nat)) (q : nat).
  Hypothesis W : wf_tensor t.
  Hypothesis HPm : Permutation (t_names t) (map fst pairs ++ map snd pairs).
  Hypothesis HM : forall a b s d, In (a, b) pairs -> In (s, d) (emap (edge_named (legs_of t) a)) <-> In (sneg s, d) (emap (edge_named (legs_of t) b)).
  Hypothesis HP : length pairs <= 1 \/ forall s : S, sneg s = s.
  Hypothesis Hq : (Z.of_nat q * (Z.of_nat q + 1) < 2 ^ 31)%Z.
  Let maps (l : list nat) : list (list entry) := map (fun n => emap (edge_named (legs_of t) n)) l.

  Lemma matrix_len : forall junk n (M : list R) col Op lg V, solves gesv n -> 0 < n -> length M = n * n ->
    (forall i j, i < n -> j < n -> nth (cell col n i j) M rzero = Op i j) -> trunc_log2 (largest real_lt real_zero (map rabs M)) = Some lg -> (- 2 ^ 31 <= lg < 30)%Z ->
    inverse n V (pade_polynomial n of_int q (mopp (mscale (rdiv rone (of_int (2 ^ Z.of_nat (Z.to_nat (1 + lg))))) Op))) ->
    exists A' F', length F' = n * n /\ matrix_exponential junk gesv n M (repeat junk (n * n)) (Z.of_nat q) = Ok (A', F').
  Proof. intros junk n M col Op lg V H1 H2 H3 H4 H5 H6 H7. destruct (exponential_cells EF junk gesv col n q lg M Op V) as [A' [F' [X [Y _]]]]; auto. exists A', F'. auto. Qed.

  Theorem exponential_operator : exists (cnt : S -> nat) (idx : list entry -> nat) (Op : S -> matrix) (M : S -> list R),
    numbering (maps (map fst pairs)) cnt idx /\
    (forall x y, in_range (maps (map fst pairs)) x -> in_range (maps (map fst pairs)) y -> total x = total y ->
       Op (total x) (idx x) (idx y) = element t (row_column pairs x y)) /\
    (forall c, In c (tuples (maps (map fst pairs))) -> lists (cnt (total c)) (M (total c)) (Op (total c))) /\
    forall (lg : S -> Z) (V : S -> matrix),
      let scaled s := mscale (rdiv rone (of_int (2 ^ Z.of_nat (Z.to_nat (1 + lg s))))) (Op s) in
      (forall c, In c (tuples (maps (map fst pairs))) -> let s := total c in
         0 < cnt s /\ solves gesv (cnt s) /\ trunc_log2 (largest real_lt real_zero (map rabs (M s))) = Some (lg s) /\ (- 2 ^ 31 <= lg s < 30)%Z /\
         inverse (cnt s) (V s) (pade_polynomial (cnt s) of_int q (mopp (scaled s)))) ->
      exists r, exponential E gesv no_name X1 X2 t pairs (Z.of_nat q) = Ok r /\ wf_tensor r /\ Permutation (t_names t) (t_names r) /\
        (forall pt, valid_pt (t_core r) pt <-> in_range (maps (t_names r)) pt /\ ssum (map fst pt) = szero) /\
        forall x y, in_range (maps (map fst pairs)) x -> in_range (maps (map fst pairs)) y -> total x = total y -> let s := total x in
          const_at r (row_column pairs x y) = Ok (mpow (cnt s) (mmul (cnt s) (V s) (pade_polynomial (cnt s) of_int q (scaled s))) (2 ^ Z.to_nat (1 + lg s)) (idx x) (idx y)).
  Proof.
    destruct (exponential_sym Nf E gesv no_name X1 X2 t pairs (Z.of_nat q) HX W HPm HM HP) as [cnt [idx [M [H1 [H2 [H3 H4]]]]]].
    change (mp t (map fst pairs)) with (maps (map fst pairs)) in *. set (col := by_column t pairs) in *.
    exists cnt, idx, (fun s i j => nth (cell col (cnt s) i j) (M s) rzero), M. split; [exact H1|]. split; [exact H3|]. split.
    { intros c Hc. split; [now apply H2|]. exists col. reflexivity. }
    intros lg V scaled Hall.
    destruct H4 as [r [re [R1 [R2 [R3 [R4 [R5 [R6 R7]]]]]]]].
    { intros c Hc. destruct (Hall c Hc) as [A1 [A0 [A2 [A3 A4]]]]. apply (matrix_len (env_junk E) (cnt (total c)) (M (total c)) col (fun i j => nth (cell col (cnt (total c)) i j) (M (total c)) rzero) (lg (total c)) (V (total c))); auto. }
    exists r. split; [exact R1|]. split; [exact R2|]. split; [exact R3|]. split.
    { assert (Hs : sorted_maps (mp t (t_names r))) by (apply mp_sorted; [exact W|intros x Hx; eapply Permutation_in; [apply Permutation_sym; exact R3|exact Hx]]).
      intro pt. unfold valid_pt. change (c_edges (t_core r)) with (t_edges r). rewrite R5. split; intros [G1 G2]; (split; [|exact G2]).
      - apply prune_range_inv in G1. now rewrite R4 in G1.
      - change (maps (t_names r)) with (mp t (t_names r)) in G1. apply prune_range; [now rewrite R4| |now rewrite R4]. rewrite R6. apply in_range_dims in G1 as [ds [G1 _]]; [|exact Hs].
        apply in_map_iff. exists (map fst pt, prod ds). split; [reflexivity|]. apply in_block_list. split; [|exact G2]. apply dims_of_choice; eauto. }
    intros x y Hx Hy Et s.
    assert (Hc : exists c, In c (tuples (maps (map fst pairs))) /\ total c = s).
    { assert (Hs : sorted_maps (maps (map fst pairs))). { apply mp_sorted; [exact W|]. intros n Hn. eapply Permutation_in; [apply Permutation_sym; exact HPm|apply in_or_app; auto]. }
      pose proof (present_point _ x Hs Hx) as Hp. unfold present in Hp. apply existsb_exists in Hp as [c [C1 C2]]. apply eqb_eq in C2. eauto. }
    destruct Hc as [c [Hc Ec]]. destruct (Hall c Hc) as [A1 [A0 [A2 [A3 A4]]]]. rewrite Ec in *.
    destruct (exponential_cells EF (env_junk E) gesv col (cnt s) q (lg s) (M s) (fun i j => nth (cell col (cnt s) i j) (M s) rzero) (V s)) as [A' [F' [E1 [E2 E3]]]]; auto.
    { rewrite <- Ec. now apply H2. }
    rewrite (R7 x y A' F' Hx Hy Et E1). f_equal. apply E3; [apply H1; exact Hx|]. unfold s. rewrite Et. apply H1. exact Hy.
  Qed.
End Operator.
