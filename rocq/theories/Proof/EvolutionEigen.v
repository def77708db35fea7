(** Eigenfunctions of a term are eigenfunctions of its evolution operator. *)
From Coq Require Import String List Bool Arith ZArith Lia Permutation.
From Verif Require Import Base.Outcome Base.SMap Model.Symmetry Model.Edge Model.Core Model.EdgeOperator Model.Elementwise Model.Exponential Model.SimpleTensor Model.Evolution
  Spec.Blocks Spec.Fuse Spec.Relabel Spec.Plain Spec.ExactOperator Spec.SpinModel Spec.Contract Spec.Matrix Spec.Operator Spec.Evolution
  Proof.SymmetryFacts Proof.CoreFacts Proof.SumFacts Proof.MatrixFacts Proof.ExpOperator Proof.EvolutionFacts.
Import ListNotations.
Open Scope nat_scope.

Section Rows.
  Context {R : Type} {RR : Scalar R}.
  Variable of_int : Z -> R.
  Hypothesis EF : exact_field R of_int.
  Variable n : nat.
  Notation EA := (ef_ea _ _ EF).
  Notation "A == B" := (meq n A B) (at level 70).
  (** all rows of W are multiplied by c *)
  Definition scales (W A : matrix) (c : R) : Prop := mmul n W A == mscale c W.

  Lemma mul_scale_l : forall c (A B : matrix), mmul n (mscale c A) B == mscale c (mmul n A B).
  Proof. intros c A B i j _ _. unfold mmul, mscale. rewrite <- (rsum_map_const_mul EF). apply rsum_ext. intros l _. symmetry. apply (ef_mul_assoc _ _ EF). Qed.
  Lemma mul_scale_r : forall c (A B : matrix), mmul n A (mscale c B) == mscale c (mmul n A B).
  Proof.
    intros c A B i j _ _. unfold mmul, mscale. rewrite <- (rsum_map_const_mul EF). apply rsum_ext. intros l _. rewrite !(ef_mul_assoc _ _ EF). f_equal. apply (ea_mul_comm _ EA).
  Qed.
  Lemma scale_scale : forall c e (A : matrix), mscale c (mscale e A) == mscale (rmul c e) A.
  Proof. intros c e A i j _ _. unfold mscale. apply (ef_mul_assoc _ _ EF). Qed.
  Lemma scale_one : forall A : matrix, mscale rone A == A.
  Proof. intros A i j _ _. unfold mscale. apply (ea_mul_1 _ EA). Qed.
  Lemma scales_product : forall (W A B : matrix) a b, scales W A a -> scales W B b -> scales W (mmul n A B) (rmul a b).
  Proof.
    intros W A B a b HA HB. unfold scales in *. eapply meq_trans; [apply (mmul_assoc EF)|]. eapply meq_trans; [apply mmul_ext; [exact HA|apply meq_refl]|]. eapply meq_trans; [apply mul_scale_l|].
    eapply meq_trans; [apply scale_ext; exact HB|]. apply scale_scale.
  Qed.
  Lemma scales_power : forall (W A : matrix) a k, scales W A a -> scales W (mpow n A k) (rpow a k).
  Proof.
    intros W A a k HA. induction k as [|k IH]; cbn [mpow rpow].
    - unfold scales. eapply meq_trans; [apply (mmul_id_r EF)|apply meq_sym, scale_one].
    - now apply scales_product.
  Qed.
  Lemma scales_scale : forall (W A : matrix) a c, scales W A a -> scales W (mscale c A) (rmul c a).
  Proof. intros W A a c HA. unfold scales. eapply meq_trans; [apply mul_scale_r|]. eapply meq_trans; [apply scale_ext; exact HA|]. apply scale_scale. Qed.
  Lemma scales_opp : forall (W A : matrix) a, scales W A a -> scales W (mopp A) (ropp a).
  Proof.
    intros W A a HA i j Hi Hj. unfold scales, mmul, mopp, mscale in *. transitivity (ropp (rsum (map (fun l => rmul (W i l) (A l j)) (seq 0 n)))).
    - rewrite (rsum_opp EF), map_map. apply rsum_ext. intros l _. apply (opp_mul_r EF).
    - rewrite (HA i j Hi Hj). symmetry. apply (opp_mul_l EF).
  Qed.
  Lemma scales_pade : forall (W A : matrix) a q, scales W A a -> scales W (pade_polynomial n of_int q A) (pade_number of_int q a).
  Proof.
    intros W A a q HA i j Hi Hj. unfold mmul, pade_polynomial, mscale, pade_number.
    transitivity (rsum (map (fun k => rmul (pade_coefficient of_int q k) (mmul n W (mpow n A k) i j)) (seq 0 (q + 1)))).
    - transitivity (rsum (map (fun l => rsum (map (fun k => rmul (pade_coefficient of_int q k) (rmul (W i l) (mpow n A k l j))) (seq 0 (q + 1)))) (seq 0 n))).
      + apply rsum_ext. intros l _. rewrite (rsum_mul_l EF), map_map. apply rsum_ext. intros k _. rewrite !(ef_mul_assoc _ _ EF). f_equal. apply (ea_mul_comm _ EA).
      + rewrite (rsum_swap EF). apply rsum_ext. intros k _. unfold mmul. now rewrite (rsum_map_const_mul EF).
    - rewrite (rsum_mul_r EF), map_map. apply rsum_ext. intros k _. rewrite (scales_power W A a k HA i j Hi Hj). unfold mscale. apply (ef_mul_assoc _ _ EF).
  Qed.
  Lemma scales_inverse : forall (W B V : matrix) b w, scales W B b -> inverse n V B -> rmul b w = rone -> scales W V w.
  Proof.
    intros W B V b w HB [_ HV] Hw. unfold scales. apply meq_trans with (mscale (rmul w b) (mmul n W V)).
    - rewrite (ea_mul_comm _ EA w b), Hw. apply meq_sym, scale_one.
    - eapply meq_trans; [apply meq_sym, scale_scale|]. apply scale_ext. eapply meq_trans; [apply meq_sym, mul_scale_l|].
      eapply meq_trans; [apply mmul_ext; [apply meq_sym; exact HB|apply meq_refl]|]. eapply meq_trans; [apply meq_sym, (mmul_assoc EF)|]. eapply meq_trans; [apply mmul_ext; [apply meq_refl|exact HV]|]. apply (mmul_id_r EF).
  Qed.
  Theorem scales_exponential : forall (W A V : matrix) a c q m w, scales W A a -> inverse n V (pade_polynomial n of_int q (mopp (mscale c A))) -> rmul (pade_number of_int q (ropp (rmul c a))) w = rone ->
    scales W (mpow n (mmul n V (pade_polynomial n of_int q (mscale c A))) m) (rpow (rmul w (pade_number of_int q (rmul c a))) m).
  Proof.
    intros W A V a c q m w HA HV Hw. apply scales_power, scales_product.
    - eapply scales_inverse; [|exact HV|exact Hw]. now apply scales_pade, scales_opp, scales_scale.
    - now apply scales_pade, scales_scale.
  Qed.
End Rows.

(** ** spins of some sites *)
Lemma pair_eqb_spec : forall p q, pair_eqb p q = true <-> p = q.
Proof. intros [a b] [c e]. unfold pair_eqb. cbn [fst snd]. rewrite andb_true_iff, !Nat.eqb_eq. split; [intros [-> ->]; reflexivity|intros H; injection H as -> ->; auto]. Qed.
Lemma find_put : forall (ps : list (nat * nat)) (q : list nat) (p : nat * nat), length q = length ps -> In p ps -> exists pq, find (fun pq => pair_eqb (fst pq) p) (combine ps q) = Some pq.
Proof.
  induction ps as [|p0 ps IH]; intros [|x q] p L H; try discriminate L; [destruct H|]. cbn [combine find fst]. destruct (pair_eqb p0 p) eqn:Q; [eexists; reflexivity|].
  apply IH; [now injection L|]. destruct H as [->|H]; [|exact H]. rewrite (proj2 (pair_eqb_spec p p) eq_refl) in Q. discriminate.
Qed.
Lemma find_not : forall (ps : list (nat * nat)) (q : list nat) (p : nat * nat), ~ In p ps -> find (fun pq => pair_eqb (fst pq) p) (combine ps q) = None.
Proof.
  induction ps as [|p0 ps IH]; intros [|x q] p H; try reflexivity. cbn [combine find fst]. destruct (pair_eqb p0 p) eqn:Q; [apply pair_eqb_spec in Q; exfalso; apply H; now left|]. apply IH. intro X. apply H. now right.
Qed.
Lemma put_put_many : forall s ps q q' i j, length q = length ps -> length q' = length ps -> spins_put (spins_put s ps q) ps q' i j = spins_put s ps q' i j.
Proof.
  intros s ps q q' i j L L'. unfold spins_put. assert (D : {In (i, j) ps} + {~ In (i, j) ps}) by (apply in_dec; intros [a b] [c e]; destruct (Nat.eq_dec a c), (Nat.eq_dec b e); [left|right|right|right]; congruence). destruct D as [H|H].
  - destruct (find_put ps q' (i, j) L' H) as [pq ->]. reflexivity.
  - rewrite !(find_not ps _ _ H). reflexivity.
Qed.
Lemma put_read_many : forall s ps q, NoDup ps -> length q = length ps -> map (fun p => spins_put s ps q (fst p) (snd p)) ps = q.
Proof.
  intros s ps q ND L. unfold spins_put. revert q L. induction ps as [|p0 ps IH]; intros [|x q] L; try discriminate L; [reflexivity|]. inversion ND as [|? ? H0 ND']; subst.
  cbn [combine map find fst snd]. rewrite <- surjective_pairing, (proj2 (pair_eqb_spec p0 p0) eq_refl). f_equal. etransitivity; [|apply (IH ND' q); now injection L]. apply map_ext_in. intros p Hp.
  rewrite <- surjective_pairing. destruct (pair_eqb p0 p) eqn:Q; [|reflexivity]. apply pair_eqb_spec in Q. subst. contradiction.
Qed.
Lemma put_own : forall s ps i j, spins_put s ps (map (fun p => s (fst p) (snd p)) ps) i j = s i j.
Proof.
  intros s ps i j. unfold spins_put. induction ps as [|p0 ps IH]; [reflexivity|]. cbn [map combine find fst]. destruct (pair_eqb p0 (i, j)) eqn:Q; [|exact IH]. apply pair_eqb_spec in Q. now subst.
Qed.

Section Numbers.
  Context {R : Type} {RR : Scalar R}.
  Hypothesis EA : exact_arithmetic R.
  Lemma Sums_tuples : forall d k (g : list nat -> R), Sums (repeat d k) g = rsum (map g (spin_tuples d k)).
  Proof.
    intros d k. induction k as [|k IH]; intros g; cbn [repeat Sums spin_tuples]; [unfold rsum; cbn; now rewrite ?(ea_add_comm _ EA (g [])), ?(ea_add_0 _ EA)|].
    unfold Sum. rewrite (map_ext _ (fun i => rsum (map (fun l => g (i :: l)) (spin_tuples d k)))) by (intros i; apply IH). generalize (seq 0 d). induction l as [|x l IHl]; [reflexivity|].
    cbn [map flat_map]. rewrite map_app, map_map, (rsum_app EA), rsum_cons, IHl. reflexivity.
  Qed.
  Variables (k d : nat) (pos : list nat -> nat).
  Hypothesis NS : numbers_spins k d pos.
  Definition back (i : nat) : list nat := match find (fun l => Nat.eqb (pos l) i) (spin_tuples d k) with Some l => l | None => [] end.
  Lemma back_spins : forall i, i < d ^ k -> site_spins k d (back i) /\ pos (back i) = i.
  Proof.
    intros i Hi. unfold back. destruct (find (fun l => Nat.eqb (pos l) i) (spin_tuples d k)) as [l|] eqn:F.
    - apply find_some in F as [H Q]. apply Nat.eqb_eq in Q. split; [now apply spin_tuples_in|exact Q].
    - exfalso. destruct (proj2 (proj2 NS) i Hi) as [l [Hl Q]]. apply spin_tuples_in in Hl. pose proof (find_none _ _ F l Hl) as X. apply Nat.eqb_neq in X. contradiction.
  Qed.
  Lemma back_pos : forall l, site_spins k d l -> back (pos l) = l.
  Proof. intros l Hl. destruct (back_spins (pos l) (proj1 NS l Hl)) as [H Q]. now apply (proj1 (proj2 NS)). Qed.
  Lemma sum_numbers : forall g : list nat -> R, rsum (map g (spin_tuples d k)) = rsum (map (fun i => g (back i)) (seq 0 (d ^ k))).
  Proof.
    intros g. rewrite (map_ext_in g (fun l => (fun i => g (back i)) (pos l))).
    2: { intros l Hl. apply spin_tuples_in in Hl. cbn. now rewrite back_pos. }
    rewrite <- (map_map pos (fun i => g (back i))). apply (rsum_perm EA), Permutation_map, NoDup_Permutation; [|apply seq_NoDup|].
    - assert (ND := spin_tuples_nodup d k). assert (B : forall l, In l (spin_tuples d k) -> site_spins k d l) by (intros l Hl; now apply spin_tuples_in). revert ND B. generalize (spin_tuples d k). induction l as [|a l IH]; intros ND B; [constructor|]. inversion ND as [|? ? Ha ND']; subst.
      cbn [map]. constructor; [|apply IH; [exact ND'|intros x Hx; apply B; now right]]. intros Hp. apply in_map_iff in Hp as [b [Q Hb]]. apply Ha. rewrite <- (proj1 (proj2 NS) b a); [exact Hb| | |exact Q]; apply B; [now right|now left].
    - intros i. rewrite in_seq, in_map_iff. split.
      + intros [l [<- Hl]]. apply spin_tuples_in in Hl. pose proof (proj1 NS l Hl). lia.
      + intros [_ Hi]. destruct (proj2 (proj2 NS) i Hi) as [l [Hl Q]]. exists l. split; [exact Q|now apply spin_tuples_in].
  Qed.
End Numbers.

Section Eigen.
  Context {R : Type} {RR : Scalar R} {ER : ExpScalar R}.
  Hypothesis EF : exact_field R of_int.
  Notation EA := (ef_ea _ _ EF).
  Variables (k d : nat) (pos : list nat -> nat).
  Hypothesis NS : numbers_spins k d pos.
  Variables (ps : list (nat * nat)) (f : (nat -> nat -> nat) -> R).
  Hypotheses (Hk : length ps = k) (ND : NoDup ps) (Ef : extensional f).
  (** the values of f for the spins of the sites, around s *)
  Definition values_around (s : nat -> nat -> nat) : matrix := fun _ j => f (spins_put s ps (back k d pos j)).
  Lemma applied_row : forall (A : tensor unit R) (M : matrix) s outs, site_spins k d outs ->
    (forall ins, site_spins k d ins -> M (pos ins) (pos outs) = operator_element k A ins outs) ->
    Sums (repeat d k) (fun q => rmul (f (spins_put s ps q)) (operator_element k A q outs)) = mmul (d ^ k) (values_around s) M 0 (pos outs).
  Proof.
    intros A M s outs Ho HM. rewrite (Sums_tuples EA), (sum_numbers EA k d pos NS). unfold mmul. apply rsum_ext. intros i Hi. apply in_seq in Hi. destruct (back_spins k d pos NS i ltac:(lia)) as [B1 B2].
    unfold values_around. f_equal. rewrite <- (HM _ B1), B2. reflexivity.
  Qed.
  Lemma applied_put : forall (A : tensor unit R) s outs, site_spins k d outs ->
    applied d ps A f (spins_put s ps outs) = Sums (repeat d k) (fun q => rmul (f (spins_put s ps q)) (operator_element k A q outs)).
  Proof.
    intros A s outs [L B]. unfold applied. rewrite Hk, put_read_many by (try assumption; congruence). rewrite !(Sums_tuples EA). apply rsum_ext. intros q Hq. apply spin_tuples_in in Hq as [Lq _]. f_equal. apply Ef. intros i j. apply put_put_many; congruence.
  Qed.
  Lemma eigen_scales : forall (A : tensor unit R) (H : matrix) s c lambda,
    (forall ins outs, site_spins k d ins -> site_spins k d outs -> H (pos ins) (pos outs) = rmul c (operator_element k A ins outs)) ->
    eigenfunction d ps A f lambda -> scales (d ^ k) (values_around s) H (rmul c lambda).
  Proof.
    intros A H s c lambda HH HE i j Hi Hj. destruct (back_spins k d pos NS j Hj) as [B1 B2]. unfold mscale.
    assert (Q := applied_put A s _ B1). rewrite HE in Q.
    2: { intros p Hp. destruct B1 as [L B]. apply B. rewrite <- (put_read_many s ps (back k d pos j) ND) at 2 by congruence. exact (in_map (fun p => spins_put s ps (back k d pos j) (fst p) (snd p)) ps p Hp). }
    rewrite (applied_row A (fun i j => operator_element k A (back k d pos i) (back k d pos j)) s _ B1) in Q.
    2: { intros ins Hins. now rewrite !(back_pos k d pos NS). }
    rewrite <- (ef_mul_assoc _ _ EF). change (values_around s i j) with (f (spins_put s ps (back k d pos j))). rewrite Q. unfold mmul. rewrite <- (rsum_map_const_mul EF). apply rsum_ext. intros l Hl. apply in_seq in Hl.
    destruct (back_spins k d pos NS l ltac:(lia)) as [C1 C2]. replace (H l j) with (H (pos (back k d pos l)) (pos (back k d pos j))) by congruence. rewrite HH by assumption. rewrite B2.
    change (values_around s i l) with (values_around s 0 l). rewrite !(ef_mul_assoc _ _ EF). f_equal. apply (ea_mul_comm _ EA).
  Qed.
  Lemma scales_eigen : forall (U : tensor unit R) (M : matrix) r,
    (forall ins outs, site_spins k d ins -> site_spins k d outs -> operator_element k U ins outs = M (pos ins) (pos outs)) ->
    (forall s, scales (d ^ k) (values_around s) M r) -> eigenfunction d ps U f r.
  Proof.
    intros U M r HM HS s Hs. set (outs := map (fun p => s (fst p) (snd p)) ps).
    assert (Ho : site_spins k d outs) by (split; [unfold outs; now rewrite map_length|intros x Hx; apply in_map_iff in Hx as [p [<- Hp]]; now apply Hs]).
    unfold applied. rewrite Hk. fold outs. rewrite (applied_row U M s outs Ho) by (intros ins Hi; symmetry; now apply HM).
    assert (P := proj1 NS outs Ho). rewrite (HS s 0 (pos outs)); [|lia|exact P]. unfold mscale, values_around. f_equal. rewrite (back_pos k d pos NS outs Ho). apply Ef. intros i j. apply put_own.
  Qed.
End Eigen.

Section Evolve.
  Context {R : Type} {RR : Scalar R} {ER : ExpScalar R}.
  Hypothesis EF : exact_field R of_int.
  Variables (E : @env R) (gesv : gesv_routine R) (no_name X1 X2 : name).
  Hypothesis HX : X1 <> X2.
  Theorem evolution_eigen : forall k d delta_t t, fits_operator k d t -> 0 < d ->
    exists (pos : list nat -> nat) (H : matrix), numbers_spins k d pos /\
      (forall ins outs, site_spins k d ins -> site_spins k d outs -> H (pos ins) (pos outs) = rmul (ropp delta_t) (operator_element k t ins outs)) /\
      forall (lg : Z) (V : matrix), let c := rdiv rone (of_int (2 ^ Z.of_nat (Z.to_nat (1 + lg)))) in
      solves gesv (d ^ k) -> (forall l, lists (d ^ k) l H -> trunc_log2 (Spec.Matrix.largest real_lt real_zero (map rabs l)) = Some lg) -> (- 2 ^ 31 <= lg < 30)%Z ->
      inverse (d ^ k) V (pade_polynomial (d ^ k) of_int 8 (mopp (mscale c H))) ->
      exists U, evolution E gesv no_name X1 X2 k delta_t t = Ok U /\
        forall ps f lambda w, length ps = k -> NoDup ps -> extensional f -> eigenfunction d ps t f lambda ->
          let x := rmul c (rmul (ropp delta_t) lambda) in rmul (pade_number of_int 8 (ropp x)) w = rone ->
          eigenfunction d ps U f (rpow (rmul w (pade_number of_int 8 x)) (2 ^ Z.to_nat (1 + lg))).
  Proof.
    intros k d delta_t t F Hd. destruct (evolution_fits EF E gesv no_name X1 X2 HX k d delta_t t F Hd) as [pos [H [NS [HH Main]]]]. exists pos, H. split; [exact NS|]. split; [exact HH|].
    intros lg V c Sol Lg Rg Inv. destruct (Main lg V Sol Lg Rg Inv) as [U [EU [FU VU]]]. exists U. split; [exact EU|]. intros ps f lambda w Hk ND Ef HE x Hw.
    apply (scales_eigen EF k d pos NS ps f Hk Ef U (mpow (d ^ k) (mmul (d ^ k) V (pade_polynomial (d ^ k) of_int 8 (mscale c H))) (2 ^ Z.to_nat (1 + lg)))); [exact VU|].
    intros s. apply (scales_exponential of_int EF); [|exact Inv|exact Hw]. exact (eigen_scales EF k d pos NS ps f Hk ND Ef t H s (ropp delta_t) lambda HH HE).
  Qed.
End Evolve.
