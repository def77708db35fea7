(** The exponential of a matrix. *)
From Coq Require Import String List Bool Arith ZArith Lia Factorial.
From Verif Require Import Base.Outcome Base.SMap Model.Symmetry Model.Edge Model.Core Model.Transpose Model.EdgeOperator Model.Contract Model.Exponential
  Spec.Contract Spec.Matrix Proof.ElemFacts Proof.SumFacts Proof.TransposeFacts Proof.GemmFacts Proof.MatrixFacts.
Import ListNotations.

Section Facts.
  Context {R : Type} {RR : Scalar R} {ER : ExpScalar R}.
  Local Notation matrix := (@matrix R).
  Variable junk : R.
  Variable gesv : gesv_routine R.
  Hypothesis EF : exact_field R of_int.
  Let EA : exact_arithmetic R := ef_ea _ _ EF.

  Lemma cell_lt : forall n i j, i < n -> j < n -> i * n + j < n * n.
  Proof. intros. nia. Qed.
  Lemma holds_nth : forall n l M i j, holds n l M -> i < n -> j < n -> nth_error l (i * n + j) = Some (M i j).
  Proof.
    intros n l M i j [HL HM] Hi Hj. rewrite (nth_error_nth' l rzero) by (rewrite HL; now apply cell_lt). f_equal. exact (HM i j Hi Hj).
  Qed.
  Lemma holds_intro : forall n l M, length l = n * n -> (forall i j, i < n -> j < n -> nth_error l (i * n + j) = Some (M i j)) -> holds n l M.
  Proof. intros n l M HL H. split; [exact HL|]. intros i j Hi Hj. unfold by_rows. apply nth_error_nth. now apply H. Qed.
  Lemma holds_ext : forall n l M M', holds n l M -> meq n M M' -> holds n l M'.
  Proof. intros n l M M' [HL HM] H. split; [exact HL|]. exact (meq_trans n _ _ _ HM H). Qed.
  Lemma holds_length : forall n l M, holds n l M -> length l = n * n.
  Proof. intros n l M [H _]. exact H. Qed.
  Lemma cell_split : forall n x, x < n * n -> exists i j, i < n /\ j < n /\ x = i * n + j.
  Proof.
    intros n x H. assert (n <> 0) by lia. exists (x / n), (x mod n). pose proof (Nat.div_mod x n ltac:(lia)). pose proof (Nat.mod_upper_bound x n ltac:(lia)).
    assert (x / n < n) by (apply Nat.div_lt_upper_bound; lia). repeat split; auto; lia.
  Qed.

  (** ** pointwise loops *)
  Lemma foldM_seq : forall B (f : B -> nat -> res B) (P : nat -> B -> Prop) m a b, P a b ->
    (forall i b, a <= i < a + m -> P i b -> exists b', f b i = Ok b' /\ P (Datatypes.S i) b') ->
    exists b', foldM f (seq a m) b = Ok b' /\ P (a + m) b'.
  Proof.
    intros B f P m. induction m as [|m IH]; intros a b H0 H; cbn [seq foldM].
    - exists b. rewrite Nat.add_0_r. auto.
    - destruct (H a b) as [b1 [E1 H1]]; [lia|exact H0|]. rewrite E1. cbn [bind]. destruct (IH (Datatypes.S a) b1 H1) as [b' [E H2]].
      + intros i b2 Hi. apply H. lia.
      + exists b'. split; [exact E|]. now replace (a + Datatypes.S m) with (Datatypes.S a + m) by lia.
  Qed.
  (** the first k cells of A replaced *)
  Definition replaced (f : nat -> R -> R) (A : list R) (k : nat) (l : list R) : Prop :=
    length l = length A /\ forall x, nth_error l x = if x <? k then option_map (f x) (nth_error A x) else nth_error A x.
  Lemma replaced_step : forall f A k l, replaced f A k l -> k < length A ->
    exists v l', nth_error A k = Some v /\ nth_error l k = Some v /\ update l k (f k v) = Some l' /\ replaced f A (Datatypes.S k) l'.
  Proof.
    intros f A k l [HL H] Hk. destruct (nth_error A k) as [v|] eqn:Ev; [|apply nth_error_None in Ev; lia].
    destruct (update_some l k (f k v)) as [l' Eb]; [lia|]. exists v, l'. split; [reflexivity|]. split; [rewrite H, Nat.ltb_irrefl; exact Ev|].
    split; [exact Eb|]. split; [rewrite (update_length _ _ _ _ Eb); exact HL|]. intro x. destruct (Nat.eq_dec x k) as [->|Hx].
    + rewrite (update_same _ _ _ _ Eb), Ev. destruct (Nat.ltb_spec k (Datatypes.S k)); [reflexivity|lia].
    + rewrite (update_other _ _ _ _ _ Eb Hx), H. destruct (Nat.ltb_spec x k), (Nat.ltb_spec x (Datatypes.S k)); try reflexivity; lia.
  Qed.
  Lemma replaced_0 : forall f A, replaced f A 0 A.
  Proof. intros f A. split; reflexivity. Qed.
  Lemma replaced_all : forall f n A l M M', holds n A M -> replaced f A (n * n) l ->
    (forall i j, i < n -> j < n -> f (i * n + j) (M i j) = M' i j) -> holds n l M'.
  Proof.
    intros f n A l M M' HA [HL H] Hf. apply holds_intro; [rewrite HL; apply (holds_length _ _ _ HA)|]. intros i j Hi Hj.
    pose proof (cell_lt n i j Hi Hj). rewrite H. destruct (Nat.ltb_spec (i * n + j) (n * n)); [|lia]. rewrite (holds_nth _ _ _ _ _ HA Hi Hj). cbn. now rewrite Hf.
  Qed.
  Lemma scale_ok : forall n p A M, holds n A M -> exists A', scale n p A = Ok A' /\ holds n A' (mscale p M).
  Proof.
    intros n p A M HA. pose proof (holds_length _ _ _ HA) as LA. unfold scale.
    destruct (foldM_seq _ (fun A i => bind (read A i) (fun v => write A i (rmul v p))) (replaced (fun _ v => rmul v p) A) (n * n) 0 A) as [A' [E H]].
    - apply replaced_0.
    - intros i b Hi H. destruct (replaced_step _ _ _ _ H) as [v [b' [_ [Ev [Eb H']]]]]; [lia|]. exists b'. unfold read, write. rewrite Ev. cbn [get_or_ub bind].
      rewrite Eb. split; [reflexivity|exact H'].
    - exists A'. split; [exact E|]. apply (replaced_all _ _ _ _ _ _ HA H). intros i j _ _. apply (ea_mul_comm _ EA).
  Qed.
  Lemma add_term_ok : forall n c d x N D X MN MD, holds n x X -> holds n N MN -> holds n D MD ->
    exists N' D', add_term n c d x N D = Ok (N', D') /\ holds n N' (fun i j => radd (MN i j) (rmul c (X i j))) /\
      holds n D' (fun i j => radd (MD i j) (rmul d (X i j))).
  Proof.
    intros n c d x N D X MN MD HX HN HD. pose proof (holds_length _ _ _ HX) as LX. pose proof (holds_length _ _ _ HN) as LN. pose proof (holds_length _ _ _ HD) as LD.
    set (g := fun e i v => radd v (rmul e (nth i x rzero))). unfold add_term.
    destruct (foldM_seq _ (fun nd i =>
      bind (read x i) (fun xi =>
      bind (read (fst nd) i) (fun ni => bind (write (fst nd) i (radd ni (rmul c xi))) (fun N =>
      bind (read (snd nd) i) (fun di => bind (write (snd nd) i (radd di (rmul d xi))) (fun D =>
      Ok (N, D))))))) (fun k nd => replaced (g c) N k (fst nd) /\ replaced (g d) D k (snd nd)) (n * n) 0 (N, D)) as [[N' D'] [E [H1 H2]]].
    - split; apply replaced_0.
    - intros i [N0 D0] Hi [H1 H2]. cbn [fst snd] in *.
      destruct (replaced_step _ _ _ _ H1) as [v [N1 [_ [Ev [En H1']]]]]; [lia|].
      destruct (replaced_step _ _ _ _ H2) as [w [D1 [_ [Ew [Ed H2']]]]]; [lia|].
      exists (N1, D1). unfold read, write. rewrite (nth_error_nth' x rzero) by lia. cbn [get_or_ub bind]. rewrite Ev. cbn [get_or_ub bind].
      unfold g in En, Ed. rewrite En. cbn [get_or_ub bind]. rewrite Ew. cbn [get_or_ub bind]. rewrite Ed. cbn [get_or_ub bind]. auto.
    - exists N', D'. split; [exact E|]. split; [apply (replaced_all _ _ _ _ _ _ HN H1)|apply (replaced_all _ _ _ _ _ _ HD H2)];
        intros i j Hi Hj; unfold g; destruct HX as [_ HX]; rewrite <- (HX i j Hi Hj); reflexivity.
  Qed.

  (** ** the identity *)
  Lemma identity_ok : forall n l, 0 < n -> length l = n * n ->
    exists l', initialize_identity_matrix l n = Ok l' /\ holds n l' ident.
  Proof.
    intros n l Hn HL. unfold initialize_identity_matrix. destruct (Nat.eqb_spec n 0); [lia|].
    destruct (foldM_seq _ (fun st (_ : nat) => identity_row n st)
      (fun i st => snd st = i * (n + 1) /\ length (fst st) = n * n /\
        forall r x, r < i -> x <= n -> nth_error (fst st) (r * (n + 1) + x) = Some (if x =? 0 then rone else rzero)) (n - 1) 0 (l, 0)) as [[l1 p] [E [H1 [H2 H3]]]].
    - split; [reflexivity|]. split; [exact HL|]. intros r x Hr. lia.
    - intros i [l0 p0] Hi [H1 [H2 H3]]. cbn [fst snd] in *. unfold identity_row. cbn [fst snd].
      assert (Hp : p0 + n < n * n) by nia.
      destruct (update_some l0 p0 rone) as [l2 E2]; [lia|]. unfold write at 1. rewrite E2. cbn [get_or_ub bind].
      pose proof (update_length _ _ _ _ E2) as L2.
      assert (Ef : foldM (fun data j => write data (p0 + 1 + j) rzero) (seq 0 n) l2 = write_all (map (fun j => (p0 + 1 + j, rzero)) (seq 0 n)) l2).
      { unfold write_all. rewrite foldM_map. reflexivity. }
      rewrite Ef. destruct (write_all_ok (map (fun j => (p0 + 1 + j, @rzero R RR)) (seq 0 n)) l2) as [l3 [E3 [L3 [P1 P2]]]].
      { intros w Hw. apply in_map_iff in Hw. destruct Hw as [j [<- Hj]]. apply in_seq in Hj. cbn. lia. }
      { rewrite map_map. cbn [fst]. apply NoDup_map_inj; [apply seq_NoDup|]. intros; lia. }
      rewrite E3. cbn [bind]. exists (l3, p0 + 1 + n). split; [reflexivity|]. cbn [fst snd]. split; [nia|]. split; [congruence|].
      rewrite map_map in P2. cbn [fst] in P2.
      assert (Hout : forall y, y <= p0 -> nth_error l3 y = nth_error l2 y).
      { intros y Hy. apply P2. intro Hin. apply in_map_iff in Hin. destruct Hin as [j [Hj _]]. lia. }
      intros r x Hr Hx. destruct (Nat.eq_dec r i) as [->|Hri].
      + destruct (Nat.eqb_spec x 0) as [->|Hx0].
        * rewrite Nat.add_0_r, <- H1, Hout by lia. exact (update_same _ _ _ _ E2).
        * apply P1. apply in_map_iff. exists (x - 1). split; [f_equal; lia|]. apply in_seq. lia.
      + assert (r * (n + 1) + x < p0) by nia. rewrite Hout by lia. rewrite (update_other _ _ _ _ _ E2) by lia. apply H3; lia.
    - rewrite E. cbn [bind fst snd]. cbn [fst snd] in *. rewrite Nat.add_0_l in *.
      assert (Hp : p = n * n - 1) by nia. destruct (update_some l1 p rone) as [l2 E2]; [nia|]. unfold write. rewrite E2. exists l2. split; [reflexivity|].
      apply holds_intro; [rewrite (update_length _ _ _ _ E2); exact H2|]. intros i j Hi Hj. unfold ident.
      destruct (Nat.eq_dec (i * n + j) p) as [Ep|Ep].
      + rewrite Ep, (update_same _ _ _ _ E2). destruct (Nat.eqb_spec i j); [reflexivity|]. exfalso. nia.
      + rewrite (update_other _ _ _ _ _ E2 Ep). destruct (le_lt_dec i j) as [Hij|Hij].
        * replace (i * n + j) with (i * (n + 1) + (j - i)) by nia. rewrite H3.
          -- destruct (Nat.eqb_spec i j), (Nat.eqb_spec (j - i) 0); try reflexivity; lia.
          -- destruct (Nat.eq_dec i (n - 1)); [|lia]. exfalso. assert (j = n - 1) by lia. subst. nia.
          -- lia.
        * replace (i * n + j) with ((i - 1) * (n + 1) + (n + 1 + j - i)) by nia. rewrite H3 by lia.
          destruct (Nat.eqb_spec i j), (Nat.eqb_spec (n + 1 + j - i) 0); try reflexivity; lia.
  Qed.

  (** ** the products *)
  Lemma product_ok : forall n a b c A B, holds n a A -> holds n b B -> length c = n * n ->
    exists c', product n a b c = Ok c' /\ holds n c' (mmul n B A).
  Proof.
    intros n a b c A B HA HB HL. unfold product.
    destruct (gemm_ok false false n n n rone a 0 n b 0 n c 0 (fun i j => rsum (map (fun l => rmul (A l i) (B j l)) (seq 0 n)))) as [c' [E [L [H _]]]].
    - intros i j Hi Hj. apply (gemm_entry_ok EA); intros l Hl; cbn [plus].
      + replace (i + l * n) with (l * n + i) by lia. now apply holds_nth.
      + replace (l + j * n) with (j * n + l) by lia. now apply holds_nth.
    - lia.
    - exists c'. split; [exact E|]. apply holds_intro; [congruence|]. intros i j Hi Hj. specialize (H j i Hj Hi). cbn [plus] in H.
      replace (i * n + j) with (j + i * n) by lia. rewrite H. f_equal. rewrite (ea_mul_1 _ EA). unfold mmul. apply rsum_ext. intros l _. apply (ea_mul_comm _ EA).
  Qed.

  (** ** the numerator and the denominator *)
  Lemma int_ok : forall z, (- 2 ^ 31 <= z < 2 ^ 31)%Z -> int z = Ok z.
  Proof. intros z H. unfold int. rewrite (proj2 (andb_true_iff _ _)); [reflexivity|]. split; [apply Z.leb_le|apply Z.ltb_lt]; lia. Qed.
  Definition partial_polynomial (n q k : nat) (A : matrix) : matrix := fun i j =>
    rsum (map (fun l => rmul (pade_coefficient of_int q l) (mpow n A l i j)) (seq 0 (k + 1))).
  Lemma partial_step : forall n q k A i j, partial_polynomial n q (k + 1) A i j =
    radd (partial_polynomial n q k A i j) (rmul (pade_coefficient of_int q (k + 1)) (mpow n A (k + 1) i j)).
  Proof.
    intros n q k A i j. unfold partial_polynomial. rewrite (seq_app (k + 1) 1), map_app, (rsum_app EA). cbn [plus seq map]. f_equal. unfold rsum. cbn. apply (add_0_r EF).
  Qed.
  Lemma partial_0 : forall n q A, meq n ident (partial_polynomial n q 0 A).
  Proof.
    intros n q A i j _ _. unfold partial_polynomial. cbn [plus seq map]. unfold rsum. cbn [fold_right mpow]. rewrite (add_0_r EF), (coefficient_0 EF). symmetry. apply (ea_mul_1 _ EA).
  Qed.
  Definition pade_state (n q k : nat) (B : matrix) (s : @pade R) : Prop :=
    p_c s = pade_coefficient of_int q k /\
    holds n (if Nat.odd k then p_x2 s else p_x1 s) (mpow n B k) /\ length (if Nat.odd k then p_x1 s else p_x2 s) = n * n /\
    holds n (p_n s) (partial_polynomial n q k B) /\ holds n (p_d s) (partial_polynomial n q k (mopp B)).
  Lemma pade_step_ok : forall n q k A B s, (Z.of_nat q * (Z.of_nat q + 1) < 2 ^ 31)%Z -> holds n A B -> k < q -> pade_state n q k B s ->
    exists s', pade_step n A (Z.of_nat q) s (Datatypes.S k) = Ok s' /\ pade_state n q (Datatypes.S k) B s'.
  Proof.
    intros n q k A B s Hq HA Hk [Hc [HX [HL [HN HD]]]]. unfold pade_step. cbv zeta.
    rewrite int_ok by nia. cbn [bind]. rewrite int_ok by nia. cbn [bind].
    replace (rdiv (rmul (p_c s) (of_int (Z.of_nat q - Z.of_nat (Datatypes.S k) + 1))) (of_int ((2 * Z.of_nat q - Z.of_nat (Datatypes.S k) + 1) * Z.of_nat (Datatypes.S k))))
      with (pade_coefficient of_int q (k + 1)).
    2:{ rewrite Hc, <- (coefficient_step EF) by exact Hk. f_equal; [f_equal|]; f_equal; lia. }
    rewrite Nat.odd_succ, <- Nat.negb_odd.
    destruct (product_ok n (if negb (Nat.odd k) then p_x1 s else p_x2 s) A (if negb (Nat.odd k) then p_x2 s else p_x1 s) (mpow n B k) B) as [x [Ex HX']]; auto.
    { destruct (Nat.odd k); exact HX. } { destruct (Nat.odd k); exact HL. }
    rewrite Ex. cbn [bind].
    destruct (add_term_ok n (pade_coefficient of_int q (k + 1)) (if negb (Nat.odd k) then ropp (pade_coefficient of_int q (k + 1)) else pade_coefficient of_int q (k + 1)) x (p_n s) (p_d s)
      (mmul n B (mpow n B k)) (partial_polynomial n q k B) (partial_polynomial n q k (mopp B))) as [N' [D' [E [HN' HD']]]]; auto.
    rewrite E. cbn [bind fst snd]. eexists. split; [reflexivity|]. unfold pade_state. cbn [p_c p_x1 p_x2 p_n p_d].
    rewrite Nat.odd_succ, <- Nat.negb_odd. replace (Datatypes.S k) with (k + 1) by lia.
    split; [reflexivity|]. split; [|split; [|split]].
    - replace (k + 1) with (Datatypes.S k) by lia. cbn [mpow]. destruct (Nat.odd k); exact HX'.
    - destruct (Nat.odd k); cbn [negb] in *; [apply (holds_length _ _ _ HX)|apply (holds_length _ _ _ HX)].
    - apply (holds_ext _ _ _ _ HN'). intros i j _ _. rewrite partial_step. replace (k + 1) with (Datatypes.S k) by lia. reflexivity.
    - apply (holds_ext _ _ _ _ HD'). intros i j Hi Hj. rewrite partial_step. f_equal. rewrite (mpow_opp EF n B (k + 1) i j Hi Hj). replace (k + 1) with (Datatypes.S k) by lia.
      rewrite Nat.odd_succ, <- Nat.negb_odd. cbn [mpow]. destruct (Nat.odd k); cbn [negb]; [reflexivity|]. rewrite (opp_mul_l EF), (opp_mul_r EF). reflexivity.
  Qed.
  Lemma pade_loop_ok : forall n q A B X1 X2 N D, (Z.of_nat q * (Z.of_nat q + 1) < 2 ^ 31)%Z -> holds n A B ->
    holds n X1 ident -> length X2 = n * n -> holds n N ident -> holds n D ident ->
    exists s, pade_loop n A (Z.of_nat q) (mkPade (of_int 1) X1 X2 N D) = Ok s /\
      holds n (p_n s) (pade_polynomial n of_int q B) /\ holds n (p_d s) (pade_polynomial n of_int q (mopp B)).
  Proof.
    intros n q A B X1 X2 N D Hq HA H1 L2 HN HD. unfold pade_loop. rewrite Nat2Z.id.
    destruct (foldM_seq _ (pade_step n A (Z.of_nat q)) (fun i s => pade_state n q (i - 1) B s) q 1 (mkPade (of_int 1) X1 X2 N D)) as [s [E [_ [_ [_ [P1 P2]]]]]].
    - unfold pade_state. cbn. rewrite (coefficient_0 EF), (ef_one _ _ EF). repeat split; auto; try apply H1; try (apply (holds_length _ _ _ HN) || apply (holds_length _ _ _ HD)).
      + apply (holds_ext _ _ _ _ HN (partial_0 _ _ _)).
      + apply (holds_ext _ _ _ _ HD (partial_0 _ _ _)).
    - intros i s Hi Hs. destruct (pade_step_ok n q (i - 1) A B s Hq HA) as [s' [E' Hs']]; [lia|exact Hs|]. exists s'.
      replace (Datatypes.S (i - 1)) with i in * by lia. replace (Datatypes.S i - 1) with i by lia. auto.
    - exists s. split; [exact E|]. replace (1 + q - 1) with q in * by lia. split; [exact P1|exact P2].
  Qed.

  (** ** the linear system *)
  Lemma transpose_holds : forall n l dst M, 0 < n -> holds n l M -> length dst = n * n ->
    exists l', matrix_transpose n n l dst = Ok l' /\ length l' = n * n /\ meq n (by_columns n l') M.
  Proof.
    intros n l dst M Hn HM HL. destruct (matrix_transpose_ok R RR n n l dst Hn Hn (holds_length _ _ _ HM) HL) as [l' [E [L H]]].
    exists l'. split; [exact E|]. split; [exact L|]. intros i j Hi Hj. destruct (H i j Hi Hj) as [v [H1 H2]]. rewrite (holds_nth _ _ _ _ _ HM Hi Hj) in H1. injection H1 as <-.
    unfold by_columns. apply nth_error_nth. rewrite Nat.add_comm. exact H2.
  Qed.
  Lemma inverse_ext : forall n (V A A' : matrix), meq n A A' -> inverse n V A -> inverse n V A'.
  Proof.
    intros n V A A' H [H1 H2]. split.
    - apply (meq_trans n _ _ _ (mmul_ext n _ _ _ _ (meq_refl n V) (meq_sym n _ _ H)) H1).
    - apply (meq_trans n _ _ _ (mmul_ext n _ _ _ _ (meq_sym n _ _ H) (meq_refl n V)) H2).
  Qed.
  Lemma linear_solve_ok : forall n D N X MD MN V, solves gesv n -> 0 < n -> holds n D MD -> holds n N MN -> length X = n * n -> inverse n V MD ->
    exists r, linear_solve junk gesv n D n N X = Ok r /\ holds n r (mmul n V MN).
  Proof.
    intros n D N X MD MN V HG Hn HD HN HX HV. unfold linear_solve.
    destruct (transpose_holds n D (repeat junk (n * n)) MD Hn HD (repeat_length _ _)) as [AT [EA' [LA HA]]]. rewrite EA'. cbn [bind].
    destruct (transpose_holds n N (repeat junk (n * n)) MN Hn HN (repeat_length _ _)) as [BT [EB [LB HB]]]. rewrite EB. cbn [bind].
    destruct (HG n AT BT LA LB) as [LX HS].
    { exists V. apply (inverse_ext n V MD); [apply meq_sym; exact HA|exact HV]. }
    set (Y := snd (gesv n n AT BT)) in *.
    destruct (matrix_transpose_ok R RR n n Y X Hn Hn LX HX) as [r [Er [Lr Hr]]]. exists r. split; [exact Er|].
    assert (HY : holds n r (by_columns n Y)).
    { apply holds_intro; [exact Lr|]. intros i j Hi Hj. destruct (Hr j i Hj Hi) as [v [H1 H2]]. rewrite H2. f_equal. unfold by_columns. symmetry. apply nth_error_nth.
      rewrite Nat.add_comm. exact H1. }
    apply (holds_ext _ _ _ _ HY).
    assert (HP : meq n (mmul n MD (by_columns n Y)) MN).
    { intros i j Hi Hj. rewrite <- (HB i j Hi Hj), <- (HS i j Hi Hj). unfold mmul. apply rsum_ext. intros l Hl. apply in_seq in Hl. rewrite HA by lia. reflexivity. }
    eapply meq_trans; [apply meq_sym, (mmul_id_l EF)|].
    eapply meq_trans; [apply mmul_ext; [apply meq_sym, (proj1 HV)|apply meq_refl]|].
    eapply meq_trans; [apply meq_sym, (mmul_assoc EF)|]. apply mmul_ext; [apply meq_refl|exact HP].
  Qed.

  (** ** repeated squaring *)
  Lemma squaring_ok : forall n j r F f2 M, 0 < j -> holds n r M -> length F = n * n -> length f2 = n * n ->
    exists b, squaring n j (mkBuffers r f2 F) = Ok b /\ holds n (b_f b) (mpow n M (2 ^ j)).
  Proof.
    intros n j r F f2 M Hj HM LF L2. unfold squaring.
    destruct (foldM_seq _ (square_step n j)
      (fun i b => length (b_1 b) = n * n /\ length (b_2 b) = n * n /\ length (b_f b) = n * n /\
         if i <=? j then holds n (if Nat.odd i then b_1 b else b_2 b) (mpow n M (2 ^ (i - 1))) else holds n (b_f b) (mpow n M (2 ^ j))) j 1 (mkBuffers r f2 F)) as [b [E [_ [_ [_ H]]]]].
    - cbn [b_1 b_2 b_f Nat.odd Nat.even negb]. split; [apply (holds_length _ _ _ HM)|]. split; [exact L2|]. split; [exact LF|].
      destruct (Nat.leb_spec 1 j); [|lia]. apply (holds_ext _ _ _ _ HM). cbn. apply meq_sym. apply (mmul_id_r EF).
    - intros i b Hi [L1 [L2' [LF' H]]]. destruct (Nat.leb_spec i j) as [_|]; [|lia]. unfold square_step.
      assert (HS : meq n (mmul n (mpow n M (2 ^ (i - 1))) (mpow n M (2 ^ (i - 1)))) (mpow n M (2 ^ i))).
      { eapply meq_trans; [apply (mpow_add EF)|]. replace (2 ^ (i - 1) + 2 ^ (i - 1)) with (2 ^ i); [apply meq_refl|].
        replace i with (Datatypes.S (i - 1)) at 1 by lia. cbn. lia. }
      destruct (Nat.eqb_spec i j) as [->|Hij].
      + destruct (product_ok n _ _ (b_f b) _ _ H H LF') as [x [Ex Hx]]. rewrite Ex. cbn [bind]. eexists. split; [reflexivity|]. cbn [b_1 b_2 b_f].
        split; [exact L1|]. split; [exact L2'|]. split; [apply (holds_length _ _ _ Hx)|]. destruct (Nat.leb_spec (Datatypes.S j) j); [lia|]. apply (holds_ext _ _ _ _ Hx HS).
      + rewrite Nat.odd_succ, <- Nat.negb_odd. destruct (Nat.odd i) eqn:Eo; cbn [negb].
        * destruct (product_ok n _ _ (b_2 b) _ _ H H L2') as [x [Ex Hx]]. rewrite Ex. cbn [bind]. eexists. split; [reflexivity|]. cbn [b_1 b_2 b_f].
          split; [exact L1|]. split; [apply (holds_length _ _ _ Hx)|]. split; [exact LF'|]. destruct (Nat.leb_spec (Datatypes.S i) j); [|lia].
          apply (holds_ext _ _ _ _ Hx). cbn [Nat.sub]. rewrite Nat.sub_0_r. exact HS.
        * destruct (product_ok n _ _ (b_1 b) _ _ H H L1) as [x [Ex Hx]]. rewrite Ex. cbn [bind]. eexists. split; [reflexivity|]. cbn [b_1 b_2 b_f].
          split; [apply (holds_length _ _ _ Hx)|]. split; [exact L2'|]. split; [exact LF'|]. destruct (Nat.leb_spec (Datatypes.S i) j); [|lia].
          apply (holds_ext _ _ _ _ Hx). cbn [Nat.sub]. rewrite Nat.sub_0_r. exact HS.
    - exists b. split; [exact E|]. destruct (Nat.leb_spec (1 + j) j); [lia|exact H].
  Qed.

  (** ** all together *)
  Lemma polynomial_ext : forall n q (A B : matrix), meq n A B -> meq n (pade_polynomial n of_int q A) (pade_polynomial n of_int q B).
  Proof. intros n q A B H i j Hi Hj. unfold pade_polynomial. apply rsum_ext. intros k _. f_equal. now apply (mpow_ext n A B k H). Qed.

  Lemma max_of_abs_ok : forall n (A : list R), length A = n * n -> max_of_abs A n = Ok (largest real_lt real_zero (map rabs A)).
  Proof.
    intros n A HL. unfold max_of_abs, largest. rewrite fold_left_rev_right, <- HL. clear HL. generalize real_zero. 
    assert (H : forall l1 l2 z, A = l1 ++ l2 ->
      foldM (fun result i => bind (read A i) (fun v => Ok (if real_lt result (rabs v) then rabs v else result))) (seq (length l1) (length l2)) z =
      Ok (fold_left (fun x y => if real_lt x y then y else x) (map rabs l2) z)).
    { intros l1 l2. revert l1. induction l2 as [|v l2 IH]; intros l1 z E; cbn [length seq foldM map fold_left]; [reflexivity|].
      unfold read at 1. rewrite E at 1. rewrite nth_error_app2, Nat.sub_diag by lia. cbn [nth_error get_or_ub bind].
      replace (Datatypes.S (length l1)) with (length (l1 ++ [v])) by (rewrite app_length; cbn; lia). apply IH. rewrite <- app_assoc. exact E. }
    intro z. exact (H [] A z eq_refl).
  Qed.
  Lemma scaling_ok : forall n (A : list R) l, length A = n * n -> trunc_log2 (largest real_lt real_zero (map rabs A)) = Some l -> (- 2 ^ 31 <= 1 + l < 2 ^ 31)%Z ->
    scaling A n = Ok (Z.max 0 (1 + l)).
  Proof. intros n A l HL E Hl. unfold scaling. rewrite (max_of_abs_ok n A HL). cbn [bind]. rewrite E. cbn [get_or_ub bind]. rewrite int_ok by lia. reflexivity. Qed.
  Lemma exponential_undefined : forall n (A F : list R) q, length A = n * n -> trunc_log2 (largest real_lt real_zero (map rabs A)) = None ->
    matrix_exponential junk gesv n A F q = UB.
  Proof. intros n A F q HL E. unfold matrix_exponential, scaling. rewrite (max_of_abs_ok n A HL). cbn [bind]. rewrite E. reflexivity. Qed.
  Lemma exponential_shift : forall n (A F : list R) q l, length A = n * n -> trunc_log2 (largest real_lt real_zero (map rabs A)) = Some l -> (31 <= l)%Z ->
    matrix_exponential junk gesv n A F q = UB.
  Proof.
    intros n A F q l HL E Hl. unfold matrix_exponential, scaling. rewrite (max_of_abs_ok n A HL). cbn [bind]. rewrite E. cbn [get_or_ub bind].
    unfold int. destruct ((- 2 ^ 31 <=? 1 + l)%Z && (1 + l <? 2 ^ 31)%Z); [|reflexivity]. cbn [bind]. unfold shifted.
    destruct (Z.ltb_spec (Z.max 0 (1 + l)) 31); [lia|]. destruct (Z.eqb_spec (Z.max 0 (1 + l)) 31); [lia|reflexivity].
  Qed.
  Lemma largest_zero : forall F (lt : F -> F -> bool) z l, lt z z = false -> Forall (eq z) l -> largest lt z l = z.
  Proof.
    intros F lt z l Hz H. unfold largest. assert (H' : Forall (eq z) (rev l)) by now apply Forall_rev. induction H' as [|x l' <- _ IH]; cbn; [reflexivity|]. now rewrite IH, Hz.
  Qed.

  Lemma exponential_gen : forall n q j w (A F : list R) V, solves gesv n -> 0 < n -> length A = n * n -> length F = n * n ->
    (Z.of_nat q * (Z.of_nat q + 1) < 2 ^ 31)%Z -> scaling A n = Ok (Z.of_nat j) -> shifted (Z.of_nat j) = Ok w ->
    let B := mscale (rdiv rone (of_int w)) (by_rows n A) in
    inverse n V (pade_polynomial n of_int q (mopp B)) ->
    exists A' F', matrix_exponential junk gesv n A F (Z.of_nat q) = Ok (A', F') /\ length F' = n * n /\
      meq n (by_rows n F') (mpow n (mmul n V (pade_polynomial n of_int q B)) (2 ^ j)).
  Proof.
    intros n q j w A F V HG Hn LA LF Hq Hs Hw B HV. unfold matrix_exponential. rewrite Hs. cbn [bind]. rewrite Hw. cbn [bind]. rewrite (ef_one _ _ EF).
    destruct (scale_ok n (rdiv rone (of_int w)) A (by_rows n A)) as [A' [Ea HA]]; [split; [exact LA|apply meq_refl]|].
    rewrite Ea. cbn [bind]. fold B in HA. cbv zeta.
    destruct (identity_ok n (repeat junk (n * n)) Hn (repeat_length _ _)) as [I [EI HI]]. rewrite EI. cbn [bind].
    rewrite <- (ef_one _ _ EF).
    destruct (pade_loop_ok n q A' B I (repeat junk (n * n)) I I Hq HA HI (repeat_length _ _) HI HI) as [s [Es [HN HD]]]. rewrite Es. cbn [bind]. rewrite Nat2Z.id.
    destruct (Nat.eqb_spec j 0) as [->|Hj0].
    - destruct (linear_solve_ok n (p_d s) (p_n s) F _ _ V HG Hn HD HN LF HV) as [r [Er Hr]]. rewrite Er. cbn [bind]. exists A', r. split; [reflexivity|].
      split; [apply (holds_length _ _ _ Hr)|]. destruct Hr as [_ Hr]. apply (meq_trans n _ _ _ Hr). cbn. apply meq_sym. apply (mmul_id_r EF).
    - destruct (linear_solve_ok n (p_d s) (p_n s) (repeat junk (n * n)) _ _ V HG Hn HD HN (repeat_length _ _) HV) as [r [Er Hr]]. rewrite Er. cbn [bind].
      destruct (squaring_ok n j r F (repeat junk (n * n)) _ ltac:(lia) Hr LF (repeat_length _ _)) as [b [Eb Hb]]. rewrite Eb. cbn [bind].
      exists A', (b_f b). split; [reflexivity|]. exact Hb.
  Qed.
  Lemma exponential_ok : forall n q l (A F : list R) V, solves gesv n -> 0 < n -> length A = n * n -> length F = n * n ->
    (Z.of_nat q * (Z.of_nat q + 1) < 2 ^ 31)%Z -> trunc_log2 (largest real_lt real_zero (map rabs A)) = Some l -> (- 2 ^ 31 <= l < 30)%Z ->
    let j := Z.to_nat (1 + l) in
    let B := mscale (rdiv rone (of_int (2 ^ Z.of_nat j))) (by_rows n A) in
    inverse n V (pade_polynomial n of_int q (mopp B)) ->
    exists A' F', matrix_exponential junk gesv n A F (Z.of_nat q) = Ok (A', F') /\ length F' = n * n /\
      meq n (by_rows n F') (mpow n (mmul n V (pade_polynomial n of_int q B)) (2 ^ j)).
  Proof.
    intros n q l A F V HG Hn LA LF Hq Hl Hr j B HV. apply (exponential_gen n q j (2 ^ Z.of_nat j)); auto.
    - rewrite (scaling_ok n A l LA Hl) by lia. f_equal. unfold j. lia.
    - unfold shifted. destruct (Z.ltb_spec (Z.of_nat j) 31); [reflexivity|unfold j in *; lia].
  Qed.
  Lemma exponential_reversed : forall n q (A F : list R) V, solves gesv n -> 0 < n -> length A = n * n -> length F = n * n ->
    (Z.of_nat q * (Z.of_nat q + 1) < 2 ^ 31)%Z -> trunc_log2 (largest real_lt real_zero (map rabs A)) = Some 30%Z ->
    let B := mscale (rdiv rone (of_int (- 2 ^ 31))) (by_rows n A) in
    inverse n V (pade_polynomial n of_int q (mopp B)) ->
    exists A' F', matrix_exponential junk gesv n A F (Z.of_nat q) = Ok (A', F') /\ length F' = n * n /\
      meq n (by_rows n F') (mpow n (mmul n V (pade_polynomial n of_int q B)) (2 ^ 31)).
  Proof.
    intros n q A F V HG Hn LA LF Hq Hl B HV. apply (exponential_gen n q 31 (- 2 ^ 31)); auto.
    rewrite (scaling_ok n A 30 LA Hl); [reflexivity|lia].
  Qed.
  (** the first coefficient overflows *)
  Lemma pade_overflow : forall n q (A : list R) s k, (0 <= q)%Z -> 1 <= k -> (Z.of_nat k <= q)%Z -> (2 ^ 31 <= (2 * q - Z.of_nat k + 1) * Z.of_nat k)%Z ->
    pade_step n A q s k = UB.
  Proof.
    intros n q A s k Hq H1 Hk Ho. unfold pade_step. cbv zeta. unfold int at 1. destruct (_ && _)%bool; [|reflexivity]. cbn [bind]. unfold int.
    destruct (Z.ltb_spec ((2 * q - Z.of_nat k + 1) * Z.of_nat k) (2 ^ 31)); [lia|]. rewrite andb_false_r. reflexivity.
  Qed.
  Definition shaped (n : nat) (s : @pade R) : Prop :=
    length (p_x1 s) = n * n /\ length (p_x2 s) = n * n /\ length (p_n s) = n * n /\ length (p_d s) = n * n.
  Lemma self : forall n l, length l = n * n -> holds n l (by_rows n l).
  Proof. intros n l H. split; [exact H|apply meq_refl]. Qed.
  Lemma int_cases : forall z, int z = Ok z \/ int z = UB.
  Proof. intro z. unfold int. destruct (_ && _)%bool; auto. Qed.
  Lemma pade_step_shaped : forall n q (A : list R) s k, length A = n * n -> shaped n s -> pade_step n A q s k = UB \/ exists s', pade_step n A q s k = Ok s' /\ shaped n s'.
  Proof.
    intros n q A s k LA [L1 [L2 [L3 L4]]]. unfold pade_step. cbv zeta.
    destruct (int_cases (2 * q)) as [->| ->]; cbn [bind]; [|now left].
    destruct (int_cases ((2 * q - Z.of_nat k + 1) * Z.of_nat k)) as [->| ->]; cbn [bind]; [|now left]. right.
    assert (LO : length (if Nat.odd k then p_x1 s else p_x2 s) = n * n) by (destruct (Nat.odd k); assumption).
    assert (LN : length (if Nat.odd k then p_x2 s else p_x1 s) = n * n) by (destruct (Nat.odd k); assumption).
    destruct (product_ok n _ A _ _ _ (self _ _ LO) (self n A LA) LN) as [x [Ex Hx]].
    rewrite Ex. cbn [bind]. match goal with |- context [add_term n ?c0 _ x] => set (c := c0) end.
    destruct (add_term_ok n c (if Nat.odd k then ropp c else c) x (p_n s) (p_d s) _ _ _ Hx (self n _ L3) (self n _ L4)) as [N' [D' [E [HN HD]]]]. rewrite E. cbn [bind].
    eexists. split; [reflexivity|]. unfold shaped. cbn. pose proof (holds_length _ _ _ Hx). destruct (Nat.odd k); repeat split; auto; apply (holds_length _ _ _ HN) || apply (holds_length _ _ _ HD).
  Qed.
  Lemma foldM_ub : forall B (f : B -> nat -> res B) (P : B -> Prop) l b, (forall b x, P b -> f b x = UB \/ exists b', f b x = Ok b' /\ P b') -> P b ->
    foldM f l b = UB \/ exists b', foldM f l b = Ok b' /\ P b'.
  Proof.
    intros B f P l. induction l as [|x l IH]; intros b Hf Hb; cbn [foldM]; [right; eauto|]. destruct (Hf b x Hb) as [->|[b' [-> H']]]; cbn [bind]; [now left|]. now apply IH.
  Qed.
  Lemma order_undefined : forall n q l (A F : list R), 0 < n -> length A = n * n -> length F = n * n ->
    (2 ^ 31 <= Z.of_nat q * (Z.of_nat q + 1))%Z -> trunc_log2 (largest real_lt real_zero (map rabs A)) = Some l -> (- 2 ^ 31 <= l < 31)%Z ->
    matrix_exponential junk gesv n A F (Z.of_nat q) = UB.
  Proof.
    intros n q l A F Hn LA LF Hq Hl Hr. unfold matrix_exponential. rewrite (scaling_ok n A l LA Hl) by lia. cbn [bind]. unfold shifted.
    match goal with |- context [bind ?b _] => assert (Hb : exists w, b = Ok w) end.
    { destruct (Z.ltb_spec (Z.max 0 (1 + l)) 31); [eauto|]. destruct (Z.eqb_spec (Z.max 0 (1 + l)) 31); [eauto|lia]. }
    destruct Hb as [w ->]. cbn [bind]. destruct (scale_ok n (rdiv (of_int 1) (of_int w)) A _ (self n A LA)) as [A' [Ea HA]]. rewrite Ea. cbn [bind]. cbv zeta.
    destruct (identity_ok n (repeat junk (n * n)) Hn (repeat_length _ _)) as [I [EI HI]]. rewrite EI. cbn [bind].
    assert (E : pade_loop n A' (Z.of_nat q) (mkPade (of_int 1) I (repeat junk (n * n)) I I) = UB); [|now rewrite E].
    pose proof (holds_length _ _ _ HI) as LI. unfold pade_loop. rewrite Nat2Z.id. assert (Hq0 : 0 < q) by nia. replace q with (q - 1 + 1) by lia. rewrite seq_app, foldM_app.
    replace (q - 1 + 1) with q by lia.
    destruct (foldM_ub _ (pade_step n A' (Z.of_nat q)) (shaped n) (seq 1 (q - 1)) (mkPade (of_int 1) I (repeat junk (n * n)) I I)) as [->|[b [-> _]]].
    - intros b x Hb. apply pade_step_shaped; [apply (holds_length _ _ _ HA)|exact Hb].
    - unfold shaped. cbn. rewrite repeat_length. auto.
    - reflexivity.
    - cbn [bind seq foldM]. rewrite pade_overflow; [reflexivity| | | |]; lia || nia.
  Qed.
End Facts.
Lemma zero_undefined : forall (R : Type) (RR : Scalar R) (ER : ExpScalar R) (junk : R) (gesv : gesv_routine R) n (F : list R) q,
  real_lt real_zero real_zero = false -> rabs rzero = real_zero -> trunc_log2 real_zero = None ->
  matrix_exponential junk gesv n (repeat rzero (n * n)) F q = UB.
Proof.
  intros R RR ER junk gesv n F q H1 H2 H3. apply exponential_undefined; [apply repeat_length|]. rewrite largest_zero; [exact H3|exact H1|].
  apply Forall_forall. intros x Hx. apply in_map_iff in Hx. destruct Hx as [v [<- Hv]]. apply repeat_spec in Hv. subst v. now rewrite H2.
Qed.
