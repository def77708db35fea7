(** The block kernels of svd: sizes, product, orthonormality, order; for all sizes. *)
From Coq Require Import String List Bool Arith Lia.
From Verif Require Import Base.Outcome Base.SMap Model.Symmetry Model.Core Model.Transpose Model.EdgeOperator Model.Qr Model.SvdCut Model.Svd Spec.Contract Spec.Matrix Spec.Lapack Spec.Truncate Spec.Svd
  Proof.SumFacts Proof.MatrixFacts Proof.TransposeFacts Proof.LoopFacts Proof.QrKernel.
Import ListNotations.

Section Kernel.
  Context {R V : Type} {RR : Scalar R}.
  Variables (of_real : V -> R) (vzero : V) (greater : V -> V -> bool).
  Hypothesis EA : exact_arithmetic R.
  Hypothesis MA : associative_product R.

  (** an m by n row-major matrix is the product of an m by k, a diagonal and a k by n one *)
  Record svd_of (m n k : nat) (data d1 : list R) (s : list V) (d2 : list R) : Prop := {
    sv_mul : forall i j, i < m -> j < n ->
      nth (i * n + j) data rzero = rsum (map (fun l => rmul (rmul (nth (i * k + l) d1 rzero) (of_real (nth l s vzero))) (nth (l * n + j) d2 rzero)) (seq 0 k));
    sv_col : column_iso m k d1;
    sv_row : row_iso k n d2;
    sv_desc : descending greater s;
    sv_pos : forall x, In x s -> greater vzero x = false }.
  Definition sized3 (m n k : nat) (d1 : list R) (s : list V) (d2 : list R) : Prop := length d1 = m * k /\ length s = k /\ length d2 = k * n.

  Variable gesvd : nat -> nat -> list R -> bool * (list V * list R * list R).
  Hypothesis HG : svd_sound of_real vzero greater gesvd.

  Definition svd_result (m n k : nat) (data : list R) (o : res (list R * list V * list R * bool)) : Prop :=
    exists d1 s d2 w, o = Ok (d1, s, d2, w) /\ sized3 m n k d1 s d2 /\ (w = true -> ~ svd_never_fails gesvd) /\ (w = false -> svd_of m n k data d1 s d2).

  Lemma mul_swap : forall a s b : R, rmul (rmul a s) b = rmul (rmul b s) a.
  Proof. intros a s b. rewrite (ea_mul_comm _ EA (rmul a s) b), (ea_mul_comm _ EA a s). symmetry. apply MA. Qed.
  Lemma store_all : forall A (buffer cells : list A), length cells = length buffer -> store buffer cells = Ok cells.
  Proof. intros A b c H. unfold store. rewrite H, Nat.ltb_irrefl, skipn_all, app_nil_r. reflexivity. Qed.

  Lemma svd_kernel_ok : forall m n data u s vt, 0 < m -> 0 < n -> let k := Nat.min m n in length data = m * n -> sized3 m n k u s vt ->
    svd_result m n k data (svd_kernel gesvd m n data u s vt).
  Proof.
    intros m n data u s vt Hm Hn k Hd [L1 [L2 L3]]. unfold svd_kernel. destruct (gesvd n m data) as [ok [[s' U] VT]] eqn:Q.
    destruct (ss_size _ _ _ _ HG n m data ok s' U VT) as [Z1 [Z2 Z3]]; [exact Hn|exact Hm|lia|exact Q|]. rewrite (Nat.min_comm n m) in *. fold k in Z1, Z2, Z3.
    rewrite store_all by lia. cbn [bind]. rewrite store_all by lia. cbn [bind]. rewrite store_all by lia. cbn [bind].
    exists VT, s', U, (negb ok). split; [reflexivity|]. split; [unfold sized3; lia|]. split.
    - intros Hw F. specialize (F n m data ltac:(lia)). rewrite Q in F. cbn in F. subst ok. discriminate.
    - intro Hw. apply negb_false_iff in Hw. subst ok. destruct (ss_ok _ _ _ _ HG n m data s' U VT) as [X1 [X2 [X3 [X4 X5]]]]; [exact Hn|exact Hm|lia|exact Q|].
      rewrite (Nat.min_comm n m) in *. fold k in X1, X2, X3. constructor; auto.
      + intros i j Hi Hj. specialize (X1 j i Hj Hi). unfold by_columns in X1. replace (j + i * n) with (i * n + j) in X1 by lia. rewrite X1. apply sum_ext. intros l Hl.
        rewrite mul_swap. now rewrite (Nat.add_comm l (i * k)), (Nat.add_comm j (l * n)).
      + intros a b Ha Hb. assert (Hs : ident a b = ident b a :> R) by (unfold ident; now rewrite Nat.eqb_sym). rewrite Hs, <- (X3 b a Hb Ha).
        apply sum_ext. intros i Hi. rewrite (ea_mul_comm _ EA). unfold by_columns. now rewrite (Nat.add_comm (i * k) a), (Nat.add_comm (i * k) b).
      + intros a b Ha Hb. rewrite <- (X2 a b Ha Hb). apply sum_ext. intros j Hj. unfold by_columns. now rewrite (Nat.add_comm (a * n) j), (Nat.add_comm (b * n) j).
  Qed.

  Lemma calculate_svd_ok : forall junk m n data u s vt, 0 < m -> 0 < n -> let k := if Nat.ltb n m then n else m in length data = m * n -> sized3 m n k u s vt ->
    svd_result m n k data (calculate_svd gesvd junk m n k data u s vt).
  Proof.
    intros junk m n data u s vt Hm Hn k Hd Hz. unfold calculate_svd. subst k. destruct (Nat.ltb_spec n m) as [H|H].
    2: { pose proof (svd_kernel_ok m n data u s vt Hm Hn Hd) as X. rewrite Nat.min_l in X by exact H. now apply X. }
    destruct Hz as [L1 [L2 L3]].
    destruct (transposed_nth m n data (repeat junk (n * m)) Hm Hn Hd) as [new [T1 [T2 T3]]]; [rewrite repeat_length; lia|]. rewrite T1. cbn [bind].
    pose proof (svd_kernel_ok n m new (repeat junk (n * n)) s (repeat junk (n * m)) Hn Hm) as X. rewrite Nat.min_l in X by lia.
    destruct X as [o1 [s' [o2 [w [-> [[Z1 [Z2 Z3]] [F I]]]]]]]; [lia|unfold sized3; rewrite !repeat_length; lia|]. cbn [bind].
    destruct (transposed_nth n n o1 vt Hn Hn Z1) as [d2 [U1 [U2 U3]]]; [lia|]. rewrite U1. cbn [bind].
    destruct (transposed_nth n m o2 u Hn Hm Z3) as [d1 [V1 [V2 V3]]]; [lia|]. rewrite V1. cbn [bind].
    exists d1, s', d2, w. split; [reflexivity|]. split; [unfold sized3; lia|]. split; [exact F|]. intro Hw. destruct (I Hw) as [I1 I2 I3 I4 I5]. constructor; auto.
    - intros i j Hi Hj. rewrite <- T3 by assumption. rewrite I1 by assumption. apply sum_ext. intros l Hl. apply in_seq in Hl. rewrite V3, U3 by lia. apply mul_swap.
    - intros a b Ha Hb. rewrite <- (I3 a b Ha Hb). apply sum_ext. intros i Hi. apply in_seq in Hi. now rewrite !V3 by lia.
    - intros a b Ha Hb. rewrite <- (I2 a b Ha Hb). apply sum_ext. intros i Hi. apply in_seq in Hi. now rewrite !U3 by lia.
  Qed.
End Kernel.
