(** The block kernels of qr: sizes, product, orthonormality, triangles; for all sizes. *)
From Coq Require Import String List Bool Arith Lia.
From Verif Require Import Base.Outcome Base.SMap Model.Symmetry Model.Core Model.Transpose Model.EdgeOperator Model.Qr Spec.Contract Spec.Matrix Spec.Lapack
  Proof.SumFacts Proof.MatrixFacts Proof.TransposeFacts Proof.LoopFacts.
Import ListNotations.

Section Kernel.
  Context {R : Type} {RR : Scalar R}.
  Hypothesis EA : exact_arithmetic R.

  (** an m by n row-major matrix is the product of an m by k and a k by n one *)
  Record factored (m n k : nat) (data d1 d2 : list R) : Prop := {
    fa_len1 : length d1 = m * k;
    fa_len2 : length d2 = k * n;
    fa_mul : forall i j, i < m -> j < n -> nth (i * n + j) data rzero = rsum (map (fun l => rmul (nth (i * k + l) d1 rzero) (nth (l * n + j) d2 rzero)) (seq 0 k)) }.
  Definition column_iso (m k : nat) (d : list R) : Prop :=
    forall a b, a < k -> b < k -> rsum (map (fun i => rmul (rconj (nth (i * k + a) d rzero)) (nth (i * k + b) d rzero)) (seq 0 m)) = ident a b.
  Definition row_iso (k n : nat) (d : list R) : Prop :=
    forall a b, a < k -> b < k -> rsum (map (fun j => rmul (rconj (nth (a * n + j) d rzero)) (nth (b * n + j) d rzero)) (seq 0 n)) = ident a b.
  Definition is_qr (use_qr : bool) (m n k : nat) (d1 d2 : list R) : Prop :=
    if use_qr then column_iso m k d1 /\ forall l j, l < k -> j < l -> nth (l * n + j) d2 rzero = rzero
    else row_iso k n d2 /\ forall i l, i < l -> l < k -> nth (i * k + l) d1 rzero = rzero.

  (** ** reading and storing *)
  Lemma read_ok : forall (data : list R) from n, from + n <= length data -> read data from n = Ok (firstn n (skipn from data)).
  Proof.
    intros data from n H. unfold read. revert from H. induction n as [|n IH]; intros from H; [reflexivity|].
    cbn [seq mapM]. destruct (nth_error data (from + 0)) as [v|] eqn:Q; [|apply nth_error_None in Q; lia]. cbn [get_or_ub bind].
    rewrite <- seq_shift. assert (M : forall A B C (f : B -> res C) (g : A -> B) l, mapM f (map g l) = mapM (fun x => f (g x)) l).
    { intros A B C f g l. induction l as [|x l IHl]; [reflexivity|]. cbn [map mapM]. now rewrite IHl. }
    rewrite M. assert (X : forall l, mapM (fun i => get_or_ub (nth_error data (from + Datatypes.S i))) l = mapM (fun i => get_or_ub (nth_error data (Datatypes.S from + i))) l).
    { induction l as [|x l IHl]; [reflexivity|]. cbn [mapM]. rewrite IHl. now replace (from + Datatypes.S x) with (Datatypes.S from + x) by lia. }
    rewrite X, IH by lia. cbn [bind]. f_equal. rewrite Nat.add_0_r in Q. clear - Q. revert data Q. induction from as [|f IH]; intros [|y data] Q; try discriminate; cbn in *; [congruence|]. now apply IH.
  Qed.
  Lemma store_ok : forall buffer cells : list R, length cells = length buffer -> store buffer cells = Ok cells.
  Proof. intros b c H. unfold store. rewrite H, Nat.ltb_irrefl, skipn_all, app_nil_r. reflexivity. Qed.
  Lemma mapM_all : forall A B (f : A -> res B) (g : A -> B) l, (forall x, In x l -> f x = Ok (g x)) -> mapM f l = Ok (map g l).
  Proof. induction l as [|x l IH]; intro H; [reflexivity|]. cbn [mapM map]. rewrite H by now left. cbn [bind]. rewrite IH; [reflexivity|]. intros; apply H; now right. Qed.
  (** rows of equal length, one after the other *)
  Lemma rows_length : forall (rows : nat -> list R) n k, (forall i, i < n -> length (rows i) = k) -> length (concat (map rows (seq 0 n))) = n * k.
  Proof.
    intros rows n k. revert rows. induction n as [|n IH]; intros rows H; [reflexivity|]. rewrite seq_S, map_app, concat_app, app_length, IH by (intros; apply H; lia).
    cbn [map concat app]. rewrite app_nil_r, H by lia. lia.
  Qed.
  Lemma rows_nth : forall (rows : nat -> list R) n k i l, (forall i, i < n -> length (rows i) = k) -> i < n -> l < k ->
    nth (i * k + l) (concat (map rows (seq 0 n))) rzero = nth l (rows i) rzero.
  Proof.
    intros rows n k i l. revert i. induction n as [|n IH]; intros i H Hi Hl; [lia|]. rewrite seq_S, map_app, concat_app. cbn [map concat app Nat.add]. rewrite app_nil_r.
    assert (L : length (concat (map rows (seq 0 n))) = n * k) by (apply rows_length; intros; apply H; lia).
    destruct (Nat.eq_dec i n) as [->|N].
    - rewrite app_nth2 by lia. rewrite L. now replace (n * k + l - n * k) with l by lia.
    - rewrite app_nth1; [apply IH; [intros; apply H; lia|lia|exact Hl]|]. rewrite L. nia.
  Qed.
  Lemma nth_first : forall (l : list R) n from i, i < n -> nth i (firstn n (skipn from l)) rzero = nth (from + i) l rzero.
  Proof.
    intros l n from i H. revert l i H. induction from as [|f IH]; intros l i H; cbn [skipn Nat.add].
    - revert l i H. induction n as [|n IHn]; intros l i H; [lia|]. destruct l as [|x l]; [cbn; now destruct i|]. destruct i; [reflexivity|]. cbn [firstn nth]. apply IHn. lia.
    - destruct l as [|x l]; [rewrite firstn_nil; now destruct i|]. cbn [nth]. now apply IH.
  Qed.
  Lemma len_first : forall (l : list R) n from, from + n <= length l -> length (firstn n (skipn from l)) = n.
  Proof. intros. rewrite firstn_length, skipn_length. lia. Qed.
  Lemma nth_zeros_app : forall n (l : list R) j, nth j (repeat rzero n ++ l) rzero = if Nat.ltb j n then rzero else nth (j - n) l rzero.
  Proof.
    intros n l j. destruct (Nat.ltb_spec j n) as [H|H].
    - rewrite app_nth1 by (now rewrite repeat_length). revert n H. induction j as [|j IH]; intros [|n] H; try lia; [reflexivity|]. cbn. apply IH. lia.
    - rewrite app_nth2 by (rewrite repeat_length; lia). now rewrite repeat_length.
  Qed.
  Lemma nth_repeat0 : forall n j, nth j (repeat (rzero : R) n) rzero = rzero.
  Proof. induction n as [|n IH]; intros [|j]; cbn; auto. Qed.

  Definition kernel_result (m n k : nat) (data : list R) (use_qr : bool) (o : res (list R * list R)) (fails : Prop) : Prop :=
    (exists msg, o = Throw (RuntimeError msg) /\ fails) \/ exists d1 d2, o = Ok (d1, d2) /\ factored m n k data d1 d2 /\ is_qr use_qr m n k d1 d2.

  Variable L : qr_lapack R.
  Hypothesis HL : qr_sound L.

  Lemma sum_ext : forall A (f g : A -> R) l, (forall x, In x l -> f x = g x) -> rsum (map f l) = rsum (map g l).
  Proof. intros A f g l H. f_equal. now apply map_ext_in. Qed.

  Lemma kernel_ok : forall m n data b1 b2 use_qr, 0 < m -> m <= n -> length data = m * n -> length b1 = m * m -> length b2 = m * n ->
    kernel_result m n m data use_qr (qr_kernel L m n m data b1 b2 use_qr) (~ qr_never_fails L).
  Proof.
    intros m n data b1 b2 use_qr Hm Hmn Hd Hb1 Hb2. unfold qr_kernel. destruct use_qr.
    - destruct (gelqf L n m data) as [[A' tau]|] eqn:Q1; cbn [ok_or bind].
      2: { left. eexists. split; [reflexivity|]. intro F. apply (nf_gelqf L F n m data); [lia|exact Q1]. }
      destruct (qs_lq L HL n m data A' tau) as [LA X]; [lia|lia|lia|exact Q1|]. cbn [Nat.min] in X. rewrite (Nat.min_r n m) in X by lia. cbv zeta in X.
      rewrite (mapM_all _ _ _ (fun i => firstn m (skipn (i * n) A'))).
      2: { intros i Hi. apply in_seq in Hi. apply read_ok. nia. }
      cbn [bind]. set (B := concat (map (fun i => firstn m (skipn (i * n) A')) (seq 0 m))).
      assert (LB : length B = m * m) by (apply rows_length; intros i Hi; apply len_first; nia).
      rewrite store_ok by lia. cbn [bind].
      destruct (orglq L m m m B tau) as [Q|] eqn:Q2; cbn [ok_or bind].
      2: { left. eexists. split; [reflexivity|]. intro F. apply (nf_orglq L F m m m B tau); [exact LB|exact Q2]. }
      destruct (X B Q) as [LQ [OQ PQ]]; [exact LB| |exact Q2|].
      { intros i j Hi Hj. unfold by_columns. replace (i + j * m) with (j * m + i) by lia. unfold B. rewrite (rows_nth _ m m j i); [|intros i' Hi'; apply len_first; nia|exact Hj|exact Hi].
        rewrite nth_first by exact Hi. f_equal. lia. }
      rewrite (mapM_all _ _ _ (fun i => repeat rzero i ++ firstn (n - i) (skipn (i * n + i) A'))).
      2: { intros i Hi. apply in_seq in Hi. rewrite read_ok by nia. reflexivity. }
      cbn [bind]. set (D2 := concat (map (fun i => repeat rzero i ++ firstn (n - i) (skipn (i * n + i) A')) (seq 0 m))).
      assert (HR : forall i, i < m -> length (repeat rzero i ++ firstn (n - i) (skipn (i * n + i) A')) = n).
      { intros i Hi. rewrite app_length, repeat_length, len_first by nia. lia. }
      assert (LD : length D2 = m * n) by (apply rows_length; exact HR).
      rewrite store_ok by lia. cbn [bind]. right. exists Q, D2. split; [reflexivity|].
      assert (N2 : forall l j, l < m -> j < n -> nth (l * n + j) D2 rzero = if Nat.leb l j then by_columns n A' j l else rzero).
      { intros l j Hl Hj. unfold D2. rewrite (rows_nth _ m n l j HR Hl Hj), nth_zeros_app. unfold by_columns. destruct (Nat.ltb_spec j l), (Nat.leb_spec l j); try lia; [reflexivity|].
        rewrite nth_first by lia. f_equal. lia. }
      split; [constructor|split].
      + lia.
      + lia.
      + intros i j Hi Hj. specialize (PQ j i Hj Hi). unfold by_columns at 1 in PQ. replace (j + i * n) with (i * n + j) in PQ by lia. rewrite PQ. apply sum_ext. intros l Hl. apply in_seq in Hl.
        rewrite (ea_mul_comm _ EA). rewrite N2 by lia. f_equal. unfold by_columns. f_equal. lia.
      + intros a b Ha Hb. rewrite <- (OQ b a Hb Ha) || idtac. assert (Hs : ident a b = ident b a :> R) by (unfold ident; now rewrite Nat.eqb_sym). rewrite Hs, <- (OQ b a Hb Ha).
        apply sum_ext. intros i Hi. rewrite (ea_mul_comm _ EA). unfold by_columns. rewrite (Nat.add_comm (i * m) a), (Nat.add_comm (i * m) b). reflexivity.
      + intros l j Hl Hj. rewrite N2 by lia. destruct (Nat.leb_spec l j); [lia|reflexivity].
    - destruct (geqrf L n m data) as [[A' tau]|] eqn:Q1; cbn [ok_or bind].
      2: { left. eexists. split; [reflexivity|]. intro F. apply (nf_geqrf L F n m data); [lia|exact Q1]. }
      destruct (qs_qr L HL n m data A' tau) as [LA X]; [lia|lia|lia|exact Q1|]. rewrite (Nat.min_r n m) in X by lia. cbv zeta in X.
      rewrite read_ok by lia. cbn [bind skipn]. rewrite store_ok by (rewrite firstn_length; lia). cbn [bind].
      destruct (orgqr L n m m (firstn (n * m) A') tau) as [Q|] eqn:Q2; cbn [ok_or bind].
      2: { left. eexists. split; [reflexivity|]. intro F. apply (nf_orgqr L F n m m (firstn (n * m) A') tau); [rewrite firstn_length; lia|exact Q2]. }
      destruct (X Q eq_refl) as [LQ [OQ PQ]].
      rewrite (mapM_all _ _ _ (fun i => firstn (i + 1) (skipn (n * i) A') ++ repeat rzero (m - (i + 1)))).
      2: { intros i Hi. apply in_seq in Hi. rewrite read_ok by nia. reflexivity. }
      cbn [bind]. set (D1 := concat (map (fun i => firstn (i + 1) (skipn (n * i) A') ++ repeat rzero (m - (i + 1))) (seq 0 m))).
      assert (HR : forall i, i < m -> length (firstn (i + 1) (skipn (n * i) A') ++ repeat rzero (m - (i + 1))) = m).
      { intros i Hi. rewrite app_length, repeat_length, len_first by nia. lia. }
      assert (LD : length D1 = m * m) by (apply rows_length; exact HR).
      replace (n * m - n * m) with 0 by lia. rewrite read_ok by lia. cbn [bind firstn]. rewrite app_nil_r, store_ok by lia. cbn [bind]. right. exists D1, Q. split; [reflexivity|].
      assert (N1 : forall i l, i < m -> l < m -> nth (i * m + l) D1 rzero = if Nat.leb l i then by_columns n A' l i else rzero).
      { intros i l Hi Hl. unfold D1. rewrite (rows_nth _ m m i l HR Hi Hl). unfold by_columns. destruct (Nat.leb_spec l i) as [H|H].
        - rewrite app_nth1 by (rewrite len_first by nia; lia). rewrite nth_first by lia. f_equal. lia.
        - rewrite app_nth2 by (rewrite len_first by nia; lia). apply nth_repeat0. }
      split; [constructor|split].
      + lia.
      + lia.
      + intros i j Hi Hj. specialize (PQ j i Hj Hi). unfold by_columns at 1 in PQ. replace (j + i * n) with (i * n + j) in PQ by lia. rewrite PQ. apply sum_ext. intros l Hl. apply in_seq in Hl.
        rewrite (ea_mul_comm _ EA). rewrite N1 by lia. f_equal. unfold by_columns. f_equal. lia.
      + intros a b Ha Hb. rewrite <- (OQ a b Ha Hb). apply sum_ext. intros j Hj. unfold by_columns. now rewrite (Nat.add_comm (a * n) j), (Nat.add_comm (b * n) j).
      + intros i l Hil Hl. rewrite N1 by lia. destruct (Nat.leb_spec l i); [lia|reflexivity].
  Qed.

  Lemma transposed_nth : forall m n (src dst : list R), 0 < m -> 0 < n -> length src = m * n -> length dst = m * n ->
    exists dst', matrix_transpose m n src dst = Ok dst' /\ length dst' = m * n /\
      forall i j, i < m -> j < n -> nth (j * m + i) dst' rzero = nth (i * n + j) src rzero.
  Proof.
    intros m n src dst Hm Hn L1 L2. destruct (matrix_transpose_ok R RR m n src dst Hm Hn L1 L2) as [d [H1 [H2 H3]]]. exists d. split; [exact H1|]. split; [exact H2|].
    intros i j Hi Hj. destruct (H3 i j Hi Hj) as [v [X Y]]. rewrite (nth_error_nth _ _ _ X), (nth_error_nth _ _ _ Y). reflexivity.
  Qed.
  Lemma calculate_ok : forall junk m n data b1 b2 use_qr, 0 < m -> 0 < n -> let k := if Nat.ltb n m then n else m in
    length data = m * n -> length b1 = m * k -> length b2 = k * n ->
    kernel_result m n k data use_qr (calculate_qr L junk m n k data b1 b2 use_qr) (~ qr_never_fails L).
  Proof.
    intros junk m n data b1 b2 use_qr Hm Hn k Hd Hb1 Hb2. unfold calculate_qr. subst k. destruct (Nat.ltb_spec n m) as [H|H].
    2: { apply kernel_ok; lia. }
    destruct (transposed_nth m n data (repeat junk (n * m)) Hm Hn Hd) as [new [T1 [T2 T3]]]; [rewrite repeat_length; lia|].
    rewrite T1. cbn [bind].
    destruct (kernel_ok n m new (repeat junk (n * n)) (repeat junk (n * m)) (negb use_qr)) as [[msg [-> F]]|[o1 [o2 [-> [F I]]]]]; try (rewrite repeat_length); try lia.
    { left. exists msg. auto. }
    cbn [bind fst snd]. destruct F as [F1 F2 F3].
    destruct (transposed_nth n n o1 b2 Hn Hn F1) as [d2 [U1 [U2 U3]]]; [lia|]. rewrite U1. cbn [bind].
    destruct (transposed_nth n m o2 b1 Hn Hm F2) as [d1 [V1 [V2 V3]]]; [lia|]. rewrite V1. cbn [bind].
    right. exists d1, d2. split; [reflexivity|]. split; [constructor|].
    - lia.
    - lia.
    - intros i j Hi Hj. rewrite <- T3 by assumption. rewrite F3 by assumption. apply sum_ext. intros l Hl. apply in_seq in Hl.
      rewrite V3, U3 by lia. apply (ea_mul_comm _ EA).
    - destruct use_qr; cbn [negb is_qr] in *; destruct I as [I1 I2]; split.
      + intros a b Ha Hb. rewrite <- (I1 a b Ha Hb). apply sum_ext. intros i Hi. apply in_seq in Hi. now rewrite !V3 by lia.
      + intros l j Hl Hj. rewrite U3 by lia. apply I2; lia.
      + intros a b Ha Hb. rewrite <- (I1 a b Ha Hb). apply sum_ext. intros i Hi. apply in_seq in Hi. now rewrite !U3 by lia.
      + intros i l Hi Hl. rewrite V3 by lia. apply I2; lia.
  Qed.
End Kernel.
