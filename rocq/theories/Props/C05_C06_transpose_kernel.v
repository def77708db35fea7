(** C05: the data-moving kernel copies every element exactly where the plan says.
    C06: table reads stay in bounds (refuted: index -1 is read whenever the whole block is one contiguous run). *)
From Coq Require Import List Bool Arith ZArith Lia.
From Verif Require Import Base.Outcome Base.SMap Model.Symmetry Model.Edge Model.Core Model.Transpose
  Spec.Strided Proof.KernelFacts Proof.TransposeFacts Proof.ScalarZ.
Import ListNotations.

(** [oob]: outcome of the out-of-bounds comparison (C06); [big]: which of the two strategies is taken. *)
Theorem C05_every_element_copied :
  forall (R : Type) (RR : Scalar R) (rank : nat) (s2d d2s dims ls ld : list nat)
    (src dst : list R) (sb db : nat) (parity oob big : bool),
  inverse_plans rank s2d d2s -> length dims = rank -> length ls = rank -> length ld = rank ->
  in_bounds_and_distinct dims ls ld d2s sb db (length src) (length dst) ->
  exists dst', do_transpose oob big src sb dst db s2d d2s dims (permuted 0 d2s dims) ls ld rank (fold_right Nat.mul 1 dims) parity = Ok dst' /\
    length dst' = length dst /\
    (forall idx, index_below idx dims -> exists v, nth_error src (sb + dot idx ls) = Some v /\
        nth_error dst' (db + dot (permuted 0 d2s idx) ld) = Some (if parity then ropp v else v)) /\
    (forall j, (forall idx, index_below idx dims -> j <> db + dot (permuted 0 d2s idx) ld) -> nth_error dst' j = nth_error dst j).
Proof. exact @transpose_block. Qed.
Print Assumptions C05_every_element_copied.

Theorem C05_matrix_transpose :
  forall (R : Type) (RR : Scalar R) m n (src dst : list R),
  0 < m -> 0 < n -> length src = m * n -> length dst = m * n ->
  exists dst', matrix_transpose m n src dst = Ok dst' /\ length dst' = m * n /\
    forall i j, i < m -> j < n -> exists v, nth_error src (i * n + j) = Some v /\ nth_error dst' (j * m + i) = Some v.
Proof. exact @matrix_transpose_ok. Qed.
Print Assumptions C05_matrix_transpose.

(** a 2 x 3 x 2 block with axes permuted to (2, 0, 1), both strategies, sign flag set, inside larger buffers *)
Example C05_example :
  inverse_plans 3 [1; 2; 0] [2; 0; 1] /\
  in_bounds_and_distinct [2; 3; 2] [6; 2; 1] [6; 3; 1] [2; 0; 1] 1 2 13 15 /\
  (let src := map Z.of_nat (seq 0 13) in let dst := repeat 100%Z 15 in
   forall oob big, do_transpose oob big src 1 dst 2 [1; 2; 0] [2; 0; 1] [2; 3; 2] [2; 2; 3] [6; 2; 1] [6; 3; 1] 3 12 true
     = Ok [100; 100; -1; -3; -5; -7; -9; -11; -2; -4; -6; -8; -10; -12; 100]%Z).
Proof.
  split; [|split].
  - unfold inverse_plans. repeat split; try reflexivity; destruct i as [|[|[|i]]] || destruct j as [|[|[|j]]]; simpl; lia.
  - split.
    + intros idx H. inversion H as [|a ? ? ? Ha H2]; subst. inversion H2 as [|b ? ? ? Hb H3]; subst.
      inversion H3 as [|c ? ? ? Hc H4]; subst. inversion H4; subst. simpl. lia.
    + intros i1 i2 H H'. inversion H as [|a ? ? ? Ha H2]; subst. inversion H2 as [|b ? ? ? Hb H3]; subst.
      inversion H3 as [|c ? ? ? Hc H4]; subst. inversion H4; subst.
      inversion H' as [|a' ? ? ? Ha' H2']; subst. inversion H2' as [|b' ? ? ? Hb' H3']; subst.
      inversion H3' as [|c' ? ? ? Hc' H4']; subst. inversion H4'; subst. simpl. intro E.
      assert (c = c') by lia. assert (a = a') by lia. assert (b = b') by lia. now subst.
  - intros src dst [|] [|]; reflexivity.
Qed.

(** [line_run_reads axes 1]: the positions of the stride table read while looking for the contiguous run
    (axes last first).  The property would be [0 <= r]; it fails, exactly when all axes form one run. *)
Theorem C06_reads_in_bounds_refuted :
  exists axes r, In r (line_run_reads axes 1) /\ ~ (0 <= r < Z.of_nat (length axes))%Z.
Proof. exists [mkAxis 3 1 1; mkAxis 2 3 3], (-1)%Z. split; [vm_compute; auto|lia]. Qed.
Print Assumptions C06_reads_in_bounds_refuted.

Theorem C06_reads_at_worst_one_before_partial :
  forall axes e r, In r (line_run_reads axes e) -> (-1 <= r < Z.of_nat (length axes) - 1)%Z.
Proof. exact line_run_reads_range. Qed.
Print Assumptions C06_reads_at_worst_one_before_partial.

Theorem C06_out_of_bounds_iff_fully_contiguous :
  forall axes a rest e, axes = a :: rest -> ax_ls a = e -> ax_ld a = e ->
  (In (-1)%Z (line_run_reads axes e) <-> contiguous e axes).
Proof. exact line_run_reads_oob. Qed.
Print Assumptions C06_out_of_bounds_iff_fully_contiguous.

(** the value read does not influence the copy *)
Theorem C06_result_independent_of_stray_read :
  forall (R : Type) (RR : Scalar R) (rank : nat) (s2d d2s dims ls ld : list nat)
    (src dst : list R) (sb db : nat) (parity oob oob' big : bool),
  inverse_plans rank s2d d2s -> length dims = rank -> length ls = rank -> length ld = rank ->
  in_bounds_and_distinct dims ls ld d2s sb db (length src) (length dst) ->
  do_transpose oob big src sb dst db s2d d2s dims (permuted 0 d2s dims) ls ld rank (fold_right Nat.mul 1 dims) parity =
  do_transpose oob' big src sb dst db s2d d2s dims (permuted 0 d2s dims) ls ld rank (fold_right Nat.mul 1 dims) parity.
Proof. exact @transpose_oob_irrelevant. Qed.
Print Assumptions C06_result_independent_of_stray_read.
