(** Factorisations of some matrices of rational numbers, and a row of three sites with environments, for the examples. *)
From Coq Require Import String List Bool Arith ZArith QArith Qabs Qcanon Lia.
From Coq Require Qcabs.
From Verif Require Import Base.Outcome Base.SMap Model.Symmetry Model.Edge Model.Core Model.EdgeOperator Model.Contract Model.Qr Model.Svd Model.Auxiliaries Model.Spins Model.SimpleTensor
  Spec.Contract Spec.Matrix Spec.Plain Spec.Lapack Spec.Grid Spec.SquareLattice Spec.SpinLattice Spec.Factor Spec.Truncate Spec.Svd Spec.ExactState Spec.WeightedLattice Spec.ExactOperator Spec.LocalUpdate Proof.ExFilled Proof.ScalarQ Proof.ExExact Proof.ExObserve
  Proof.SumBonds Proof.GridSum Proof.ExactVector.
From Verif Require Model.SimpleUpdate Proof.SimpleUpdateFacts Proof.SymmetryFacts Proof.SpinFacts.
#[local] Existing Instance SimpleUpdateFacts.OrdLaws_direction.
Import ListNotations.
Local Open Scope nat_scope.

(** qr of matrices of one row, lq of matrices of one column *)
Definition qqr : qr_lapack Qc := mkQrLapack Qc
  (fun m n A => if Nat.eqb m 1 then Some (A, []) else None) (fun m n A => if Nat.eqb n 1 then Some (A, []) else None)
  (fun m n k A tau => Some (1%Qc :: nil)) (fun m n k A tau => Some (1%Qc :: nil)).
Lemma qqr_sound : qr_sound qqr.
Proof.
  constructor.
  - intros m n A A' tau Hm Hn HA HG. cbn [geqrf qqr] in HG. destruct (Nat.eqb_spec m 1) as [-> |]; [|discriminate]. injection HG as <- <-. split; [exact HA|]. cbv zeta. replace (Nat.min 1 n) with 1 by lia.
    intros Q HQ. injection HQ as <-. split; [reflexivity|]. split.
    + intros a b Ha Hb. replace a with 0 by lia. replace b with 0 by lia. reflexivity.
    + intros i j Hi Hj. replace i with 0 by lia. cbn [seq map Nat.leb]. unfold rsum. cbn [fold_right]. unfold by_columns at 2. cbn [nth Nat.add Nat.mul]. cbn [radd rmul rzero Scalar_Q]. ring.
  - intros m n A A' tau Hm Hn HA HG. cbn [gelqf qqr] in HG. destruct (Nat.eqb_spec n 1) as [-> |]; [|discriminate]. injection HG as <- <-. split; [exact HA|]. cbv zeta. replace (Nat.min m 1) with 1 by lia.
    intros B Q _ _ HQ. injection HQ as <-. split; [reflexivity|]. split.
    + intros a b Ha Hb. replace a with 0 by lia. replace b with 0 by lia. reflexivity.
    + intros i j Hi Hj. replace j with 0 by lia. cbn [seq map Nat.leb]. unfold rsum. cbn [fold_right]. unfold by_columns at 3. cbn [nth Nat.add Nat.mul]. cbn [radd rmul rzero Scalar_Q]. ring.
Qed.
(** svd of diagonal matrices of two rows and two columns *)
Definition qsvd (m n : nat) (A : list Qc) : bool * (list Qc * list Qc * list Qc) :=
  match m, n, A with
  | 2, 2, [a; b; c; d] => if Qc_eq_bool b 0 && Qc_eq_bool c 0 && negb (qgreater d a) && negb (qgreater 0%Qc d) then (true, ([a; d], [1; 0; 0; 1], [1; 0; 0; 1])%Qc) else (false, ([0; 0], [0; 0; 0; 0], [0; 0; 0; 0])%Qc)
  | _, _, _ => (false, (repeat 0%Qc (Nat.min m n), repeat 0%Qc (m * Nat.min m n), repeat 0%Qc (Nat.min m n * n)))
  end.
Lemma qsvd_cases : forall m n A, (exists a d, m = 2 /\ n = 2 /\ A = [a; 0; 0; d]%Qc /\ qgreater d a = false /\ qgreater 0%Qc d = false /\ qsvd m n A = (true, ([a; d], [1; 0; 0; 1], [1; 0; 0; 1])%Qc)) \/
  exists s U VT, qsvd m n A = (false, (s, U, VT)) /\ length s = Nat.min m n /\ length U = m * Nat.min m n /\ length VT = Nat.min m n * n.
Proof.
  intros m n A.
  assert (G : exists s U VT, (false, (repeat 0%Qc (Nat.min m n), repeat 0%Qc (m * Nat.min m n), repeat 0%Qc (Nat.min m n * n))) = (false, (s, U, VT)) /\ length s = Nat.min m n /\ length U = m * Nat.min m n /\ length VT = Nat.min m n * n).
  { eexists _, _, _. split; [reflexivity|]. now rewrite !repeat_length. }
  destruct m as [|[|[|m]]]; try (now right). destruct n as [|[|[|n]]]; try (now right). destruct A as [|a [|b [|c [|d [|? ?]]]]]; try (now right).
  cbn [qsvd]. destruct (Qc_eq_bool b 0 && Qc_eq_bool c 0 && negb (qgreater d a) && negb (qgreater 0%Qc d)) eqn:Q.
  - apply andb_true_iff in Q as [Q Q4]. apply andb_true_iff in Q as [Q Q3]. apply andb_true_iff in Q as [Q1 Q2]. apply Qc_eq_bool_correct in Q1, Q2. subst. apply negb_true_iff in Q3, Q4. left. exists a, d. repeat split; auto.
  - right. eexists _, _, _. split; [reflexivity|]. repeat split.
Qed.
Lemma qsvd_sound : svd_sound (fun x => x) 0%Qc qgreater qsvd.
Proof.
  constructor; intros m n A.
  - intros ok s U VT Hm Hn HA H. destruct (qsvd_cases m n A) as [[a [d [-> [-> [-> [_ [_ C]]]]]]]|[s' [U' [VT' [C X]]]]]; rewrite C in H; injection H as <- <- <- <-; auto.
  - intros s U VT Hm Hn HA H. destruct (qsvd_cases m n A) as [[a [d [-> [-> [-> [G1 [G2 C]]]]]]]|[s' [U' [VT' [C X]]]]]; rewrite C in H; [injection H as <- <- <-|discriminate H].
    cbn [Nat.min]. cbv zeta. split; [|split; [|split; [|split]]].
    + intros i j Hi Hj. assert (Di : (i = 0 \/ i = 1) /\ (j = 0 \/ j = 1)) by lia. destruct Di as [[-> | ->] [-> | ->]]; unfold rsum, by_columns; cbn [seq map fold_right nth Nat.add Nat.mul radd rmul rzero Scalar_Q]; ring.
    + intros i j Hi Hj. assert (Di : (i = 0 \/ i = 1) /\ (j = 0 \/ j = 1)) by lia. destruct Di as [[-> | ->] [-> | ->]]; reflexivity.
    + intros i j Hi Hj. assert (Di : (i = 0 \/ i = 1) /\ (j = 0 \/ j = 1)) by lia. destruct Di as [[-> | ->] [-> | ->]]; reflexivity.
    + intros i j x y Hij Hx Hy. destruct i as [|[|i]], j as [|[|j]]; try lia; cbn in Hx, Hy; try discriminate; try (destruct j; discriminate); try (destruct i; discriminate); injection Hx as <-; injection Hy as <-; auto; apply (so_irrefl _ q_order).
    + intros x [<-|[<-|[]]]; [|exact G2]. apply qle. apply qle in G1, G2. now apply (Qcle_trans _ d).
Qed.
Lemma q_real : real_division 0%Qc qgreater (fun x => x) Qcabs.Qcabs Qcdiv.
Proof. constructor; [reflexivity|]. intros x H. exact (m_zero _ _ _ _ q_modulus x H). Qed.

(** a row of three sites; all bonds of dimension one; a weight on the second bond *)
Definition dim85 (b : bond) : nat := 1.
Definition edges85 (j : nat) : list nat := [phys] ++ match j with 0 => [] | S j' => [nm Lft 0] end ++ (if 1 + j <? 3 then [nm Rgt 0] else []).
Definition make85 (f : nat -> Qc) (j : nat) : tensor unit Qc := filled (edges85 j) (map (fun n => mkEdge false [(tt, if Nat.eqb n phys then 2 else 1)]) (edges85 j)) (fun _ p => f p).
Definition T85 (i j : nat) : tensor unit Qc := make85 (fun p => q_int (nth p (nth j [[1; 1]; [1; 2]; [3; -1]]%Z []) 0%Z)) j.
Definition x85 : SimpleUpdate.network (res (tensor unit Qc)) (res (list (unit * list Qc))) :=
  SimpleUpdate.mkNetwork (map (map Ok) (lattice_of 1 3 T85)) [(bond_key (Right_of 0 1), Ok [(tt, [q_int 3])])].
Lemma fits85 : forall f j, j < 3 -> fits_spin 1 3 dim85 2 0 j (make85 f j).
Proof.
  intros f j Hj. assert (D : j = 0 \/ j = 1 \/ j = 2) by lia. clear Hj. destruct D as [-> |[-> | ->]];
    (constructor; [now apply (filled_wf _ _ _ _ _)|discriminate|reflexivity|reflexivity|reflexivity|reflexivity|reflexivity|intros n Hn; cbn in Hn; cbn; intuition]).
Qed.
Lemma simple85 : simple_lattice 1 3 2 dim85 T85 x85.
Proof.
  constructor; [reflexivity|intros [|i] j Hi Hj; [now apply fits85|lia]|].
  intros k s H. cbn [x85 SimpleUpdate.environment mfind] in H. destruct (eqb k (bond_key (Right_of 0 1))) eqn:Q; [|discriminate H]. injection H as <-. apply eqb_eq in Q. subst k. exists (Right_of 0 1), [q_int 3]. repeat split. cbn. auto.
Qed.
Lemma weights85 : weights_around 1 3 dim85 (weight_on (fun x : Qc => x) x85) (Right_of 0 0).
Proof.
  intros b k Hb Hn _ Hk. replace k with 0 by (unfold dim85 in Hk; lia). cbn in Hb. destruct Hb as [<-|[<-|[]]]; [congruence|]. vm_compute. discriminate.
Qed.

(** the wave function that a lattice holds is determined by the lattice *)
Section Unique.
  Context {R V : Type} {RR : Scalar R}.
  Notation net := (SimpleUpdate.network (res (tensor unit R)) (res (list (unit * list V)))).
  Variables (M N d : nat) (x : net) (dim1 dim2 : bond -> nat) (T1 T2 : nat -> nat -> tensor unit R).
  Hypotheses (H1 : simple_lattice M N d dim1 T1 x) (H2 : simple_lattice M N d dim2 T2 x).
  Lemma sites_unique : forall i j, i < M -> j < N -> T1 i j = T2 i j.
  Proof.
    intros i j Hi Hj. assert (E := s_lattice _ _ _ _ _ _ H1). rewrite (s_lattice _ _ _ _ _ _ H2) in E. unfold lattice_of in E. rewrite !map_map in E.
    apply (f_equal (fun l => nth i l [])) in E. rewrite !(nth_indep _ [] (map Ok (map (T1 0) (seq 0 N)))) in E by now rewrite map_length, seq_length.
    assert (F : forall T : nat -> nat -> tensor unit R, nth i (map (fun i => map Ok (map (T i) (seq 0 N))) (seq 0 M)) (map Ok (map (T1 0) (seq 0 N))) = map Ok (map (T i) (seq 0 N))).
    { intro T. rewrite (nth_indep _ _ (map Ok (map (T 0) (seq 0 N)))) by now rewrite map_length, seq_length. rewrite (map_nth (fun i => map Ok (map (T i) (seq 0 N)))). now rewrite seq_nth. }
    rewrite !F in E. rewrite !map_map in E. apply (f_equal (fun l => nth j l UB)) in E.
    assert (G : forall T : nat -> nat -> tensor unit R, nth j (map (fun j => Ok (T i j)) (seq 0 N)) UB = Ok (T i j)).
    { intro T. rewrite (nth_indep _ _ (Ok (T i 0))) by now rewrite map_length, seq_length. rewrite (map_nth (fun j => Ok (T i j))). now rewrite seq_nth. }
    rewrite !G in E. now injection E.
  Qed.
  Lemma dims_unique : forall b, In b (bonds M N) -> dim1 b = dim2 b.
  Proof.
    intros [i j|i j] Hb; apply in_bonds in Hb; cbn [inner] in Hb; apply andb_true_iff in Hb; rewrite !Nat.ltb_lt in Hb.
    - assert (Hi : i < M) by lia. assert (Hj : j < N) by lia. assert (A := p_right _ _ _ _ _ _ _ (s_site _ _ _ _ _ _ H1 i j Hi Hj)). rewrite (sites_unique i j Hi Hj), (p_right _ _ _ _ _ _ _ (s_site _ _ _ _ _ _ H2 i j Hi Hj)) in A.
      rewrite (proj2 (Nat.ltb_lt (1 + j) N)) in A by lia. now injection A.
    - assert (Hi : i < M) by lia. assert (Hj : j < N) by lia. assert (A := p_down _ _ _ _ _ _ _ (s_site _ _ _ _ _ _ H1 i j Hi Hj)). rewrite (sites_unique i j Hi Hj), (p_down _ _ _ _ _ _ _ (s_site _ _ _ _ _ _ H2 i j Hi Hj)) in A.
      rewrite (proj2 (Nat.ltb_lt (1 + i) M)) in A by lia. now injection A.
  Qed.
  Lemma wave_unique : forall w s, weighted_wave M N dim1 T1 w s = weighted_wave M N dim2 T2 w s.
  Proof.
    intros w s. unfold weighted_wave. rewrite (Over_dim dim1 dim2) by exact dims_unique. apply (Over_ext bond_eqb bond_spec). intros q _. f_equal. f_equal. apply map_ext_in. intros [i j] H. apply SpinFacts.in_all_sites in H. unfold site_factor. now rewrite sites_unique.
  Qed.
End Unique.

Definition U85 : tensor unit Qc := operator83 2 (fun p => q_int (nth p [3; 2; 0; 0; 1; -1; 1; 0; 0; 0; 0; 2; 0; 0; -1; 0]%Z 0%Z)).
Definition J85 := mkInternal 1 2 3 5 6 7.
