(** A QR factorisation of integer matrices that are triangular already: Q is minus the identity.  For the examples. *)
From Coq Require Import List Bool Arith ZArith Lia.
From Verif Require Import Base.Outcome Model.Core Model.Qr Spec.Contract Spec.FermiContract Spec.Matrix Spec.Lapack Proof.ScalarZ.
Import ListNotations.
Local Open Scope nat_scope.

(** the given cells are zero *)
Definition zeros (A : list Z) (cells : list nat) : bool := forallb (fun p => Z.eqb (nth p A 0%Z) 0) cells.
(** cells of the strict lower and upper triangle of a matrix of m rows *)
Definition below (m n : nat) : list nat := filter (fun p => Nat.ltb (p / m) (p mod m)) (seq 0 (m * n)).
Definition above (m n : nat) : list nat := filter (fun p => Nat.ltb (p mod m) (p / m)) (seq 0 (m * n)).
Definition minus_one (m n : nat) : list Z := map (fun p => if Nat.eqb (p mod m) (p / m) then (-1)%Z else 0%Z) (seq 0 (m * n)).
Definition zqr : qr_lapack Z := mkQrLapack Z
  (fun m n A => if zeros A (below m n) then Some (map Z.opp A, []) else None)
  (fun m n A => if zeros A (above m n) then Some (map Z.opp A, []) else None)
  (fun m n _ _ _ => Some (minus_one m n)) (fun m n _ _ _ => Some (minus_one m n)).

Lemma minus_length : forall m n, length (minus_one m n) = m * n.
Proof. intros. unfold minus_one. now rewrite map_length, seq_length. Qed.
Lemma cell_bound : forall m n i j, i < m -> j < n -> i + j * m < m * n.
Proof. intros. apply Nat.lt_le_trans with (m + j * m); [lia|]. replace (m * n) with (n * m) by apply Nat.mul_comm. change (m + j * m) with (Datatypes.S j * m). now apply Nat.mul_le_mono_r. Qed.
Lemma cell_div : forall m i j, i < m -> (i + j * m) / m = j /\ (i + j * m) mod m = i.
Proof. intros. split; [rewrite Nat.div_add by lia; rewrite Nat.div_small by lia; reflexivity|rewrite Nat.mod_add by lia; now apply Nat.mod_small]. Qed.
Lemma minus_at : forall m n i j, i < m -> j < n -> by_columns m (minus_one m n) i j = if Nat.eqb i j then (-1)%Z else 0%Z.
Proof.
  intros m n i j Hi Hj. unfold by_columns, minus_one. pose proof (cell_bound m n i j Hi Hj) as Hb. destruct (cell_div m i j Hi) as [D1 D2].
  set (f := fun p => if Nat.eqb (p mod m) (p / m) then (-1)%Z else 0%Z).
  rewrite (nth_indep _ _ (f 0)) by now rewrite map_length, seq_length. rewrite map_nth, seq_nth by exact Hb. unfold f. now rewrite Nat.add_0_l, D1, D2.
Qed.
Lemma pick : forall (k i : nat) (g h : nat -> Z), (forall l, l < k -> g l = (if Nat.eqb i l then (-1)%Z else 0%Z)) ->
  rsum (map (fun l => rmul (g l) (h l)) (seq 0 k)) = if Nat.ltb i k then (- h i)%Z else 0%Z.
Proof.
  intros k i g h. change (rsum (R:=Z)) with (fold_right Z.add 0%Z). change (rmul (R:=Z)) with Z.mul.
  assert (G : forall k b, (forall l, b <= l < b + k -> g l = (if Nat.eqb i l then (-1)%Z else 0%Z)) ->
    fold_right Z.add 0%Z (map (fun l => (g l * h l)%Z) (seq b k)) = if Nat.leb b i && Nat.ltb i (b + k) then (- h i)%Z else 0%Z).
  { induction k0 as [|k0 IH]; intros b H; cbn [seq map fold_right].
    - destruct (Nat.leb_spec b i), (Nat.ltb_spec i (b + 0)); cbn; try reflexivity; lia.
    - rewrite IH by (intros l Hl; apply H; lia). rewrite (H b) by lia.
      destruct (Nat.eqb_spec i b), (Nat.leb_spec b i), (Nat.leb_spec (Datatypes.S b) i), (Nat.ltb_spec i (Datatypes.S b + k0)), (Nat.ltb_spec i (b + Datatypes.S k0)); cbn [andb]; subst; try lia. }
  intro H. rewrite G by (intros l Hl; apply H; lia). destruct (Nat.leb_spec 0 i); [|lia]. now rewrite Nat.add_0_l.
Qed.
Lemma zero_at : forall A m n (P : nat -> nat -> bool) i j, zeros A (filter (fun p => P (p mod m) (p / m)) (seq 0 (m * n))) = true -> i < m -> j < n -> P i j = true -> nth (i + j * m) A 0%Z = 0%Z.
Proof.
  intros A m n P i j H Hi Hj HP. unfold zeros in H. rewrite forallb_forall in H. apply Z.eqb_eq, H. apply filter_In. destruct (cell_div m i j Hi) as [D1 D2]. rewrite D1, D2. split; [|exact HP].
  apply in_seq. pose proof (cell_bound m n i j Hi Hj). lia.
Qed.
Lemma opp_at : forall (A : list Z) p, nth p (map Z.opp A) 0%Z = (- nth p A 0)%Z.
Proof. intros. change 0%Z with (Z.opp 0) at 1. apply map_nth. Qed.

Lemma zqr_sound : qr_sound zqr.
Proof.
  constructor.
  - intros m n A A' tau Hm Hn HA HG. cbn [geqrf zqr] in HG. destruct (zeros A (below m n)) eqn:Hz; [|discriminate]. injection HG as <- <-. split; [now rewrite map_length|].
    intros k Q HQ. cbn [orgqr zqr] in HQ. injection HQ as <-. split; [apply minus_length|]. split.
    + intros a b Ha Hb. rewrite (pick m a (fun i => rconj (by_columns m (minus_one m k) i a)) (fun i => by_columns m (minus_one m k) i b)).
      * destruct (Nat.ltb_spec a m); [|unfold k in Ha; lia]. rewrite minus_at by assumption. unfold ident. cbn. now destruct (Nat.eqb a b).
      * intros l Hl. cbn. rewrite minus_at by assumption. now rewrite Nat.eqb_sym.
    + intros i j Hi Hj. rewrite (pick k i (fun l => by_columns m (minus_one m k) i l)) by (intros; now rewrite minus_at). unfold by_columns. change (rzero : Z) with 0%Z.
      destruct (Nat.ltb_spec i k) as [Hik|Hik].
      * rewrite opp_at. destruct (Nat.leb_spec i j); [lia|]. cbn. apply (zero_at A m n (fun r c => Nat.ltb c r)); auto. now apply Nat.ltb_lt.
      * apply (zero_at A m n (fun r c => Nat.ltb c r)); auto. apply Nat.ltb_lt. unfold k in Hik. lia.
  - intros m n A A' tau Hm Hn HA HG. cbn [gelqf zqr] in HG. destruct (zeros A (above m n)) eqn:Hz; [|discriminate]. injection HG as <- <-. split; [now rewrite map_length|].
    intros k B Q HB HBA HQ. cbn [orglq zqr] in HQ. injection HQ as <-. split; [apply minus_length|]. split.
    + intros a b Ha Hb. rewrite (pick n a (fun j => by_columns k (minus_one k n) a j) (fun j => rconj (by_columns k (minus_one k n) b j))).
      * destruct (Nat.ltb_spec a n); [|unfold k in Ha; lia]. rewrite minus_at by assumption. unfold ident. cbn. rewrite (Nat.eqb_sym b a). now destruct (Nat.eqb a b).
      * intros l Hl. now rewrite minus_at by assumption.
    + intros i j Hi Hj. rewrite (map_ext_in _ (fun l => rmul (by_columns k (minus_one k n) l j) (if Nat.leb l i then by_columns m (map Z.opp A) i l else rzero))) by (intros; apply Z.mul_comm).
      rewrite (pick k j (fun l => by_columns k (minus_one k n) l j)) by (intros l Hl; rewrite minus_at by assumption; now rewrite Nat.eqb_sym). unfold by_columns. change (rzero : Z) with 0%Z.
      destruct (Nat.ltb_spec j k) as [Hik|Hik].
      * rewrite opp_at. destruct (Nat.leb_spec j i); [lia|]. cbn. apply (zero_at A m n (fun r c => Nat.ltb r c)); auto. now apply Nat.ltb_lt.
      * apply (zero_at A m n (fun r c => Nat.ltb r c)); auto. apply Nat.ltb_lt. unfold k in Hik. lia.
Qed.
Lemma negation_Z : exact_negation Z.
Proof. constructor; intros; cbn; lia. Qed.
Lemma conjugation_Z : exact_conjugation Z.
Proof. constructor; intros; reflexivity. Qed.
