(** A singular value decomposition of integer matrices that are diagonal already, with entries of descending absolute value: U holds
    the signs, VT is the identity.  For the examples. *)
From Coq Require Import List Bool Arith ZArith Lia.
From Verif Require Import Base.Outcome Model.Core Model.Svd Spec.Contract Spec.Matrix Spec.Lapack Spec.Truncate Spec.Svd Proof.ScalarZ Proof.ExQr.
Import ListNotations.
Local Open Scope nat_scope.

Definition zgreater (x y : Z) : bool := Z.ltb y x.
Definition diagonal (m k : nat) (A : list Z) : list Z := map (fun l => nth (l + l * m) A 0%Z) (seq 0 k).
Fixpoint falling (l : list Z) : bool := match l with x :: ((y :: _) as l') => Z.leb y x && falling l' | _ => true end.
Definition off (m n : nat) : list nat := filter (fun p => negb (Nat.eqb (p mod m) (p / m))) (seq 0 (m * n)).
Definition sign_of (x : Z) : Z := if Z.ltb x 0 then (-1)%Z else 1%Z.
(** m rows, n columns; e on the diagonal *)
Definition on_diagonal (m n : nat) (e : nat -> Z) : list Z := map (fun p => if Nat.eqb (p mod m) (p / m) then e (p mod m) else 0%Z) (seq 0 (m * n)).
Definition zsvd (m n : nat) (A : list Z) : bool * (list Z * list Z * list Z) :=
  let k := Nat.min m n in
  if zeros A (off m n) && falling (map Z.abs (diagonal m k A))
  then (true, (map Z.abs (diagonal m k A), on_diagonal m k (fun i => sign_of (nth (i + i * m) A 0%Z)), on_diagonal k n (fun _ => 1%Z)))
  else (false, (repeat 0%Z k, repeat 0%Z (m * k), repeat 0%Z (k * n))).

Lemma diag_at : forall m n e i j, i < m -> j < n -> by_columns m (on_diagonal m n e) i j = if Nat.eqb i j then e i else 0%Z.
Proof.
  intros m n e i j Hi Hj. unfold by_columns, on_diagonal. pose proof (cell_bound m n i j Hi Hj) as Hb. destruct (cell_div m i j Hi) as [D1 D2].
  set (f := fun p => if Nat.eqb (p mod m) (p / m) then e (p mod m) else 0%Z).
  rewrite (nth_indep _ _ (f 0)) by now rewrite map_length, seq_length. rewrite map_nth, seq_nth by exact Hb. unfold f. now rewrite Nat.add_0_l, D1, D2.
Qed.
Lemma pick_one : forall (k i : nat) (f : nat -> Z), (forall l, l < k -> l <> i -> f l = 0%Z) -> rsum (map f (seq 0 k)) = if Nat.ltb i k then f i else 0%Z.
Proof.
  intros k i f. change (rsum (R:=Z)) with (fold_right Z.add 0%Z).
  assert (G : forall k b, (forall l, b <= l < b + k -> l <> i -> f l = 0%Z) -> fold_right Z.add 0%Z (map f (seq b k)) = if Nat.leb b i && Nat.ltb i (b + k) then f i else 0%Z).
  { induction k0 as [|k0 IH]; intros b H; cbn [seq map fold_right].
    - destruct (Nat.leb_spec b i), (Nat.ltb_spec i (b + 0)); cbn; try reflexivity; lia.
    - rewrite IH by (intros l Hl; apply H; lia). destruct (Nat.eq_dec b i) as [->|N].
      + destruct (Nat.leb_spec i i), (Nat.leb_spec (Datatypes.S i) i), (Nat.ltb_spec i (Datatypes.S i + k0)), (Nat.ltb_spec i (i + Datatypes.S k0)); cbn [andb]; try lia.
      + rewrite (H b) by lia. destruct (Nat.leb_spec b i), (Nat.leb_spec (Datatypes.S b) i), (Nat.ltb_spec i (Datatypes.S b + k0)), (Nat.ltb_spec i (b + Datatypes.S k0)); cbn [andb]; try lia. }
  intro H. rewrite G by (intros l Hl; apply H; lia). destruct (Nat.leb_spec 0 i); [|lia]. now rewrite Nat.add_0_l.
Qed.
Lemma diagonal_at : forall m k A l, l < k -> nth l (map Z.abs (diagonal m k A)) 0%Z = Z.abs (nth (l + l * m) A 0%Z).
Proof.
  intros m k A l Hl. change 0%Z with (Z.abs 0) at 1. rewrite map_nth. f_equal. unfold diagonal. set (f := fun l => nth (l + l * m) A 0%Z).
  rewrite (nth_indep _ _ (f 0)) by now rewrite map_length, seq_length. now rewrite map_nth, seq_nth.
Qed.
Lemma falling_desc : forall l, falling l = true -> descending zgreater l.
Proof.
  induction l as [|x l IH]; intros H; [intros [|i] j a b _ Ha; discriminate|].
  assert (Hx : forall j b, nth_error l j = Some b -> (b <= x)%Z).
  { clear IH. revert x H. induction l as [|y l IH]; intros x H j b Hb; [destruct j; discriminate|]. cbn [falling] in H. apply andb_prop in H as [H1 H2]. apply Z.leb_le in H1.
    destruct j as [|j]; [injection Hb as <-; exact H1|]. specialize (IH y H2 j b Hb). lia. }
  assert (Hl : falling l = true) by (destruct l; [reflexivity|]; cbn [falling] in H; now apply andb_prop in H).
  intros i j a b Hij Ha Hb. destruct i as [|i].
  - injection Ha as <-. destruct j as [|j]; [injection Hb as <-; unfold zgreater; apply Z.ltb_irrefl|]. unfold zgreater. apply Z.ltb_ge. now apply (Hx j).
  - destruct j as [|j]; [lia|]. apply (IH Hl i j a b); [lia|exact Ha|exact Hb].
Qed.
Lemma sign_square : forall x, (sign_of x * sign_of x = 1)%Z.
Proof. intro x. unfold sign_of. now destruct (Z.ltb x 0). Qed.
Lemma sign_abs : forall x, (sign_of x * Z.abs x = x)%Z.
Proof. intro x. unfold sign_of. destruct (Z.ltb_spec x 0); lia. Qed.

Lemma zsvd_sound : svd_sound (fun x => x) 0%Z zgreater zsvd.
Proof.
  constructor.
  - intros m n A ok s U VT Hm Hn HA H. unfold zsvd in H. destruct (_ && _); injection H as <- <- <- <-; unfold on_diagonal, diagonal; rewrite ?map_length, ?seq_length, ?repeat_length; auto.
  - intros m n A s U VT Hm Hn HA H k. unfold zsvd in H. fold k in H. destruct (zeros A (off m n)) eqn:Hz; [|discriminate]. destruct (falling _) eqn:Hf; [|discriminate]. injection H as <- <- <-.
    assert (Z0 : forall i j, i < m -> j < n -> i <> j -> nth (i + j * m) A 0%Z = 0%Z).
    { intros i j Hi Hj Hne. apply (zero_at A m n (fun r c => negb (Nat.eqb r c))); auto. apply negb_true_iff, Nat.eqb_neq, Hne. }
    assert (kr : k <= m /\ k <= n) by (unfold k; lia). destruct kr as [km kn].
    split; [|split; [|split; [|split]]].
    + intros i j Hi Hj. unfold by_columns at 1. change (rzero : Z) with 0%Z.
      rewrite (map_ext_in _ (fun l => (if Nat.eqb i l then sign_of (nth (i + i * m) A 0) else 0) * Z.abs (nth (l + l * m) A 0) * (if Nat.eqb l j then 1 else 0))%Z).
      2: { intros l Hl. apply in_seq in Hl. rewrite diag_at, diag_at, diagonal_at by lia. reflexivity. }
      rewrite (pick_one k i) by (intros l _ Hne; destruct (Nat.eqb_spec i l); [congruence|lia]). rewrite Nat.eqb_refl, sign_abs.
      destruct (Nat.eqb_spec i j) as [<-|Hne].
      * destruct (Nat.ltb_spec i k); [lia|unfold k in *; lia].
      * rewrite Z.mul_0_r. destruct (Nat.ltb i k); now apply Z0.
    + intros a b Ha Hb. rewrite (map_ext_in _ (fun i => (if Nat.eqb i a then sign_of (nth (i + i * m) A 0) else 0) * (if Nat.eqb i b then sign_of (nth (i + i * m) A 0) else 0))%Z).
      2: { intros l Hl. apply in_seq in Hl. rewrite !diag_at by lia. reflexivity. }
      rewrite (pick_one m a) by (intros l _ Hne; destruct (Nat.eqb_spec l a); [congruence|lia]). rewrite Nat.eqb_refl. destruct (Nat.ltb_spec a m); [|lia]. unfold ident. destruct (Nat.eqb a b); [apply sign_square|apply Z.mul_0_r].
    + intros a b Ha Hb. rewrite (map_ext_in _ (fun j => (if Nat.eqb a j then 1 else 0) * (if Nat.eqb b j then 1 else 0))%Z).
      2: { intros l Hl. apply in_seq in Hl. rewrite !diag_at by lia. reflexivity. }
      rewrite (pick_one n a) by (intros l _ Hne; destruct (Nat.eqb_spec a l); [congruence|lia]). rewrite Nat.eqb_refl. destruct (Nat.ltb_spec a n); [|lia]. unfold ident. rewrite (Nat.eqb_sym b a). now destruct (Nat.eqb a b).
    + now apply falling_desc.
    + intros x Hx. apply in_map_iff in Hx as [y [<- _]]. unfold zgreater. apply Z.ltb_ge. lia.
Qed.
Lemma associative_Z : associative_product Z.
Proof. intros x y z. cbn. lia. Qed.
Lemma zgreater_order : strict_order zgreater.
Proof. unfold zgreater. constructor; intros; rewrite ?Z.ltb_lt in *; [apply Z.ltb_irrefl|lia|lia]. Qed.
