(** Seeds of processes. *)
From Coq Require Import List Bool Arith NArith ZArith Lia.
From Verif Require Import Base.Outcome Model.Mpi Model.Seeds Spec.Runs Spec.Seeds Proof.Network Proof.MpiFacts.
Import ListNotations.
Local Open Scope N_scope.

Section Same.
  Context {engine : Type} (engine_seed : N -> engine) (pick : engine -> N * engine).
  Lemma bcast_all : forall size (val : nat -> N), (0 < size)%nat ->
    always_reaches (launch size (fun r => broadcast size r 0%Z (val r) (fun s => Stop (Ok (engine_seed s))))) (finished size (fun _ => Stop (Ok (engine_seed (val 0%nat))))).
  Proof.
    intros size val H. apply meets_always.
    - apply (finished_stopped size (fun _ => Ok (engine_seed (val 0%nat)))).
    - apply (broadcast_step size 0%Z val (fun _ s => Stop (Ok (engine_seed s)))). unfold valid_root. apply andb_true_intro. split; [reflexivity|]. apply Z.ltb_lt. lia.
  Qed.
  Theorem seed_zero : forall size (device : nat -> N), (0 < size)%nat ->
    always_reaches (launch size (fun r => seed engine_seed size r (device r) 0)) (finished size (fun _ => Stop (Ok (engine_seed (device 0%nat))))).
  Proof. intros size device H. exact (bcast_all size (fun r => if Nat.eqb r 0 then (if 0 =? 0 then device r else 0) else 0) H). Qed.
  Theorem seed_given : forall size (device s : nat -> N), (forall r, (r < size)%nat -> s r <> 0) ->
    always_reaches (launch size (fun r => seed engine_seed size r (device r) (s r))) (finished size (fun r => Stop (Ok (engine_seed (s r))))).
  Proof.
    intros size device s H. apply meets_always; [apply (finished_stopped size (fun r => Ok (engine_seed (s r))))|].
    replace (launch size (fun r => seed engine_seed size r (device r) (s r))) with (finished size (fun r => Stop (V := N) (Ok (engine_seed (s r))))); [apply m_refl|].
    unfold finished, launch. f_equal. apply map_ext_in. intros r Hr. apply in_seq in Hr. unfold seed. destruct (N.eqb_spec (s r) 0) as [Q|_]; [|reflexivity]. exfalso. apply (H r); [lia|exact Q].
  Qed.
  Theorem merge_all : (forall e, 1 <= fst (pick e)) -> forall size (device : nat -> N) (e : nat -> engine), (0 < size)%nat ->
    always_reaches (launch size (fun r => merge_seed engine_seed pick size r (device r) (e r))) (finished size (fun _ => Stop (Ok (engine_seed (fst (pick (e 0%nat))))))).
  Proof.
    intros HP size device e H. assert (B := bcast_all size (fun r => if Nat.eqb r 0 then (if fst (pick (e r)) =? 0 then device r else fst (pick (e r))) else fst (pick (e r))) H). cbn [Nat.eqb] in B.
    destruct (N.eqb_spec (fst (pick (e 0%nat))) 0) as [Q|_]; [specialize (HP (e 0%nat)); lia|exact B].
  Qed.
End Same.

Section Minstd.
  Notation m := modulus_minstd.
  Lemma next_inj : forall x y, 0 < x < m -> 0 < y < m -> minstd_next x = minstd_next y -> x = y.
  Proof.
    intros x y Hx Hy H. unfold minstd_next in H.
    assert (K : forall z, 0 < z < m -> (1407677000 * ((16807 * z) mod m)) mod m = z).
    { intros z Hz. rewrite N.mul_mod_idemp_r by discriminate. rewrite N.mul_assoc. rewrite <- N.mul_mod_idemp_l by discriminate. change ((1407677000 * 16807) mod m) with 1. rewrite N.mul_1_l. apply N.mod_small. lia. }
    rewrite <- (K x Hx), <- (K y Hy), H. reflexivity.
  Qed.
  Lemma next_range : forall x, 0 < x < m -> 0 < minstd_next x < m.
  Proof.
    intros x Hx. split; [|apply N.mod_lt; discriminate]. destruct (N.eq_dec (minstd_next x) 0) as [Q|Q]; [|lia]. exfalso.
    assert (K : (1407677000 * ((16807 * x) mod m)) mod m = x).
    { rewrite N.mul_mod_idemp_r by discriminate. rewrite N.mul_assoc. rewrite <- N.mul_mod_idemp_l by discriminate. change ((1407677000 * 16807) mod m) with 1. rewrite N.mul_1_l. apply N.mod_small. lia. }
    unfold minstd_next in Q. rewrite Q in K. change ((1407677000 * 0) mod m) with 0 in K. lia.
  Qed.
  Lemma iter_inj : forall k x y, 0 < x < m -> 0 < y < m -> Nat.iter k minstd_next x = Nat.iter k minstd_next y -> x = y.
  Proof.
    assert (RG : forall k x, 0 < x < m -> 0 < Nat.iter k minstd_next x < m). { induction k as [|k IH]; intros x Hx; [exact Hx|]. apply next_range. now apply IH. }
    induction k as [|k IH]; intros x y Hx Hy H; [exact H|]. cbn [Nat.iter nat_rect] in H. apply next_inj in H; [now apply IH|now apply RG|now apply RG].
  Qed.
  Lemma seed_range : forall s, 0 < minstd_seed s < m.
  Proof. intros s. unfold minstd_seed. assert (s mod m < m) by (apply N.mod_lt; discriminate). destruct (N.eqb_spec (s mod m) 0) as [Q|Q]; [split; reflexivity|]. split; [now apply N.neq_0_lt_0|assumption]. Qed.
  Lemma window : forall a b, a < b -> (forall c, a < c <= b -> c mod m <> 0) -> a mod m <> b mod m.
  Proof.
    intros a b Hab H Q. assert (D1 := N.div_mod a m ltac:(discriminate)). assert (D2 := N.div_mod b m ltac:(discriminate)). assert (L := N.mod_lt b m ltac:(discriminate)).
    assert (Z0 : (m * (b / m)) mod m = 0) by (rewrite N.mul_comm; apply N.mod_mul; discriminate).
    rewrite <- Q in D2, L. apply (H (m * (b / m))); [|exact Z0]. clear H Q Z0. generalize dependent (a mod m). generalize (a / m), (b / m). intros p q r Da Db Hr. unfold modulus_minstd in *. lia.
  Qed.
  Theorem split_different : forall (pick : N -> N * N) (e : N) (size : nat), fst (pick e) + N.of_nat size <= 2 ^ 32 ->
    (forall r, (r < size)%nat -> (fst (pick e) + N.of_nat r) mod m <> 0) ->
    never_the_same minstd_next size (fun r => split_seed minstd_seed pick r e).
  Proof.
    intros pick e size H1 H2. set (v := fst (pick e)) in *.
    assert (K : forall r, (r < size)%nat -> split_seed minstd_seed pick r e = (v + N.of_nat r) mod m).
    { intros r Hr. unfold split_seed. fold v. rewrite (N.mod_small _ (2 ^ 32)) by lia. unfold minstd_seed. destruct (N.eqb_spec ((v + N.of_nat r) mod m) 0) as [Q|_]; [|reflexivity]. exfalso. now apply (H2 r). }
    assert (W : forall r r', (r < r')%nat -> (r' < size)%nat -> (v + N.of_nat r) mod m <> (v + N.of_nat r') mod m).
    { intros r r' L1 L2. apply window; [lia|]. intros c Hc. replace c with (v + N.of_nat (N.to_nat (c - v))) by lia. apply H2. lia. }
    intros r r' k Hr Hr' Hn Q. unfold drawn in Q. apply iter_inj in Q; [|apply seed_range|apply seed_range]. rewrite (K r Hr), (K r' Hr') in Q.
    destruct (Nat.lt_total r r') as [L|[L|L]]; [now apply (W r r')|contradiction|symmetry in Q; now apply (W r' r)].
  Qed.
End Minstd.

Lemma uniform_range : forall fuel st v st', uniform_uint32 fuel st = Some (v, st') -> 1 <= v < 2 ^ 32.
Proof.
  induction fuel as [|fuel IH]; intros st v st' H; [discriminate|]. cbn [uniform_uint32] in H. destruct (uniform_three fuel st) as [[high st1]|]; [|discriminate].
  cbv zeta in H. set (ret := 2147483646 * high + (minstd_next st1 - 1)) in H. destruct (N.ltb_spec 4294967294 ret) as [_|L]; [exact (IH _ _ _ H)|]. injection H as <- _.
  change (2 ^ 32) with 4294967296. lia.
Qed.
Lemma same_forever : forall k, uniform_uint32 3 (minstd_seed 1475608308) = Some (2147483647, 1) /\
  drawn minstd_next (split_seed minstd_seed (fun _ => (2147483647, 1)) 0 (minstd_seed 1475608308)) k = drawn minstd_next (split_seed minstd_seed (fun _ => (2147483647, 1)) 1 (minstd_seed 1475608308)) k.
Proof. intros k. split; [vm_compute; reflexivity|]. unfold drawn. f_equal. Qed.
Lemma split_refuted : ~ forall (fuel : nat) (s v st : N) (size : nat), 0 < s < 2 ^ 32 -> N.of_nat size < 2 ^ 31 -> uniform_uint32 fuel (minstd_seed s) = Some (v, st) ->
  never_the_same minstd_next size (fun r => split_seed minstd_seed (fun _ => (v, st)) r (minstd_seed s)).
Proof.
  intros H. destruct (same_forever 0) as [U S]. refine (H 3%nat 1475608308 2147483647 1 2%nat _ _ U 0%nat 1%nat 0%nat _ _ _ S); try lia; split; reflexivity.
Qed.
