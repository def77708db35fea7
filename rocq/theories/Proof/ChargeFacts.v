From Coq Require Import Bool ZArith Lia.
From Verif Require Import Base.SMap Model.Symmetry Proof.SymmetryFacts Spec.Charge.

Definition slt {S : Type} {SS : Sym S} (a b : S) : Prop := ltb a b = true.

Lemma charge_type_holds : forall (S : Type) (SS : Sym S) (SL : SymLaws S),
  charge_type S sadd szero sneg slt sodd.
Proof.
  intros S SS SL. split; [|split].
  - split; [apply sadd_assoc | apply sadd_comm | apply sadd_0_l | apply sadd_neg_r].
  - unfold slt, ltb. split.
    + intro a. rewrite cmp_refl. discriminate.
    + intros a b c H1 H2. destruct (cmp a b) eqn:E1; try discriminate.
      destruct (cmp b c) eqn:E2; try discriminate. now rewrite (cmp_trans _ _ _ E1 E2).
    + intros a b. destruct (cmp a b) eqn:E.
      * apply cmp_eq_iff in E. auto.
      * auto.
      * apply gt_lt in E. rewrite E. auto.
  - split; [apply sodd_add | apply sodd_neg | apply sodd_0].
Qed.

Lemma wrap16_is_wrapped : forall z, is_wrapped 16 z (wrap16 z).
Proof.
  intro z. unfold is_wrapped, wrap16. change (2 ^ (16 - 1))%Z with 32768%Z. change (2 ^ 16)%Z with 65536%Z.
  pose proof (Z.mod_pos_bound (z + 32768) 65536 eq_refl).
  split; [lia|]. exists ((z + 32768) / 65536)%Z.
  pose proof (Z.div_mod (z + 32768) 65536). lia.
Qed.

Lemma fermi_machine : forall a b : fermi16,
  is_wrapped 16 (fermi_z a + fermi_z b) (fermi_z (fermi_add a b)) /\
  is_wrapped 16 (- fermi_z a) (fermi_z (fermi_neg a)).
Proof. intros. split; apply wrap16_is_wrapped. Qed.

Lemma u1_machine : forall a b : Z,
  (forall c, u1_add_machine a b = Some c <-> c = sadd a b /\ (-2^31 <= c < 2^31)%Z) /\
  (forall c, u1_neg_machine a = Some c <-> c = sneg a /\ (-2^31 <= c < 2^31)%Z).
Proof.
  intros a b. change (2^31)%Z with 2147483648%Z. unfold u1_add_machine, u1_neg_machine, int32_ok. simpl.
  split; intro c; split; intro H.
  - destruct (_ && _)%bool eqn:E; [|discriminate]. injection H as <-.
    apply andb_prop in E as [E1 E2]. apply Z.leb_le in E1, E2. lia.
  - destruct H as [-> H].
    replace (-2147483648 <=? a + b)%Z with true by (symmetry; apply Z.leb_le; lia).
    replace (a + b <=? 2147483647)%Z with true by (symmetry; apply Z.leb_le; lia). reflexivity.
  - destruct (_ && _)%bool eqn:E; [|discriminate]. injection H as <-.
    apply andb_prop in E as [E1 E2]. apply Z.leb_le in E1, E2. lia.
  - destruct H as [-> H].
    replace (-2147483648 <=? - a)%Z with true by (symmetry; apply Z.leb_le; lia).
    replace (- a <=? 2147483647)%Z with true by (symmetry; apply Z.leb_le; lia). reflexivity.
Qed.

(** the fermion parity really is the parity of the fermion number *)
Lemma parity_meaning :
  (forall f : fermi16, sodd f = Z.odd (fermi_z f)) /\
  (forall (f : fermi16) (b : bool), sodd (f, b) = Z.odd (fermi_z f)) /\
  (forall (f : fermi16) (z : Z), sodd (f, z) = Z.odd (fermi_z f)) /\
  (forall u : unit, sodd u = false) /\ (forall b : bool, sodd b = false) /\ (forall z : Z, sodd z = false).
Proof. repeat split. Qed.
