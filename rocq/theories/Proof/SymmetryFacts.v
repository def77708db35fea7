(** The laws of the six symmetry kinds and the facts about charge sums used everywhere. *)
From Coq Require Import List Bool ZArith Lia Eqdep_dec Permutation.
From Verif Require Import Base.SMap Model.Symmetry.
Import ListNotations.

(** The abstract laws the rest of the development uses. *)
Class SymLaws (S : Type) {SS : Sym S} : Prop := {
  sym_ordlaws :> OrdLaws S;
  sadd_assoc : forall a b c : S, sadd a (sadd b c) = sadd (sadd a b) c;
  sadd_comm : forall a b : S, sadd a b = sadd b a;
  sadd_0_l : forall a : S, sadd szero a = a;
  sadd_neg_r : forall a : S, sadd a (sneg a) = szero;
  sodd_add : forall a b : S, sodd (sadd a b) = xorb (sodd a) (sodd b);
  sodd_0 : sodd (szero : S) = false;
  sodd_neg : forall a : S, sodd (sneg a) = sodd a;
  nosym_unit : is_nosym = true -> forall a : S, a = szero;
  bose_even : is_fermi = false -> forall a : S, sfermi a = 0%Z;
  nosym_bose : is_nosym = true -> is_fermi = false }.

#[global] Instance OrdLaws_unit : OrdLaws unit.
Proof.
  constructor; simpl.
  - intros [] []; tauto.
  - reflexivity.
  - discriminate.
Qed.
#[global] Instance OrdLaws_bool : OrdLaws bool.
Proof.
  constructor; simpl.
  - intros [] []; simpl; split; congruence.
  - intros [] []; reflexivity.
  - intros [] [] []; simpl; congruence.
Qed.
#[global] Instance OrdLaws_Z : OrdLaws Z.
Proof.
  constructor; simpl; intros.
  - apply Z.compare_eq_iff.
  - apply Z.compare_antisym.
  - rewrite Z.compare_lt_iff in *. lia.
Qed.

Lemma fermi_ext : forall a b : fermi16, fermi_z a = fermi_z b -> a = b.
Proof.
  intros [a Ha] [b Hb]. simpl. intros ->. f_equal. apply UIP_dec. apply bool_dec.
Qed.
Lemma fermi_range : forall a : fermi16, (-32768 <= fermi_z a <= 32767)%Z.
Proof.
  intros [a Ha]. simpl. unfold int16_ok in Ha. apply andb_prop in Ha as [H1 H2].
  apply Z.leb_le in H1, H2. lia.
Qed.
Lemma fermi_z_to : forall z, fermi_z (to_fermi z) = wrap16 z.
Proof. reflexivity. Qed.
Lemma wrap16_id : forall z, (-32768 <= z <= 32767)%Z -> wrap16 z = z.
Proof. intros z H. unfold wrap16. rewrite Z.mod_small; lia. Qed.
Lemma wrap16_wrap_l : forall a b, wrap16 (wrap16 a + b) = wrap16 (a + b).
Proof.
  intros a b. unfold wrap16. f_equal.
  replace ((a + 32768) mod 65536 - 32768 + b + 32768)%Z with ((a + 32768) mod 65536 + b)%Z by lia.
  rewrite Zplus_mod_idemp_l. f_equal. lia.
Qed.
Lemma wrap16_wrap_r : forall a b, wrap16 (a + wrap16 b) = wrap16 (a + b).
Proof. intros. rewrite Z.add_comm, wrap16_wrap_l, Z.add_comm. reflexivity. Qed.
Lemma odd_wrap16 : forall z, Z.odd (wrap16 z) = Z.odd z.
Proof.
  intro z. unfold wrap16.
  assert (E : z = (65536 * ((z + 32768) / 65536) + ((z + 32768) mod 65536 - 32768))%Z).
  { pose proof (Z.div_mod (z + 32768) 65536). lia. }
  rewrite E at 2. rewrite Z.odd_add, Z.odd_mul. change (Z.odd 65536) with false. rewrite andb_false_l, xorb_false_l. reflexivity.
Qed.

#[global] Instance OrdLaws_fermi : OrdLaws fermi16.
Proof.
  constructor; simpl; intros.
  - rewrite Z.compare_eq_iff. split; [apply fermi_ext | congruence].
  - apply Z.compare_antisym.
  - rewrite Z.compare_lt_iff in *. lia.
Qed.
#[global] Instance OrdLaws_pair (A B : Type) {OA : Ord A} {OB : Ord B} {LA : OrdLaws A} {LB : OrdLaws B} :
  OrdLaws (A * B).
Proof.
  constructor; simpl.
  - intros [a b] [c d]; simpl. split; intro H.
    + destruct (cmp a c) eqn:E; try discriminate.
      apply cmp_eq_iff in E, H. congruence.
    + injection H as -> ->. now rewrite !cmp_refl.
  - intros [a b] [c d]; simpl. rewrite (cmp_antisym a c). destruct (cmp a c); simpl; auto.
    apply cmp_antisym.
  - intros [a b] [c d] [e f]; simpl. intros H1 H2.
    destruct (cmp a c) eqn:E1; try discriminate.
    + apply cmp_eq_iff in E1. subst c.
      destruct (cmp a e) eqn:E2; try discriminate; auto. eapply cmp_trans; eauto.
    + destruct (cmp c e) eqn:E2; try discriminate.
      * apply cmp_eq_iff in E2. subst e. now rewrite E1.
      * now rewrite (cmp_trans _ _ _ E1 E2).
Qed.

Lemma fermi_add_assoc : forall a b c, fermi_add a (fermi_add b c) = fermi_add (fermi_add a b) c.
Proof.
  intros. apply fermi_ext. unfold fermi_add. rewrite !fermi_z_to.
  rewrite wrap16_wrap_l, wrap16_wrap_r. f_equal. lia.
Qed.
Lemma fermi_add_comm : forall a b, fermi_add a b = fermi_add b a.
Proof. intros. unfold fermi_add. now rewrite Z.add_comm. Qed.
Lemma fermi_add_0_l : forall a, fermi_add (to_fermi 0) a = a.
Proof.
  intros. apply fermi_ext. unfold fermi_add. rewrite !fermi_z_to.
  rewrite wrap16_wrap_l. simpl. apply wrap16_id. apply fermi_range.
Qed.
Lemma fermi_add_neg_r : forall a, fermi_add a (fermi_neg a) = to_fermi 0.
Proof.
  intros. apply fermi_ext. unfold fermi_add, fermi_neg. rewrite !fermi_z_to.
  rewrite wrap16_wrap_r. f_equal. lia.
Qed.
Lemma fermi_odd_add : forall a b, Z.odd (fermi_z (fermi_add a b)) = xorb (Z.odd (fermi_z a)) (Z.odd (fermi_z b)).
Proof. intros. unfold fermi_add. rewrite fermi_z_to, odd_wrap16. apply Z.odd_add. Qed.
Lemma fermi_odd_neg : forall a, Z.odd (fermi_z (fermi_neg a)) = Z.odd (fermi_z a).
Proof. intros. unfold fermi_neg. rewrite fermi_z_to, odd_wrap16. apply Z.odd_opp. Qed.

#[global] Instance SymLaws_No : SymLaws unit.
Proof.
  constructor; try (intros; simpl; try reflexivity; try (now destruct a); congruence).
  apply OrdLaws_unit.
Qed.
#[global] Instance SymLaws_Z2 : SymLaws bool.
Proof.
  constructor.
  - apply OrdLaws_bool.
  - intros [] [] []; reflexivity.
  - intros [] []; reflexivity.
  - intros []; reflexivity.
  - intros []; reflexivity.
  - reflexivity.
  - reflexivity.
  - reflexivity.
  - discriminate.
  - reflexivity.
  - reflexivity.
Qed.
#[global] Instance SymLaws_U1 : SymLaws Z.
Proof.
  constructor; simpl; intros; try (unfold sodd; simpl; reflexivity); try discriminate; try lia.
  apply OrdLaws_Z.
Qed.
#[global] Instance SymLaws_Fermi : SymLaws fermi16.
Proof.
  constructor; simpl.
  - apply OrdLaws_fermi.
  - apply fermi_add_assoc.
  - apply fermi_add_comm.
  - apply fermi_add_0_l.
  - apply fermi_add_neg_r.
  - apply fermi_odd_add.
  - reflexivity.
  - apply fermi_odd_neg.
  - discriminate.
  - discriminate.
  - discriminate.
Qed.
#[global] Instance SymLaws_FermiZ2 : SymLaws (fermi16 * bool).
Proof.
  constructor; simpl.
  - apply OrdLaws_pair; typeclasses eauto.
  - intros [] [] []; simpl. now rewrite fermi_add_assoc, xorb_assoc.
  - intros [a b] [c d]; simpl. f_equal; [apply fermi_add_comm | apply xorb_comm].
  - intros [f b]; simpl. rewrite fermi_add_0_l. now destruct b.
  - intros []; simpl. now rewrite fermi_add_neg_r, xorb_nilpotent.
  - intros [] []. apply fermi_odd_add.
  - reflexivity.
  - intros []. apply fermi_odd_neg.
  - discriminate.
  - discriminate.
  - discriminate.
Qed.
#[global] Instance SymLaws_FermiU1 : SymLaws (fermi16 * Z).
Proof.
  constructor; simpl.
  - apply OrdLaws_pair; typeclasses eauto.
  - intros [] [] []; simpl. now rewrite fermi_add_assoc, Z.add_assoc.
  - intros [a b] [c d]; simpl. f_equal; [apply fermi_add_comm | apply Z.add_comm].
  - intros []; simpl. now rewrite fermi_add_0_l.
  - intros []; simpl. now rewrite fermi_add_neg_r, Z.add_opp_diag_r.
  - intros [] []. apply fermi_odd_add.
  - reflexivity.
  - intros []. apply fermi_odd_neg.
  - discriminate.
  - discriminate.
  - discriminate.
Qed.

Section SumFacts.
  Context {S : Type} {SS : Sym S} {SL : SymLaws S}.

  Lemma sadd_0_r : forall a : S, sadd a szero = a.
  Proof. intros. rewrite sadd_comm. apply sadd_0_l. Qed.
  Lemma sadd_neg_l : forall a : S, sadd (sneg a) a = szero.
  Proof. intros. rewrite sadd_comm. apply sadd_neg_r. Qed.
  Lemma sadd_cancel_l : forall a b c : S, sadd a b = sadd a c -> b = c.
  Proof.
    intros a b c H. rewrite <- (sadd_0_l b), <- (sadd_0_l c), <- (sadd_neg_l a).
    rewrite <- !sadd_assoc, H. reflexivity.
  Qed.
  Lemma sneg_invol : forall a : S, sneg (sneg a) = a.
  Proof.
    intros. apply (sadd_cancel_l (sneg a)). rewrite sadd_neg_r, sadd_neg_l. reflexivity.
  Qed.
  Lemma sneg_0 : sneg (szero : S) = szero.
  Proof. rewrite <- (sadd_0_l (sneg szero)). apply sadd_neg_r. Qed.
  Lemma sneg_add : forall a b : S, sneg (sadd a b) = sadd (sneg a) (sneg b).
  Proof.
    intros. apply (sadd_cancel_l (sadd a b)). rewrite sadd_neg_r.
    rewrite (sadd_comm a b), <- sadd_assoc, (sadd_assoc a), sadd_neg_r, sadd_0_l, sadd_neg_r. reflexivity.
  Qed.
  Lemma sneg_inj : forall a b : S, sneg a = sneg b -> a = b.
  Proof. intros a b H. rewrite <- (sneg_invol a), H. apply sneg_invol. Qed.
  Lemma sadd_eq_0 : forall a b : S, sadd a b = szero -> b = sneg a.
  Proof. intros a b H. apply (sadd_cancel_l a). rewrite H, sadd_neg_r. reflexivity. Qed.

  Lemma fold_sadd : forall (l : list S) a, fold_left sadd l a = sadd a (ssum l).
  Proof.
    induction l as [|x l IH]; intro a; unfold ssum; simpl.
    - now rewrite sadd_0_r.
    - rewrite IH, (IH (sadd szero x)). rewrite sadd_0_l. apply eq_sym, sadd_assoc.
  Qed.
  Lemma ssum_nil : ssum ([] : list S) = szero.
  Proof. reflexivity. Qed.
  Lemma ssum_cons : forall a (l : list S), ssum (a :: l) = sadd a (ssum l).
  Proof. intros. unfold ssum at 1. simpl. now rewrite fold_sadd, sadd_0_l. Qed.
  Lemma ssum_app : forall l1 l2 : list S, ssum (l1 ++ l2) = sadd (ssum l1) (ssum l2).
  Proof.
    intros. induction l1; simpl.
    - now rewrite ssum_nil, sadd_0_l.
    - rewrite !ssum_cons, IHl1. apply sadd_assoc.
  Qed.
  Lemma ssum_single : forall a : S, ssum [a] = a.
  Proof. intros. rewrite ssum_cons, ssum_nil. apply sadd_0_r. Qed.
  Lemma ssum_perm : forall l1 l2 : list S, Permutation l1 l2 -> ssum l1 = ssum l2.
  Proof.
    induction 1.
    - reflexivity.
    - now rewrite !ssum_cons, IHPermutation.
    - rewrite !ssum_cons, !sadd_assoc, (sadd_comm y x). reflexivity.
    - congruence.
  Qed.
  Lemma ssum_concat : forall ll : list (list S), ssum (concat ll) = ssum (map ssum ll).
  Proof.
    induction ll; simpl; [reflexivity|]. now rewrite ssum_app, ssum_cons, IHll.
  Qed.
  Lemma ssum_neg : forall l : list S, ssum (map sneg l) = sneg (ssum l).
  Proof.
    induction l; simpl.
    - now rewrite ssum_nil, sneg_0.
    - now rewrite !ssum_cons, IHl, sneg_add.
  Qed.
End SumFacts.
