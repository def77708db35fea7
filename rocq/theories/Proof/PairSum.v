(** The contraction of a lattice with weights, seen from one bond and the two sites at its ends. *)
From Coq Require Import List Bool Arith Lia Permutation Ring Setoid Morphisms.
From Verif Require Import Model.Core Spec.Contract Spec.Plain Spec.Grid Spec.Svd Spec.ExactOperator Proof.SumFacts Proof.PlainFacts Proof.SumBonds Proof.LineMath Proof.GridSum Proof.WeightedMain Proof.ExactApply.
Import ListNotations.

Definition end_of (b : bond) : nat * nat := match b with Right_of i j => (i, S j) | Below i j => (S i, j) end.

Section PairSum.
  Context {R : Type} {RR : Scalar R}.
  Hypotheses (EA : exact_arithmetic R) (MA : associative_product R) (MD : distributive_product R).
  Notation "x *r y" := (rmul x y) (at level 40, left associativity).
  Add Ring scalars86 : (semi_ring EA MA MD).
  Variables (M N : nat) (b0 : bond).
  Hypothesis H0 : In b0 (bonds M N).
  Notation set := (set bond_eqb).
  Notation sitef := (nat -> nat -> nat -> nat -> nat -> nat -> R).

  Definition weighted_sum (dim : bond -> nat) (site : sitef) (w : bond -> nat -> R) : R :=
    Over bond_eqb dim (bonds M N) (fun at_ => rprod (map (site_factor site at_) (sites M N)) *r rprod (map (fun b => w b (at_ b)) (bonds M N))) (fun _ => 0).
  Definition others : list bond := filter (fun b => negb (bond_eqb b b0)) (bonds M N).
  Definition far (p : nat * nat) : bool := negb (pair_eqb p (start_of b0)) && negb (pair_eqb p (end_of b0)).
  Definition around (site : sitef) (w : bond -> nat -> R) (at_ : bond -> nat) : R :=
    rprod (map (site_factor site at_) (filter far (sites M N))) *r rprod (map (fun b => w b (at_ b)) others).
  Definition pair_value (site : sitef) (w : bond -> nat -> R) (at_ : bond -> nat) : R := site_factor site at_ (start_of b0) *r w b0 (at_ b0) *r site_factor site at_ (end_of b0).

  Lemma ends_in : In (start_of b0) (sites M N) /\ In (end_of b0) (sites M N) /\ start_of b0 <> end_of b0.
  Proof.
    assert (H := H0). apply in_bonds in H. destruct b0 as [i j|i j]; cbn [inner] in H; apply andb_true_iff in H as [A B]; rewrite Nat.ltb_lt in A, B; cbn [start_of end_of]; repeat split;
      try (apply in_sites_iff; cbn [fst snd]; lia); intro Q; injection Q; lia.
  Qed.
  Lemma in_others : forall b, In b others <-> In b (bonds M N) /\ b <> b0.
  Proof. intro b. unfold others. rewrite filter_In. destruct (bond_spec b b0); cbn [negb]; intuition congruence. Qed.
  Lemma bonds_split : Permutation (bonds M N) (others ++ [b0]).
  Proof.
    apply NoDup_Permutation; [apply NoDup_bonds| |].
    - apply (Permutation_NoDup (l := b0 :: others)); [apply Permutation_cons_append|]. constructor; [rewrite in_others; tauto|apply NoDup_filter, NoDup_bonds].
    - intro b. rewrite in_app_iff, in_others. cbn [In]. destruct (bond_spec b b0); intuition (subst; auto).
  Qed.
  Lemma far_spec : forall p, far p = true <-> p <> start_of b0 /\ p <> end_of b0.
  Proof. intro p. unfold far. destruct (pair_spec p (start_of b0)), (pair_spec p (end_of b0)); cbn [negb andb]; intuition congruence. Qed.
  Lemma sites_split : Permutation (sites M N) (start_of b0 :: end_of b0 :: filter far (sites M N)).
  Proof.
    destruct ends_in as [A [B C]]. apply NoDup_Permutation; [apply NoDup_sites| |].
    - constructor; [|constructor; [|apply NoDup_filter, NoDup_sites]]; cbn [In]; rewrite filter_In, far_spec; intuition.
    - intro p. cbn [In]. rewrite filter_In, far_spec. destruct (pair_spec p (start_of b0)), (pair_spec p (end_of b0)); intuition (subst; auto).
  Qed.
  Lemma around_blind : forall site w, blind [b0] (around site w).
  Proof.
    intros site w p q H. unfold around. f_equal.
    - f_equal. apply map_ext_in. intros [i j] Hp. apply filter_In in Hp as [_ Hp]. apply far_spec in Hp as [F1 F2].
      apply (factor_blind site i j [b0]); [| | | |exact H]; try intros k ->; intros [Q|[]]; subst b0; cbn [start_of end_of] in F1, F2; congruence.
    - f_equal. apply map_ext_in. intros b Hb. apply in_others in Hb as [_ Hb]. f_equal. apply H. intros [Q|[]]. congruence.
  Qed.
  Lemma pair_form : forall dim site w,
    weighted_sum dim site w = Over bond_eqb dim others (fun at_ => around site w at_ *r Sum (dim b0) (fun c => pair_value site w (set at_ b0 c))) (fun _ => 0).
  Proof.
    intros dim site w. unfold weighted_sum.
    assert (X : forall at_, rprod (map (site_factor site at_) (sites M N)) *r rprod (map (fun b => w b (at_ b)) (bonds M N)) = around site w at_ *r pair_value site w at_).
    { intro at_. rewrite (rprod_perm EA MA _ _ (Permutation_map (site_factor site at_) sites_split)), (rprod_perm EA MA _ _ (Permutation_map (fun b => w b (at_ b)) bonds_split)).
      cbn [map]. rewrite map_app, (rprod_app EA MA). unfold around, pair_value. cbn [map]. unfold rprod at 1 3. cbn [fold_right]. fold (rprod (map (site_factor site at_) (filter far (sites M N)))). ring. }
    rewrite (Over_ext bond_eqb bond_spec dim (bonds M N) _ (fun at_ => around site w at_ *r pair_value site w at_)) by (intros; apply X).
    rewrite (Over_perm EA bond_eqb bond_spec dim _ _ _ _ (NoDup_bonds M N) bonds_split).
    - rewrite (Over_app bond_eqb dim). apply (Over_ext bond_eqb bond_spec). intros q _. rewrite (Over_pull EA MD bond_eqb bond_spec dim); [reflexivity|]. apply around_blind.
    - intros p q H. rewrite <- !X. f_equal; f_equal; apply map_ext; [intros [i j]|intro b; now rewrite H]. cbn [site_factor]. rewrite !H. destruct i, j; rewrite ?H; reflexivity.
  Qed.

  Theorem pair_update : forall dim dim' (site site' : sitef) (moved : nat -> nat -> sitef) w w' d (U : nat -> nat -> R) c0,
    (forall b, In b others -> dim' b = dim b /\ forall k, w' b k = w b k) ->
    (forall i j, In (i, j) (sites M N) -> far (i, j) = true -> (forall u v l r, site' i j u v l r = site i j u v l r) /\ forall q0 q1 u v l r, q0 < d -> q1 < d -> moved q0 q1 i j u v l r = site i j u v l r) ->
    (forall at_, (forall b, In b others -> at_ b < dim b) -> (forall b, ~ In b (bonds M N) -> at_ b = 0) ->
       c0 *r Sum (dim' b0) (fun c => pair_value site' w' (set at_ b0 c)) = Sum d (fun q0 => Sum d (fun q1 => Sum (dim b0) (fun c => pair_value (moved q0 q1) w (set at_ b0 c)) *r U q0 q1))) ->
    c0 *r weighted_sum dim' site' w' = Sum d (fun q0 => Sum d (fun q1 => weighted_sum dim (moved q0 q1) w *r U q0 q1)).
  Proof.
    intros dim dim' site site' moved w w' d U c0 HB HF HL.
    assert (AR : forall at_, around site' w' at_ = around site w at_).
    { intro at_. unfold around. f_equal; f_equal; apply map_ext_in.
      - intros [i j] Hp. apply filter_In in Hp as [H1 H2]. cbn [site_factor]. now apply HF.
      - intros b Hb. now apply HB. }
    assert (AM : forall q0 q1 at_, q0 < d -> q1 < d -> around (moved q0 q1) w at_ = around site w at_).
    { intros q0 q1 at_ Hq0 Hq1. unfold around. f_equal; f_equal; apply map_ext_in. intros [i j] Hp. apply filter_In in Hp as [H1 H2]. cbn [site_factor]. now apply HF. }
    transitivity (Over bond_eqb dim others (fun at_ => around site w at_ *r Sum d (fun q0 => Sum d (fun q1 => Sum (dim b0) (fun c => pair_value (moved q0 q1) w (set at_ b0 c)) *r U q0 q1))) (fun _ => 0)).
    - rewrite pair_form, (Over_dim dim' dim) by (intros; now apply HB). rewrite (Over_mul_l EA MD bond_eqb dim).
      apply (Over_ext_range bond_eqb bond_spec); [apply NoDup_filter, NoDup_bonds|]. intros q Q1 Q2. rewrite AR, (mul_swap EA MA). f_equal. apply HL; [exact Q2|].
      intros b Hb. apply Q1. rewrite in_others. tauto.
    - transitivity (Over bond_eqb dim others (fun at_ => Sum d (fun q0 => Sum d (fun q1 => U q0 q1 *r (around site w at_ *r Sum (dim b0) (fun c => pair_value (moved q0 q1) w (set at_ b0 c)))))) (fun _ => 0)).
      { apply (Over_ext bond_eqb bond_spec). intros q _. rewrite (Sum_mul_l EA MD). apply Sum_ext. intros q0 _. rewrite (Sum_mul_l EA MD). apply Sum_ext. intros q1 _. ring. }
      assert (SW : forall bs n (F : nat -> (bond -> nat) -> R) p, Over bond_eqb dim bs (fun at_ => Sum n (fun i => F i at_)) p = Sum n (fun i => Over bond_eqb dim bs (F i) p)).
      { induction bs as [|b bs IH]; intros n F p; [reflexivity|]. rewrite (Over_cons bond_eqb dim). transitivity (Sum (dim b) (fun k => Sum n (fun i => Over bond_eqb dim bs (F i) (set p b k)))).
        - apply Sum_ext. intros k _. apply IH.
        - rewrite (Sum_swap EA). apply Sum_ext. intros i _. now rewrite (Over_cons bond_eqb dim). }
      rewrite SW. apply Sum_ext. intros q0 Hq0. rewrite SW. apply Sum_ext. intros q1 Hq1. rewrite <- (Over_mul_l EA MD bond_eqb dim), (ea_mul_comm _ EA), pair_form. f_equal.
      apply (Over_ext bond_eqb bond_spec). intros q _. now rewrite AM.
  Qed.
End PairSum.
