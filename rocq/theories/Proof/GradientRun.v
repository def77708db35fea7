(** The gradient that is computed, in the limit of many samples. *)
From Coq Require Import List Bool Arith ZArith Reals Lra Lia.
From Verif Require Import Base.Outcome Model.Symmetry Model.Edge Model.Core Model.EdgeOperator Model.Contract Model.Qr Model.Svd Model.Auxiliaries Model.Spins
  Spec.Blocks Spec.Contract Spec.Plain Spec.Lapack Spec.Grid Spec.Truncate Spec.Svd Spec.SquareLattice Spec.SpinLattice Spec.Energy Proof.CoreFacts Proof.SpinHistory Proof.GradientLimit.
Import ListNotations.
Open Scope nat_scope.

Lemma real_exact : exact_arithmetic R.
Proof. constructor; intros; cbn; lra. Qed.
Lemma real_associative : associative_product R.
Proof. intros x y z. cbn. lra. Qed.
Lemma real_distributive : distributive_product R.
Proof. intros x y z. cbn. lra. Qed.

Section Run.
  Context {V : Type}.
  Variables (E : @env R) (J : internal) (Iq : qr_names) (Is : svd_names) (L : qr_lapack R).
  Variables (gesvd : nat -> nat -> list R -> bool * (list V * list R * list R)) (vzero vjunk : V) (greater : V -> V -> bool) (of_real : V -> R).
  Hypotheses (HJ : NoDup [i_contract_0 J; i_contract_1 J; i_contract_2 J]) (HN : own_names Iq Is) (HL : qr_sound L) (HS : svd_sound of_real vzero greater gesvd) (HO : strict_order greater).
  Variables (M N cut d : nat) (dim : bond -> nat).
  Hypothesis (Hcut : 0 < cut).
  Variables (T : nat -> nat -> tensor unit R) (i j : nat).
  Hypotheses (Hi : i < M) (Hj : j < N) (Hr : rows_within M N dim cut) (HF : fits_spin M N dim d i j (T i j)).
  Variable h : list nat -> list nat -> R.
  Definition sampled (smp : @spins R * R * R) (t : list nat) : Prop :=
    configured E J M N dim d T (fst (fst smp)) (as_spins N t) /\ snd (fst smp) = psi_of M N dim T t /\ snd smp = local_energy M N d dim T h t.

  Lemma sums_of_samples : forall samples picked, Forall2 sampled samples picked -> forall p u v l r,
    let F := fun ss : (@spins R * R * R) * (nat -> nat -> Z) => log_derivative true M N dim T (snd ss) (snd (fst (fst ss))) i j p u v l r in
    length samples = length picked /\ map snd samples = map (local_energy M N d dim T h) picked /\
    map F (combine samples (map (as_spins N) picked)) = map (O M N dim T i j p u v l r) picked /\
    map (fun ss => rmul (F ss) (snd (fst ss))) (combine samples (map (as_spins N) picked)) = map (fun t => (O M N dim T i j p u v l r t * local_energy M N d dim T h t)%R) picked.
  Proof.
    intros samples picked H p u v l r F. induction H as [|smp t samples picked [_ [H1 H2]] _ [I1 [I2 [I3 I4]]]]; [repeat split|].
    assert (X : F (smp, as_spins N t) = O M N dim T i j p u v l r t) by (unfold F, O, log_derivative, bar; cbn [fst snd]; rewrite H1; reflexivity).
    cbn [length map combine]. rewrite I1, I2, I3, I4, X, H2. cbn [fst snd]. rewrite H2. repeat split.
  Qed.

  Theorem gradient_limit : symmetric M N d h -> forall picked samples g,
    follows_squares M N d dim T picked -> (forall k : nat, Forall2 sampled (samples k) (picked k)) ->
    (forall k, gradient_at E J Iq Is L gesvd vzero vjunk greater of_real M N cut true INR d (lattice_of M N T) (samples k) i j = Ok (g k, false)) ->
    forall p u v l r, p < d -> u < size_up dim i j -> v < size_down M dim i j -> l < size_left dim i j -> r < size_right N dim i j ->
    zeros_harmless M N d dim T h i j p u v l r ->
    exists D, derivable_pt_lim (fun x => energy M N d h (psi_with M N dim T i j p u v l r x)) (spin_elements (T i j) p u v l r) D /\
      Un_cv (fun k => spin_elements (g k) p u v l r) D.
  Proof.
    intros Hsym picked samples g Hp Hs Hg p u v l r Rp Ru Rv Rl Rr Hz.
    exists (slope M N d dim T h i j p u v l r). split.
    - apply energy_slope; [exact Hi|exact Hj|exact Hsym|]. pose proof (squares_positive M N d dim T picked Hp). lra.
    - eapply limit_ext; [|exact (covariance_limit M N d dim T h i j p u v l r Hi Hj picked Hp Hz)]. intros k. cbv beta.
      assert (C : Forall2 (fun smp s => configured E J M N dim d T (fst (fst smp)) s) (samples k) (map (as_spins N) (picked k))).
      { generalize (Hs k). generalize (samples k) (picked k). intros a b Hab. induction Hab as [|x y a b [H1 _] _ IH]; constructor; assumption. }
      pose proof (gradient_configured real_exact real_associative real_distributive E J Iq Is L gesvd vzero vjunk greater of_real HJ HN HL HS HO M N cut d dim Hcut true INR T i j
        (samples k) (map (as_spins N) (picked k)) Hi Hj Hr HF C) as X.
      cbv zeta in X. rewrite (Hg k) in X. cbn [unless_reported] in X. destruct X as [_ X]. rewrite (X p u v l r Rp Ru Rv Rl Rr). clear X.
      destruct (sums_of_samples _ _ (Hs k) p u v l r) as [I1 [I2 [I3 I4]]]. cbv zeta in I3, I4. rewrite I2, I3, I4, I1. unfold mean. unfold rsum. cbn. lra.
  Qed.
End Run.
