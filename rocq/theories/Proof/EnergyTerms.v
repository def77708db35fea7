(** The energy of a step of Markov sampling is the local energy of the Hamiltonian. *)
From Coq Require Import List Bool Arith ZArith Reals Lra Lia.
From Verif Require Import Base.Outcome Base.SMap Model.Symmetry Model.Edge Model.Core Model.Schedule Model.EdgeOperator Model.Contract Model.Qr Model.Svd Model.Auxiliaries Model.Spins Model.Sampling Model.Statistics
  Spec.Blocks Spec.Bonds Spec.Lattice Spec.Sampling Spec.Contract Spec.Plain Spec.Grid Spec.SpinLattice Spec.Lapack Spec.Truncate Spec.Svd Spec.SquareLattice Spec.Energy Spec.EnergyTerms Proof.CoreFacts Proof.ObserveFacts Proof.SpinFacts Proof.GradientLimit Proof.GradientRun.
Import ListNotations.
Open Scope nat_scope.

Lemma tuples_in : forall k d t, In t (tuples (repeat (seq 0 d) k)) <-> length t = k /\ forall s, In s t -> s < d.
Proof.
  induction k as [|k IH]; intros d t; cbn [repeat tuples].
  - split; [intros [<-|[]]; split; [reflexivity|intros s []]|]. intros [H _]. destruct t; [now left|discriminate].
  - rewrite in_flat_map. split.
    + intros [x [Hx Ht]]. apply in_map_iff in Ht as [t' [<- Ht]]. apply IH in Ht as [H1 H2]. apply in_seq in Hx. split; [cbn; now rewrite H1|]. intros s [<-|Hs]; [lia|now apply H2].
    + intros [H1 H2]. destruct t as [|x t]; [discriminate|]. exists x. split; [apply in_seq; pose proof (H2 x (or_introl eq_refl)); lia|]. apply in_map, IH. split; [now injection H1|]. intros s Hs. apply H2. now right.
Qed.
Section Rows.
  Variables (m n d : nat).
  Lemma spin_in_rows : forall t i j, i < m -> j < n -> spin (in_rows m n t) (Z.of_nat i, Z.of_nat j) = Z.of_nat (spin_on n t i j).
  Proof.
    intros t i j Hi Hj. unfold spin, in_rows. cbn [fst snd]. rewrite !Nat2Z.id.
    rewrite (nth_indep _ [] ((fun i => map (fun j => Z.of_nat (spin_on n t i j)) (seq 0 n)) 0)) by (rewrite map_length, seq_length; lia).
    rewrite (map_nth (fun i => map (fun j => Z.of_nat (spin_on n t i j)) (seq 0 n))), seq_nth by lia.
    rewrite (nth_indep _ 0%Z ((fun j => Z.of_nat (spin_on n t (0 + i) j)) 0)) by (rewrite map_length, seq_length; lia).
    rewrite (map_nth (fun j => Z.of_nat (spin_on n t (0 + i) j))), seq_nth by lia. reflexivity.
  Qed.
  Lemma rows_injective : forall t t', length t = m * n -> length t' = m * n -> in_rows m n t = in_rows m n t' -> t = t'.
  Proof.
    intros t t' L L' H. apply (nth_ext t t' 0 0); [congruence|]. intros k Hk. rewrite L in Hk. assert (n <> 0) by nia.
    pose proof (Nat.div_mod k n ltac:(assumption)) as D. pose proof (Nat.mod_upper_bound k n ltac:(assumption)) as B.
    assert (Q : k / n < m) by (apply Nat.div_lt_upper_bound; lia).
    pose proof (spin_in_rows t (k / n) (k mod n) Q B) as X. pose proof (spin_in_rows t' (k / n) (k mod n) Q B) as X'. rewrite H in X. rewrite X' in X. apply Nat2Z.inj in X.
    unfold spin_on in X. replace (k / n * n + k mod n) with k in X by lia. now symmetry.
  Qed.
  Lemma rows_valid : forall t, length t = m * n -> (forall s, In s t -> s < d) -> valid_configuration (Z.of_nat m) (Z.of_nat n) (Z.of_nat d) (in_rows m n t).
  Proof.
    intros t L H. unfold in_rows. split; [split|].
    - now rewrite map_length, seq_length, Nat2Z.id.
    - intros row Hr. apply in_map_iff in Hr as [i [<- Hi]]. now rewrite map_length, seq_length, Nat2Z.id.
    - intros row Hr s Hs. apply in_map_iff in Hr as [i [<- Hi]]. apply in_map_iff in Hs as [j [<- Hj]]. apply in_seq in Hi. apply in_seq in Hj.
      assert (spin_on n t i j < d); [|lia]. apply H. unfold spin_on. apply nth_In. rewrite L. nia.
  Qed.
  (** every configuration is one of these *)
  Lemma rows_onto : forall c, valid_configuration (Z.of_nat m) (Z.of_nat n) (Z.of_nat d) c -> exists t, In t (all_spins m n d) /\ in_rows m n t = c.
  Proof.
    intros c [[Lm Ln] V]. rewrite Nat2Z.id in *.
    exists (map (fun k => Z.to_nat (nth (k mod n) (nth (k / n) c []) 0%Z)) (seq 0 (m * n))). 
    assert (G : forall i j, i < m -> j < n -> (0 <= nth j (nth i c []) 0%Z < Z.of_nat d)%Z).
    { intros i j Hi Hj. assert (R : In (nth i c []) c) by (apply nth_In; lia). apply (V _ R), nth_In. rewrite (Ln _ R). exact Hj. }
    split.
    - apply tuples_in. rewrite map_length, seq_length. split; [reflexivity|]. intros s Hs. apply in_map_iff in Hs as [k [<- Hk]]. apply in_seq in Hk. assert (n <> 0) by nia.
      assert (k / n < m) by (apply Nat.div_lt_upper_bound; lia). pose proof (G (k / n) (k mod n) ltac:(assumption) (Nat.mod_upper_bound k n ltac:(assumption))). lia.
    - apply (nth_ext _ _ [] []); [unfold in_rows; now rewrite map_length, seq_length|]. unfold in_rows at 1. rewrite map_length, seq_length. intros i Hi.
      assert (R : In (nth i c []) c) by (apply nth_In; lia).
      unfold in_rows. rewrite (nth_indep _ [] ((fun i => map (fun j => Z.of_nat (spin_on n (map (fun k => Z.to_nat (nth (k mod n) (nth (k / n) c []) 0%Z)) (seq 0 (m * n))) i j)) (seq 0 n)) 0)) by (rewrite map_length, seq_length; lia).
      rewrite (map_nth (fun i => map (fun j => Z.of_nat (spin_on n (map (fun k => Z.to_nat (nth (k mod n) (nth (k / n) c []) 0%Z)) (seq 0 (m * n))) i j)) (seq 0 n))), seq_nth by lia.
      apply (nth_ext _ _ 0%Z 0%Z); [now rewrite map_length, seq_length, (Ln _ R)|]. rewrite map_length, seq_length. intros j Hj.
      rewrite (nth_indep _ 0%Z (Z.of_nat (spin_on n (map (fun k => Z.to_nat (nth (k mod n) (nth (k / n) c []) 0%Z)) (seq 0 (m * n))) (0 + i) 0))) by (rewrite map_length, seq_length; lia).
      rewrite (map_nth (fun j => Z.of_nat (spin_on n (map (fun k => Z.to_nat (nth (k mod n) (nth (k / n) c []) 0%Z)) (seq 0 (m * n))) (0 + i) j))), seq_nth by lia.
      unfold spin_on. cbn [Nat.add].
      rewrite (nth_indep _ 0 ((fun k => Z.to_nat (nth (k mod n) (nth (k / n) c []) 0%Z)) 0)) by (rewrite map_length, seq_length; nia).
      rewrite (map_nth (fun k => Z.to_nat (nth (k mod n) (nth (k / n) c []) 0%Z))), seq_nth by nia. cbn [Nat.add].
      rewrite Nat.div_add_l, Nat.div_small, Nat.add_0_r by lia. rewrite (Nat.add_comm (i * n) j), Nat.mod_add, Nat.mod_small by lia. pose proof (G i j ltac:(lia) ltac:(lia)). lia.
  Qed.
  Lemma rows_enumerate : enumerates (Z.of_nat m) (Z.of_nat n) (Z.of_nat d) (map (in_rows m n) (all_spins m n d)).
  Proof.
    split.
    - assert (A : forall t, In t (all_spins m n d) -> length t = m * n) by (intros t Ht; now apply tuples_in in Ht).
      assert (ND : NoDup (all_spins m n d)) by (apply tuples_nodup, seq_NoDup). revert A ND. generalize (all_spins m n d). induction l as [|t l IH]; intros A ND; cbn; [constructor|]. inversion ND as [|? ? N0 ND']; subst.
      constructor; [|apply IH; [intros u Hu; apply A; now right|exact ND']]. intros H. apply in_map_iff in H as [u [E Hu]]. apply N0. rewrite <- (rows_injective u t); [exact Hu| | |exact E]; apply A; [now right|now left].
    - intros c. rewrite in_map_iff. split.
      + intros [t [<- Ht]]. apply tuples_in in Ht as [H1 H2]. now apply rows_valid.
      + intros V. destruct (rows_onto c V) as [t [Ht E]]. exists t. now split.
  Qed.
  Lemma agree_off_sym : forall ps c c', agree_off (Z.of_nat m) (Z.of_nat n) ps c c' = agree_off (Z.of_nat m) (Z.of_nat n) ps c' c.
  Proof.
    intros ps c c'. unfold agree_off. induction (cells (Z.of_nat m) (Z.of_nat n)) as [|p l IH]; [reflexivity|]. cbn. now rewrite IH, (Z.eqb_sym (spin c p)).
  Qed.
  Lemma spins_at_rows : forall t ps, In t (all_spins m n d) -> (forall p, In p ps -> inside (Z.of_nat m) (Z.of_nat n) p) -> spins_of (Z.of_nat d) (length ps) (spins_at (in_rows m n t) ps).
  Proof.
    intros t ps Ht Ins. apply tuples_in in Ht as [H1 H2]. split; [apply map_length|]. intros s Hs. apply in_map_iff in Hs as [[x y] [<- Hp]]. apply Ins in Hp as [Hx Hy]. cbn [fst snd] in *.
    replace x with (Z.of_nat (Z.to_nat x)) by lia. replace y with (Z.of_nat (Z.to_nat y)) by lia. rewrite spin_in_rows by lia.
    assert (spin_on n t (Z.to_nat x) (Z.to_nat y) < d); [|lia]. apply H2. unfold spin_on. apply nth_In. rewrite H1. nia.
  Qed.
  Theorem matrix_symmetric : forall terms, (forall a, In a terms -> symmetric_term m n d a) -> symmetric m n d (matrix_of m n terms).
  Proof.
    intros terms Hs t t' Ht Ht'. unfold matrix_of. f_equal. apply map_ext_in. intros a Ha. destruct (Hs a Ha) as [_ [Ins [B [_ [_ S]]]]].
    rewrite agree_off_sym. destruct (agree_off _ _ _ _ _); [|reflexivity]. apply S; rewrite B; now apply spins_at_rows.
  Qed.
End Rows.

Section Step.
  Variables (m n d : nat) (dim : bond -> nat) (T : nat -> nat -> tensor unit R).
  Hypothesis Hd : 0 < d.
  Lemma amplitude_rows : forall t, amplitude_of m n dim T (in_rows m n t) = psi_of m n dim T t.
  Proof.
    intros t. unfold amplitude_of, psi_of, psi. apply network_ext_range; [exact real_exact|]. intros i j u v l r Hi Hj _. now rewrite spin_in_rows.
  Qed.
  Notation step := (step_energy zero_real (amplitude_of m n dim T) Rdiv Rmult (fun x => x)).
  Lemma zero_real_false : forall x, zero_real x = false <-> x <> 0%R.
  Proof. intros x. unfold zero_real. destruct (Req_EM_T x 0); split; intros; congruence. Qed.
  (** what the code adds for one term *)
  Lemma term_energy : forall a t, symmetric_term m n d a -> In t (all_spins m n d) -> psi_of m n dim T t <> 0%R ->
    observe zero_real (amplitude_of m n dim T) Rdiv Rmult (fun x => x) Rplus 0%R (Z.of_nat d) (t_sites a) (t_operator a) (in_rows m n t) (psi_of m n dim T t) =
    Ok (Some (applied_to m n d (matrix_of m n [a]) (psi_of m n dim T) t / psi_of m n dim T t)%R).
  Proof.
    intros a t [ND [Ins [B [Act [NZ _]]]]] Ht Pt. rewrite <- amplitude_rows.
    destruct (observe_value zero_real (amplitude_of m n dim T) Rdiv Rmult (fun x => x) (Z.of_nat m) (Z.of_nat n) (Z.of_nat d) (t_sites a) (t_operator a) (t_elements a)
      ltac:(lia) Act B ND Ins (fun x y => x * y)%R) with (c := in_rows m n t) (all := map (in_rows m n) (all_spins m n d)) as [v [Ev Hv]].
    - intros x y Hy. apply zero_real_false in Hy. now field.
    - intros x y z Hx. unfold zero_real in Hx. destruct (Req_EM_T x 0) as [->|]; [ring|discriminate].
    - apply rows_enumerate.
    - apply tuples_in in Ht as [H1 H2]. now apply rows_valid.
    - exact NZ.
    - rewrite amplitude_rows. now apply zero_real_false.
    - rewrite Ev. f_equal. f_equal. rewrite amplitude_rows in *.
      assert (Q : (v * psi_of m n dim T t = applied_to m n d (matrix_of m n [a]) (psi_of m n dim T) t)%R).
      { apply (Rmult_eq_reg_r (psi_of m n dim T t)); [|exact Pt]. rewrite Rmult_assoc, Hv, Rmult_comm. unfold applied_to. rewrite <- total_scale. unfold total, Spec.Sampling.rsum. rewrite map_map. f_equal. apply map_ext_in. intros t' Ht'.
        rewrite amplitude_rows. unfold matrix_of. cbn [map fold_right]. destruct (agree_off _ _ _ _ _); ring. }
      rewrite <- Q. now field.
  Qed.
  Lemma step_from : forall terms t z, (forall a, In a terms -> symmetric_term m n d a) -> In t (all_spins m n d) -> psi_of m n dim T t <> 0%R ->
    foldM (fun (Es : option R) (term : positions * operator R) =>
      bind (observe zero_real (amplitude_of m n dim T) Rdiv Rmult (fun x => x) Rplus 0%R (Z.of_nat d) (fst term) (snd term) (in_rows m n t) (psi_of m n dim T t)) (fun value =>
      Ok (match Es, value with Some Es, Some value => Some (Es + value)%R | _, _ => None end))) (map (fun a => (t_sites a, t_operator a)) terms) (Some z)
    = Ok (Some (z + local_energy m n d dim T (matrix_of m n terms) t)%R).
  Proof.
    induction terms as [|a terms IH]; intros t z Hs Ht Pt.
    - cbn. do 2 f_equal. unfold local_energy, applied_to. rewrite total_zero; [|intros t' _; unfold matrix_of; cbn; ring]. unfold Rdiv. ring.
    - cbn [map foldM fst snd]. rewrite (term_energy a t (Hs a (or_introl eq_refl)) Ht Pt). cbn [bind]. rewrite IH; [|intros b Hb; apply Hs; now right|exact Ht|exact Pt]. do 2 f_equal.
      unfold local_energy. assert (Q : applied_to m n d (matrix_of m n (a :: terms)) (psi_of m n dim T) t = (applied_to m n d (matrix_of m n [a]) (psi_of m n dim T) t + applied_to m n d (matrix_of m n terms) (psi_of m n dim T) t)%R).
      { unfold applied_to. rewrite <- total_plus. apply total_ext. intros t' _. unfold matrix_of. cbn [map fold_right]. ring. }
      rewrite Q. unfold Rdiv. ring.
  Qed.
  Theorem step_is_local_energy : forall terms t, (forall a, In a terms -> symmetric_term m n d a) -> In t (all_spins m n d) -> psi_of m n dim T t <> 0%R ->
    step (Z.of_nat d) (map (fun a => (t_sites a, t_operator a)) terms) (in_rows m n t) (psi_of m n dim T t) = Ok (Some (local_energy m n d dim T (matrix_of m n terms) t)).
  Proof. intros terms t Hs Ht Pt. unfold step_energy. rewrite step_from by assumption. do 2 f_equal. ring. Qed.
End Step.

(** a sample: the configuration, its amplitude, and the energy that the code computes from the terms *)
Definition sampled_by (E : @env R) (J : internal) (m n d : nat) (dim : bond -> nat) (T : nat -> nat -> tensor unit R) (terms : list term) (smp : @spins R * R * R) (t : list nat) : Prop :=
  configured E J m n dim d T (fst (fst smp)) (as_spins n t) /\ snd (fst smp) = psi_of m n dim T t /\
  step_energy zero_real (amplitude_of m n dim T) Rdiv Rmult (fun x => x) (Z.of_nat d) (map (fun a => (t_sites a, t_operator a)) terms) (in_rows m n t) (psi_of m n dim T t) = Ok (Some (snd smp)).
Lemma sampled_by_sampled : forall E J m n d dim T terms, 0 < d -> (forall a, In a terms -> symmetric_term m n d a) ->
  forall samples picked, (forall t, In t picked -> In t (all_spins m n d) /\ psi_of m n dim T t <> 0%R) ->
  Forall2 (sampled_by E J m n d dim T terms) samples picked -> Forall2 (sampled E J m n d dim T (matrix_of m n terms)) samples picked.
Proof.
  intros E J m n d dim T terms Hd Hs samples picked Hp F. induction F as [|smp t samples picked [C [A B]] F IH]; constructor; [|apply IH; intros u Hu; apply Hp; now right].
  destruct (Hp t (or_introl eq_refl)) as [Ht Pt]. rewrite (step_is_local_energy m n d dim T Hd terms t Hs Ht Pt) in B. injection B as B. now split; [|split].
Qed.
Theorem gradient_of_terms : forall (V : Type) (E : @env R) (J : internal) (Iq : qr_names) (Is : svd_names) (L : qr_lapack R)
    (gesvd : nat -> nat -> list R -> bool * (list V * list R * list R)) (vzero vjunk : V) (greater : V -> V -> bool) (of_real : V -> R),
  NoDup [i_contract_0 J; i_contract_1 J; i_contract_2 J] -> own_names Iq Is -> qr_sound L -> svd_sound of_real vzero greater gesvd -> strict_order greater ->
  forall (M N cut d : nat) (dim : bond -> nat), 0 < cut ->
  forall (T : nat -> nat -> tensor unit R) (i j : nat), i < M -> j < N -> rows_within M N dim cut -> fits_spin M N dim d i j (T i j) ->
  forall terms : list term, (forall a, In a terms -> symmetric_term M N d a) ->
  forall (picked : nat -> list (list nat)) (samples : nat -> list (@spins R * R * R)) (g : nat -> tensor unit R),
  follows_squares M N d dim T picked -> (forall k, Forall2 (sampled_by E J M N d dim T terms) (samples k) (picked k)) ->
  (forall k, gradient_at E J Iq Is L gesvd vzero vjunk greater of_real M N cut true INR d (lattice_of M N T) (samples k) i j = Ok (g k, false)) ->
  forall p u v l r, p < d -> u < size_up dim i j -> v < size_down M dim i j -> l < size_left dim i j -> r < size_right N dim i j ->
  zeros_harmless M N d dim T (matrix_of M N terms) i j p u v l r ->
  exists D, derivable_pt_lim (fun x => energy M N d (matrix_of M N terms) (psi_with M N dim T i j p u v l r x)) (spin_elements (T i j) p u v l r) D /\
    Un_cv (fun k => spin_elements (g k) p u v l r) D.
Proof.
  intros V E J Iq Is L gesvd vzero vjunk greater of_real HJ HN HL HS HO M N cut d dim Hc T i j Hi Hj Hr HF terms Hs picked samples g Fo Sa Gr p u v l r Hp Hu Hv Hl Hrr Hz.
  apply (@gradient_limit V E J Iq Is L gesvd vzero vjunk greater of_real HJ HN HL HS HO M N cut d dim Hc T i j Hi Hj Hr HF (matrix_of M N terms) (matrix_symmetric M N d terms Hs) picked samples g Fo); try assumption.
  intros k. apply sampled_by_sampled; [lia|exact Hs|apply Fo|apply Sa].
Qed.
