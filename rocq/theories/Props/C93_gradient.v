(** C93: the gradient computed from samples tends to the derivative of the energy.
    The scalars are Coq's real numbers.  [h]: a symmetric matrix between the configurations of spins; [energy h f] = <f|h|f> / <f|f>; [psi_of t]: the contraction of
    the lattice with the spins [t]; [psi_with x]: the same after one element of one tensor is replaced by x (Spec/Energy.v).  [sampled]: a sample holds the
    configuration, its amplitude and its local energy (h psi)(t) / psi(t).  [follows_squares]: in the k-th list of samples every configuration occurs with a frequency
    that tends to |psi|^2 / <psi|psi>, none has amplitude zero.  No routine of LAPACK reports a failure. *)
From Coq Require Import List Bool Arith ZArith Reals Lra Lia.
From Verif Require Import Base.SMap Model.Schedule Model.Sampling Model.Statistics Spec.Bonds Spec.Sampling Spec.EnergyTerms Proof.EnergyTerms.
From Verif Require Import Base.Outcome Model.Symmetry Model.Edge Model.Core Model.EdgeOperator Model.Contract Model.Qr Model.Svd Model.Auxiliaries Model.Spins
  Spec.Blocks Spec.Contract Spec.Plain Spec.Lapack Spec.Grid Spec.Truncate Spec.Svd Spec.SquareLattice Spec.SpinLattice Spec.Energy Proof.CoreFacts Proof.SpinHistory Proof.GradientLimit Proof.GradientRun
  Proof.ScalarZ Proof.ExTensors Proof.ExFilled Proof.ExQr Proof.ExSvd.
Import ListNotations.
Open Scope nat_scope.

(** the full claim, with a condition on configurations without amplitude *)
Definition gradient_is_derivative
  (harmless : forall (M N d : nat) (dim : bond -> nat) (T : nat -> nat -> tensor unit R) (h : list nat -> list nat -> R) (i j p u v l r : nat), Prop) : Prop :=
  forall (V : Type) (E : @env R) (J : internal) (Iq : qr_names) (Is : svd_names) (L : qr_lapack R)
    (gesvd : nat -> nat -> list R -> bool * (list V * list R * list R)) (vzero vjunk : V) (greater : V -> V -> bool) (of_real : V -> R),
  NoDup [i_contract_0 J; i_contract_1 J; i_contract_2 J] -> own_names Iq Is -> qr_sound L -> svd_sound of_real vzero greater gesvd -> strict_order greater ->
  forall (M N cut d : nat) (dim : bond -> nat), 0 < cut ->
  forall (T : nat -> nat -> tensor unit R) (i j : nat), i < M -> j < N -> rows_within M N dim cut -> fits_spin M N dim d i j (T i j) ->
  forall h : list nat -> list nat -> R, symmetric M N d h ->
  forall (picked : nat -> list (list nat)) (samples : nat -> list (@spins R * R * R)) (g : nat -> tensor unit R),
  follows_squares M N d dim T picked -> (forall k, Forall2 (sampled E J M N d dim T h) (samples k) (picked k)) ->
  (forall k, gradient_at E J Iq Is L gesvd vzero vjunk greater of_real M N cut true INR d (lattice_of M N T) (samples k) i j = Ok (g k, false)) ->
  forall p u v l r, p < d -> u < size_up dim i j -> v < size_down M dim i j -> l < size_left dim i j -> r < size_right N dim i j ->
  harmless M N d dim T h i j p u v l r ->
  exists D, derivable_pt_lim (fun x => energy M N d h (psi_with M N dim T i j p u v l r x)) (spin_elements (T i j) p u v l r) D /\
    Un_cv (fun k => spin_elements (g k) p u v l r) D.

(** ** C93.  Where no configuration of amplitude zero would gain amplitude and is reached by the Hamiltonian *)
Theorem C93_derivative_partial : gradient_is_derivative zeros_harmless.
Proof. exact @gradient_limit. Qed.
Print Assumptions C93_derivative_partial.

(** one site with the amplitudes x and y *)
Definition one93 (x y : R) : tensor unit R := filled [phys] [mkEdge false [(tt, 2)]] (fun _ p => if Nat.eqb p 0 then x else y).
Definition T93 (x y : R) (i j : nat) : tensor unit R := one93 x y.
Definition E93 : @env R := mkEnv 77%R None false (fun _ => false).
Definition J93 := mkInternal 101 102 103 104 105 106.
Definition Iq93 := mkQrNames 203 204.
Definition Is93 := mkSvdNames 201 202.
Definition dim93 (b : bond) : nat := 2.
(** no routine of LAPACK is called for one site *)
Definition rqr : qr_lapack R := mkQrLapack R (fun _ _ _ => None) (fun _ _ _ => None) (fun _ _ _ _ _ => None) (fun _ _ _ _ _ => None).
Definition rsvd (m n : nat) (A : list R) : bool * (list Z * list R * list R) :=
  (false, (repeat 0%Z (Nat.min m n), repeat 0%R (m * Nat.min m n), repeat 0%R (Nat.min m n * n))).
(** the matrix that exchanges the two spins *)
Definition flip93 (t t' : list nat) : R := if list_eq_dec Nat.eq_dec t t' then 0%R else 1%R.
Definition c93 (x y : R) (s : Z) : @spins R := match run E93 J93 1 1 [SetSpin 0 0 s] (lattice_of 1 1 (T93 x y), fresh 1 1) with Ok (_, c) => c | _ => fresh 1 1 end.
Definition gradient93 (x y : R) (samples : list (@spins R * R * R)) :=
  gradient_at E93 J93 Iq93 Is93 rqr rsvd 0%Z 0%Z zgreater IZR 1 1 1 true INR 2 (lattice_of 1 1 (T93 x y)) samples 0 0.
Definition result93 (x y : R) (samples : list (@spins R * R * R)) : tensor unit R := match gradient93 x y samples with Ok (g, _) => g | _ => one93 0 0 end.

Lemma fits93 : forall x y, fits_spin 1 1 dim93 2 0 0 (one93 x y).
Proof. intros x y. constructor; [now apply (filled_wf _ _ _ _ _)|discriminate|reflexivity|reflexivity|reflexivity|reflexivity|reflexivity|intros n Hn; cbn in Hn; cbn; intuition]. Qed.
Lemma rqr_sound : qr_sound rqr.
Proof. constructor; discriminate. Qed.
Lemma rsvd_sound : svd_sound IZR 0%Z zgreater rsvd.
Proof. constructor; [|discriminate]. intros m n A ok s U VT _ _ _ H. injection H as <- <- <- <-. now rewrite !repeat_length. Qed.
Lemma psi93 : forall x y, psi_of 1 1 dim93 (T93 x y) [0] = x /\ psi_of 1 1 dim93 (T93 x y) [1] = y.
Proof. intros x y. split; cbv -[Rmult IZR]; lra. Qed.
Lemma configured93 : forall x y s, s < 2 -> configured E93 J93 1 1 dim93 2 (T93 x y) (c93 x y (Z.of_nat s)) (as_spins 1 [s]).
Proof.
  intros x y s Hs. assert (D : s = 0 \/ s = 1) by lia. exists (T93 x y), [SetSpin 0 0 (Z.of_nat s)]. eexists. split; [intros i j Hi Hj; assert (i = 0) by lia; assert (j = 0) by lia; subst; apply fits93|].
  split; [constructor; [|constructor]; cbn [proper]; lia|]. split; [intros [|a [|b l]] i j t after H; discriminate H|].
  split; [destruct D as [-> | ->]; lazy -[Rplus Rmult IZR]; reflexivity|]. intros i j Hi Hj. assert (i = 0) by lia. assert (j = 0) by lia. subst. split; [reflexivity|]. split; [cbn; reflexivity|]. unfold as_spins. lia.
Qed.
Lemma all93 : forall t, In t (all_spins 1 1 2) -> t = [0] \/ t = [1].
Proof. intros t [<-|[<-|[]]]; auto. Qed.
Lemma flip93_symmetric : symmetric 1 1 2 flip93.
Proof. intros t t' _ _. unfold flip93. destruct (list_eq_dec _ t t'), (list_eq_dec _ t' t); congruence. Qed.
Lemma applied93 : forall x y, applied_to 1 1 2 flip93 (psi_of 1 1 dim93 (T93 x y)) [0] = y /\ applied_to 1 1 2 flip93 (psi_of 1 1 dim93 (T93 x y)) [1] = x.
Proof. intros x y. destruct (psi93 x y) as [P0 P1]. split; unfold applied_to, total, all_spins; cbn [Nat.mul repeat tuples seq flat_map map app fold_right Nat.add]; rewrite P0, P1; unfold flip93; cbn; lra. Qed.
Lemma squares93 : forall x y, squares 1 1 2 (psi_of 1 1 dim93 (T93 x y)) = (x * x + y * y)%R.
Proof. intros x y. destruct (psi93 x y) as [P0 P1]. unfold squares, total, all_spins. cbn [Nat.mul repeat tuples seq flat_map map app fold_right Nat.add]. rewrite P0, P1. lra. Qed.

(** amplitudes 1 and 2: one sample of spin 0 for every four of spin 1.  The energy 4 x / (x x + 4) has the derivative 12 / 25 at 1, and that is computed *)
Definition picked93 (k : nat) : list (list nat) := [[0]; [1]; [1]; [1]; [1]].
Definition samples93 (k : nat) : list (@spins R * R * R) := (c93 1 2 0, 1%R, 2%R) :: repeat (c93 1 2 1, 2%R, (1 / 2)%R) 4.
Example C93_hypotheses : follows_squares 1 1 2 dim93 (T93 1 2) picked93 /\ (forall k, Forall2 (sampled E93 J93 1 1 2 dim93 (T93 1 2) flip93) (samples93 k) (picked93 k)) /\
  (forall k, gradient93 1 2 (samples93 k) = Ok (result93 1 2 (samples93 k), false)) /\ zeros_harmless 1 1 2 dim93 (T93 1 2) flip93 0 0 0 0 0 0 0.
Proof.
  destruct (psi93 1 2) as [P0 P1]. destruct (applied93 1 2) as [A0 A1]. split; [|split; [|split]].
  - split.
    + intros k. split; [discriminate|]. intros t Ht. assert (D : t = [0] \/ t = [1]) by (cbn in Ht; intuition). destruct D as [-> | ->]; (split; [cbn; auto|]); rewrite ?P0, ?P1; lra.
    + intros t Ht. rewrite squares93. destruct (all93 t Ht) as [-> | ->]; rewrite ?P0, ?P1; cbn [occurrences picked93 count_occ length]; eapply limit_ext; try apply limit_const; intros k; cbn; lra.
  - assert (S0 : sampled E93 J93 1 1 2 dim93 (T93 1 2) flip93 (c93 1 2 0, 1%R, 2%R) [0]).
    { split; [exact (configured93 1 2 0 ltac:(lia))|]. cbn [fst snd]. split; [now rewrite P0|]. unfold local_energy. rewrite A0, P0. lra. }
    assert (S1 : sampled E93 J93 1 1 2 dim93 (T93 1 2) flip93 (c93 1 2 1, 2%R, (1 / 2)%R) [1]).
    { split; [exact (configured93 1 2 1 ltac:(lia))|]. cbn [fst snd]. split; [now rewrite P1|]. unfold local_energy. rewrite A1, P1. lra. }
    intros k. unfold samples93, picked93. cbn [repeat]. repeat (constructor; [assumption|]). constructor.
  - intros k. unfold gradient93, result93, gradient93, samples93. lazy -[Rplus Rmult Rdiv Rminus Rinv Ropp IZR INR]. reflexivity.
  - intros t Ht Hz. destruct (all93 t Ht) as [-> | ->]; [rewrite P0 in Hz|rewrite P1 in Hz]; lra.
Qed.
Example C93_example : (forall k, spin_elements (result93 1 2 (samples93 k)) 0 0 0 0 0 = 12 / 25)%R.
Proof. intros k. unfold spin_elements, result93, gradient93, samples93. lazy -[Rplus Rmult Rdiv Rminus Rinv Ropp IZR INR]. cbn [INR]. field. Qed.

(** ** The Hamiltonian as a sum of terms.  The energy that a step of the sampling computes from the terms is the local energy of their matrix, which is symmetric where the operators are *)
Theorem C93_local_energy : forall (M N d : nat) (dim : bond -> nat) (T : nat -> nat -> tensor unit R), 0 < d ->
  forall (terms : list term) (t : list nat), (forall a, In a terms -> symmetric_term M N d a) -> In t (all_spins M N d) -> psi_of M N dim T t <> 0%R ->
  step_energy zero_real (amplitude_of M N dim T) Rdiv Rmult (fun x => x) (Z.of_nat d) (map (fun a => (t_sites a, t_operator a)) terms) (in_rows M N t) (psi_of M N dim T t)
  = Ok (Some (local_energy M N d dim T (matrix_of M N terms) t)).
Proof. exact step_is_local_energy. Qed.
Print Assumptions C93_local_energy.
Theorem C93_symmetric : forall (M N d : nat) (terms : list term), (forall a, In a terms -> symmetric_term M N d a) -> symmetric M N d (matrix_of M N terms).
Proof. exact matrix_symmetric. Qed.
Print Assumptions C93_symmetric.
(** so the gradient computed with these energies tends to the derivative of the energy of the sum of the terms *)
Theorem C93_terms_partial : forall (V : Type) (E : @env R) (J : internal) (Iq : qr_names) (Is : svd_names) (L : qr_lapack R)
    (gesvd : nat -> nat -> list R -> bool * (list V * list R * list R)) (vzero vjunk : V) (greater : V -> V -> bool) (of_real : V -> R),
  NoDup [i_contract_0 J; i_contract_1 J; i_contract_2 J] -> own_names Iq Is -> qr_sound L -> svd_sound of_real vzero greater gesvd -> strict_order greater ->
  forall (M N cut d : nat) (dim : bond -> nat), 0 < cut ->
  forall (T : nat -> nat -> tensor unit R) (i j : nat), i < M -> j < N -> rows_within M N dim cut -> fits_spin M N dim d i j (T i j) ->
  forall terms : list term, (forall a, In a terms -> symmetric_term M N d a) ->
  forall (picked : nat -> list (list nat)) (samples : nat -> list (@spins R * R * R)) (g : nat -> tensor unit R),
  follows_squares M N d dim T picked -> (forall k, Forall2 (sampled_by E J M N d dim T terms) (samples k) (picked k)) ->
  (forall k, gradient_at E J Iq Is L gesvd vzero vjunk greater of_real M N cut true INR d (lattice_of M N T) (samples k) i j = Ok (g k, false)) ->
  forall p u v l r, p < d -> u < size_up dim i j -> v < size_down M dim i j -> l < size_left dim i j -> r < size_right N dim i j ->
  zeros_harmless M N d dim T (matrix_of M N terms) i j p u v l r ->
  exists D, derivable_pt_lim (fun x => energy M N d (matrix_of M N terms) (psi_with M N dim T i j p u v l r x)) (spin_elements (T i j) p u v l r) D /\
    Un_cv (fun k => spin_elements (g k) p u v l r) D.
Proof. exact gradient_of_terms. Qed.
Print Assumptions C93_terms_partial.

(** the operator that exchanges the two spins of the site: its matrix is the one of the example above *)
Definition exchange93 (index : list Z) : R := if Z.eqb (nth 0 index 0%Z) (nth 1 index 0%Z) then 0%R else 1%R.
Definition term93 : term := mkTerm [(0, 0)%Z] (mkOperator 1 (fun index => Ok (exchange93 index))) exchange93.
Lemma term93_symmetric : symmetric_term 1 1 2 term93.
Proof.
  unfold symmetric_term, term93. cbn [t_sites t_operator t_elements body]. split; [repeat constructor; intros []|]. split; [intros p [<-|[]]; split; cbn [fst snd]; lia|]. split; [reflexivity|].
  split; [split; [discriminate|intros; reflexivity]|]. split.
  - intros ins [L V]. destruct ins as [|a [|b ins]]; try discriminate L. exists [(1 - a)%Z]. pose proof (V a (or_introl eq_refl)) as B. split; [split; [reflexivity|intros s [<-|[]]; cbn [body] in *; lia]|].
    cbn [app]. apply zero_real_false. unfold exchange93. cbn [nth]. destruct (Z.eqb_spec a (1 - a)); [lia|lra].
  - intros ins outs [L _] [L' _]. destruct ins as [|a [|b ins]]; try discriminate L. destruct outs as [|a' [|b' outs]]; try discriminate L'. unfold exchange93. cbn [app nth]. now rewrite Z.eqb_sym.
Qed.
Example C93_terms_example : (forall t t', In t (all_spins 1 1 2) -> In t' (all_spins 1 1 2) -> matrix_of 1 1 [term93] t t' = flip93 t t') /\
  (forall k, Forall2 (sampled_by E93 J93 1 1 2 dim93 (T93 1 2) [term93]) (samples93 k) (picked93 k)).
Proof.
  assert (Mx : forall t t', In t (all_spins 1 1 2) -> In t' (all_spins 1 1 2) -> matrix_of 1 1 [term93] t t' = flip93 t t').
  { intros t t' Ht Ht'. destruct (all93 t Ht) as [-> | ->]; destruct (all93 t' Ht') as [-> | ->]; unfold matrix_of, flip93, exchange93; cbv -[Rplus IZR]; lra. }
  split; [exact Mx|]. destruct (psi93 1 2) as [P0 P1]. destruct (applied93 1 2) as [A0 A1].
  assert (St : forall a, In a [term93] -> symmetric_term 1 1 2 a) by (intros a [<-|[]]; exact term93_symmetric).
  assert (Q : forall t, In t (all_spins 1 1 2) -> local_energy 1 1 2 dim93 (T93 1 2) (matrix_of 1 1 [term93]) t = local_energy 1 1 2 dim93 (T93 1 2) flip93 t).
  { intros t Ht. unfold local_energy, applied_to. f_equal. apply total_ext. intros t' Ht'. now rewrite Mx. }
  assert (S0 : sampled_by E93 J93 1 1 2 dim93 (T93 1 2) [term93] (c93 1 2 0, 1%R, 2%R) [0]).
  { split; [exact (configured93 1 2 0 ltac:(lia))|]. cbn [fst snd]. split; [now rewrite P0|]. rewrite step_is_local_energy, Q; [|cbn; auto|lia|exact St|cbn; auto|rewrite P0; lra]. unfold local_energy. rewrite A0, P0. do 2 f_equal. lra. }
  assert (S1 : sampled_by E93 J93 1 1 2 dim93 (T93 1 2) [term93] (c93 1 2 1, 2%R, (1 / 2)%R) [1]).
  { split; [exact (configured93 1 2 1 ltac:(lia))|]. cbn [fst snd]. split; [now rewrite P1|]. rewrite step_is_local_energy, Q; [|cbn; auto|lia|exact St|cbn; auto|rewrite P1; lra]. unfold local_energy. rewrite A1, P1. do 2 f_equal; lra. }
  intros k. unfold samples93, picked93. cbn [repeat]. repeat (constructor; [assumption|]). constructor.
Qed.

(** without the condition: the amplitudes are 0 and 1, all samples have spin 1.  The energy 2 x / (x x + 1) has the derivative 2 at 0, the gradient computed is 0 *)
Theorem C93_derivative_refuted : ~ gradient_is_derivative (fun _ _ _ _ _ _ _ _ _ _ _ _ _ => True).
Proof.
  set (smp := fun _ : nat => [(c93 0 1 1, 1%R, 0%R)]).
  destruct (psi93 0 1) as [P0 P1]. destruct (applied93 0 1) as [A0 A1].
  assert (F : follows_squares 1 1 2 dim93 (T93 0 1) (fun _ => [[1]])).
  { split.
    - intros k. split; [discriminate|]. intros t [<-|[]]. split; [cbn; auto|]. rewrite P1. lra.
    - intros t Ht. rewrite squares93. destruct (all93 t Ht) as [-> | ->]; rewrite ?P0, ?P1; cbn [occurrences count_occ length]; eapply limit_ext; try apply limit_const; intros k; cbn; lra. }
  assert (N1 : NoDup [i_contract_0 J93; i_contract_1 J93; i_contract_2 J93]) by (repeat constructor; cbn; intuition discriminate).
  assert (N2 : own_names Iq93 Is93) by (split; [discriminate|]; split; [discriminate|]; intros [| | |]; repeat split; discriminate).
  assert (R1 : rows_within 1 1 dim93 1) by (intros i j Hi; lia).
  assert (S1 : forall k, Forall2 (sampled E93 J93 1 1 2 dim93 (T93 0 1) flip93) (smp k) [[1]]).
  { intros k. constructor; [|constructor]. split; [exact (configured93 0 1 1 ltac:(lia))|]. cbn [fst snd]. split; [now rewrite P1|]. unfold local_energy. rewrite A1, P1. lra. }
  assert (G1 : forall k : nat, gradient93 0 1 (smp k) = Ok (result93 0 1 (smp 0), false)).
  { intros k. unfold smp, result93, gradient93. lazy -[Rplus Rmult Rdiv Rminus Rinv Ropp IZR INR]. reflexivity. }
  assert (B : 0 < 1 /\ 0 < 2) by lia. destruct B as [B B2].
  intros H. destruct (H Z E93 J93 Iq93 Is93 rqr rsvd 0%Z 0%Z zgreater IZR N1 N2 rqr_sound rsvd_sound zgreater_order 1 1 1 2 dim93 B (T93 0 1) 0 0 B B R1 (fits93 0 1) flip93 flip93_symmetric
    (fun _ : nat => [[1]]) smp (fun _ : nat => result93 0 1 (smp 0)) F S1 G1 0 0 0 0 0 B2 B B B B I) as [D [D1 D2]]. clear H.
  assert (D0 : D = 0%R).
  { apply (UL_sequence _ _ _ D2). eapply limit_ext; [|apply limit_const]. intros k. unfold spin_elements, result93, gradient93, smp. lazy -[Rplus Rmult Rdiv Rminus Rinv Ropp IZR INR]. cbn [INR]. field. }
    assert (Q : squares 1 1 2 (psi_of 1 1 dim93 (T93 0 1)) <> 0%R) by (rewrite squares93; lra).
    pose proof (uniqueness_limite _ _ _ _ D1 (energy_slope 1 1 2 dim93 (T93 0 1) flip93 0 0 0 0 0 0 0 ltac:(lia) ltac:(lia) flip93_symmetric Q)) as U.
    assert (W : slope 1 1 2 dim93 (T93 0 1) flip93 0 0 0 0 0 0 0 = 2%R).
    { unfold slope, top. rewrite squares93. unfold total, all_spins. cbn [Nat.mul repeat tuples seq flat_map map app fold_right Nat.add]. rewrite P0, P1, A0, A1.
      assert (Q0 : dpsi 1 1 dim93 (T93 0 1) 0 0 0 0 0 0 0 [0] = 1%R) by (cbv -[Rmult IZR]; lra).
      assert (Q1 : dpsi 1 1 dim93 (T93 0 1) 0 0 0 0 0 0 0 [1] = 0%R) by (cbv -[Rmult IZR]; lra). rewrite Q0, Q1. field. }
    rewrite D0, W in U. lra.
Qed.
Print Assumptions C93_derivative_refuted.
