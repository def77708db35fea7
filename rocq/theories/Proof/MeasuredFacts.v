(** The sampling measures the transposed of the operator that the updates apply. *)
From Coq Require Import List Bool Arith ZArith Reals Lra Lia Permutation.
From Verif Require Import Base.Outcome Base.SMap Model.Symmetry Model.Edge Model.Core Model.Schedule Model.Sampling Model.Statistics
  Spec.Blocks Spec.Bonds Spec.Lattice Spec.Sampling Spec.ExactOperator Spec.Contract Spec.Plain Spec.Grid Spec.SpinLattice Spec.Energy Spec.EnergyTerms Spec.Evolution Spec.Measured
  Proof.CoreFacts Proof.ObserveFacts Proof.SpinFacts Proof.GradientLimit Proof.GradientRun Proof.EvolutionFacts Proof.EvolutionEigen Proof.ErgodicFacts Proof.EnergyTerms.
Import ListNotations.
Open Scope nat_scope.

Lemma total_permutation : forall l l' f, Permutation l l' -> total l f = total l' f.
Proof. intros l l' f P. unfold total. induction P; cbn; try lra; congruence. Qed.
Lemma total_filter : forall (b : list nat -> bool) l f, total l (fun t => if b t then f t else 0%R) = total (filter b l) f.
Proof. intros b l f. unfold total. induction l as [|t l IH]; cbn; [reflexivity|]. destruct (b t); cbn; rewrite IH; lra. Qed.

Lemma pair_dec : forall a b : nat * nat, {a = b} + {a <> b}.
Proof. decide equality; apply Nat.eq_dec. Qed.

Section Put.
  Variables (m n d : nat) (ps : list (nat * nat)).
  Hypotheses (ND : NoDup ps) (On : forall p, In p ps -> fst p < m /\ snd p < n).
  (** the list of the spins s *)
  Definition listed (s : nat -> nat -> nat) : list nat := map (fun k => s (k / n) (k mod n)) (seq 0 (m * n)).
  Lemma listed_spin : forall s i j, i < m -> j < n -> spin_on n (listed s) i j = s i j.
  Proof.
    intros s i j Hi Hj. unfold spin_on, listed. rewrite (nth_indep _ 0 ((fun k => s (k / n) (k mod n)) 0)) by (rewrite map_length, seq_length; nia).
    rewrite (map_nth (fun k => s (k / n) (k mod n))), seq_nth by nia. cbn [Nat.add]. rewrite Nat.div_add_l, Nat.div_small, Nat.add_0_r by lia. now rewrite (Nat.add_comm (i * n) j), Nat.mod_add, Nat.mod_small by lia.
  Qed.
  Lemma spins_equal : forall t t', length t = m * n -> length t' = m * n -> (forall i j, i < m -> j < n -> spin_on n t i j = spin_on n t' i j) -> t = t'.
  Proof.
    intros t t' L L' H. apply (nth_ext t t' 0 0); [congruence|]. intros k Hk. rewrite L in Hk. assert (n <> 0) by nia.
    pose proof (Nat.div_mod k n ltac:(assumption)) as D. pose proof (Nat.mod_upper_bound k n ltac:(assumption)) as B.
    specialize (H (k / n) (k mod n) ltac:(apply Nat.div_lt_upper_bound; lia) B). unfold spin_on in H. now replace (k / n * n + k mod n) with k in H by lia.
  Qed.
  Lemma find_none : forall q i j, ~ In (i, j) ps -> find (fun pq : (nat * nat) * nat => pair_eqb (fst pq) (i, j)) (combine ps q) = None.
  Proof.
    intros q i j H. destruct (find _ _) as [[p x]|] eqn:E; [|reflexivity]. apply find_some in E as [E1 E2]. cbn [fst] in E2. apply pair_eqb_spec in E2. subst p. exfalso. apply H. now apply in_combine_l in E1.
  Qed.
  Lemma agree_spec : forall t t', agree_off (Z.of_nat m) (Z.of_nat n) (integer_sites ps) (in_rows m n t) (in_rows m n t') = true <->
    forall i j, i < m -> j < n -> ~ In (i, j) ps -> spin_on n t i j = spin_on n t' i j.
  Proof.
    intros t t'. unfold agree_off. rewrite forallb_forall. split.
    - intros H i j Hi Hj Hn. assert (C : In (Z.of_nat i, Z.of_nat j) (cells (Z.of_nat m) (Z.of_nat n))) by (apply in_cells; unfold inside; cbn [fst snd]; lia).
      apply H in C. apply orb_true_iff in C as [C|C].
      + apply existsb_exists in C as [p [Hp Ep]]. exfalso. apply Hn. unfold integer_sites in Hp. apply in_map_iff in Hp as [[a b] [<- Hp]]. cbn [fst snd] in Ep.
        apply (proj1 (SMap.eqb_true _ _)) in Ep. pose proof (f_equal fst Ep) as E1. pose proof (f_equal snd Ep) as E2. cbn [fst snd] in E1, E2. apply Nat2Z.inj in E1, E2. now subst.
      + rewrite !spin_in_rows in C by assumption. apply Z.eqb_eq in C. now apply Nat2Z.inj in C.
    - intros H [x y] C. apply in_cells in C as [Hx Hy]. cbn [fst snd] in Hx, Hy. apply orb_true_iff.
      destruct (in_dec pair_dec (Z.to_nat x, Z.to_nat y) ps) as [I|I].
      + left. apply existsb_exists. exists (x, y). split; [|apply SMap.eqb_true; reflexivity]. unfold integer_sites. apply in_map_iff. exists (Z.to_nat x, Z.to_nat y). cbn [fst snd]. split; [f_equal; lia|exact I].
      + right. specialize (H (Z.to_nat x) (Z.to_nat y) ltac:(lia) ltac:(lia) I). replace x with (Z.of_nat (Z.to_nat x)) by lia. replace y with (Z.of_nat (Z.to_nat y)) by lia. rewrite !spin_in_rows by lia. apply Z.eqb_eq. now rewrite H.
  Qed.
  Lemma put_other : forall s q i j, ~ In (i, j) ps -> spins_put s ps q i j = s i j.
  Proof. intros s q i j H. unfold spins_put. now rewrite find_none. Qed.
  Lemma put_bounded : forall s q i j, s i j < d -> site_spins (length ps) d q -> spins_put s ps q i j < d.
  Proof.
    intros s q i j Hs [L B]. unfold spins_put. destruct (find _ _) as [[p x]|] eqn:E; [|exact Hs]. apply find_some in E as [E _]. apply in_combine_r in E. now apply B.
  Qed.
  Lemma connected : forall t, In t (all_spins m n d) ->
    Permutation (filter (fun t' => agree_off (Z.of_nat m) (Z.of_nat n) (integer_sites ps) (in_rows m n t) (in_rows m n t')) (all_spins m n d))
      (map (fun q => listed (spins_put (spin_on n t) ps q)) (spin_tuples d (length ps))).
  Proof.
    intros t Ht. apply tuples_in in Ht as [Lt Bt].
    assert (Bd : forall i j, i < m -> j < n -> spin_on n t i j < d) by (intros i j Hi Hj; apply Bt; unfold spin_on; apply nth_In; rewrite Lt; nia).
    assert (Rd : forall q, length q = length ps -> map (fun p => spin_on n (listed (spins_put (spin_on n t) ps q)) (fst p) (snd p)) ps = q).
    { intros q L. transitivity (map (fun p => spins_put (spin_on n t) ps q (fst p) (snd p)) ps); [|now apply put_read_many]. apply map_ext_in. intros p Hp. destruct (On p Hp). now apply listed_spin. }
    apply NoDup_Permutation.
    - apply NoDup_filter. apply tuples_nodup, seq_NoDup.
    - assert (NDt := spin_tuples_nodup d (length ps)). assert (A : forall q, In q (spin_tuples d (length ps)) -> length q = length ps) by (intros q Hq; now apply spin_tuples_in in Hq as [? _]). revert NDt A.
      generalize (spin_tuples d (length ps)). induction l as [|q l IH]; intros NDt A; cbn; [constructor|]. inversion NDt as [|? ? N0 N1]; subst. constructor; [|apply IH; [exact N1|intros; apply A; now right]].
      intros H. apply in_map_iff in H as [q' [E Hq']]. apply N0. rewrite <- (Rd q), <- E, (Rd q'); [exact Hq'|apply A; now right|apply A; now left].
    - intros t'. rewrite filter_In, in_map_iff, agree_spec. split.
      + intros [Ht' Ag]. apply tuples_in in Ht' as [Lt' Bt']. exists (map (fun p => spin_on n t' (fst p) (snd p)) ps). split.
        * apply spins_equal; [unfold listed; now rewrite map_length, seq_length|exact Lt'|]. intros i j Hi Hj. rewrite listed_spin by assumption.
          destruct (in_dec pair_dec (i, j) ps) as [I|I]; [|rewrite put_other by exact I; now apply Ag].
          assert (Q := put_read_many (spin_on n t) ps (map (fun p => spin_on n t' (fst p) (snd p)) ps) ND ltac:(apply map_length)).
          exact (proj1 map_ext_in_iff Q (i, j) I).
        * apply spin_tuples_in. split; [apply map_length|]. intros x Hx. apply in_map_iff in Hx as [p [<- Hp]]. destruct (On p Hp). apply Bt'. unfold spin_on. apply nth_In. rewrite Lt'. nia.
      + intros [q [<- Hq]]. apply spin_tuples_in in Hq. split.
        * apply tuples_in. split; [unfold listed; now rewrite map_length, seq_length|]. intros x Hx. unfold listed in Hx. apply in_map_iff in Hx as [k [<- Hk]]. apply in_seq in Hk. assert (n <> 0) by nia.
          apply put_bounded; [|exact Hq]. apply Bd; [apply Nat.div_lt_upper_bound; lia|now apply Nat.mod_upper_bound].
        * intros i j Hi Hj I. rewrite listed_spin by assumption. now rewrite put_other.
  Qed.
End Put.

Section Measured.
  Variables (m n d : nat) (dim : bond -> nat) (T : nat -> nat -> tensor unit R) (ps : list (nat * nat)) (A : tensor unit R).
  Hypotheses (Hd : 0 < d) (ND : NoDup ps) (On : forall p, In p ps -> fst p < m /\ snd p < n) (Ne : ps <> []) (NZ : rows_nonzero (length ps) d A).
  Notation k := (length ps).
  Lemma sites_inside : forall p, In p (integer_sites ps) -> inside (Z.of_nat m) (Z.of_nat n) p.
  Proof. intros p Hp. apply in_map_iff in Hp as [q [<- Hq]]. destruct (On q Hq). unfold inside. cbn [fst snd]. lia. Qed.
  Lemma sites_nodup : NoDup (integer_sites ps).
  Proof.
    unfold integer_sites. clear On Ne NZ. induction ps as [|p l IH]; cbn; [constructor|]. inversion ND as [|? ? N0 N1]; subst. constructor; [|now apply IH].
    intros H. apply in_map_iff in H as [[a b] [E H]]. injection E as E1 E2. apply Nat2Z.inj in E1, E2. destruct p. cbn [fst snd] in *. subst. contradiction.
  Qed.
  Lemma integer_spins : forall l, spins_of (Z.of_nat d) k l -> site_spins k d (map Z.to_nat l).
  Proof. intros l [L V]. split; [now rewrite map_length|]. intros x Hx. apply in_map_iff in Hx as [y [<- Hy]]. apply V in Hy. lia. Qed.
  Lemma element_split : forall a b, length a = k -> element_at k A (a ++ b) = operator_element k A (map Z.to_nat a) (map Z.to_nat b).
  Proof. intros a b L. unfold element_at. now rewrite <- L, firstn_app, skipn_app, Nat.sub_diag, firstn_all, skipn_all, firstn_O, skipn_O, app_nil_r. Qed.
  Lemma spins_of_rows : forall t, map Z.to_nat (spins_at (in_rows m n t) (integer_sites ps)) = map (fun p => spin_on n t (fst p) (snd p)) ps.
  Proof.
    intros t. unfold spins_at, integer_sites. rewrite !map_map. apply map_ext_in. intros p Hp. destruct (On p Hp). rewrite spin_in_rows by assumption. apply Nat2Z.id.
  Qed.
  Theorem measured_transposed : forall t, In t (all_spins m n d) -> psi_of m n dim T t <> 0%R ->
    observe zero_real (amplitude_of m n dim T) Rdiv Rmult (fun x => x) Rplus 0%R (Z.of_nat d) (integer_sites ps) (read_by_sampling k A) (in_rows m n t) (psi_of m n dim T t) =
    Ok (Some (applied_transposed d ps A (wave m n dim T) (spin_on n t) / psi_of m n dim T t)%R).
  Proof.
    intros t Ht Pt. rewrite <- (amplitude_rows m n dim T).
    assert (Act : acts_as (Z.of_nat d) (read_by_sampling k A) (element_at k A)).
    { split; [cbn; destruct ps; [now elim Ne|discriminate]|]. intros index L V. cbn [read_by_sampling Sampling.element body] in *. now rewrite (proj2 (Nat.eqb_eq _ _) L). }
    assert (B : body (read_by_sampling k A) = length (integer_sites ps)) by (unfold integer_sites; now rewrite map_length).
    destruct (observe_value zero_real (amplitude_of m n dim T) Rdiv Rmult (fun x => x) (Z.of_nat m) (Z.of_nat n) (Z.of_nat d) (integer_sites ps) (read_by_sampling k A) (element_at k A)
      ltac:(lia) Act B sites_nodup sites_inside (fun x y => x * y)%R) with (c := in_rows m n t) (all := map (in_rows m n) (all_spins m n d)) as [v [Ev Hv]].
    - intros x y Hy. apply zero_real_false in Hy. now field.
    - intros x y z Hx. unfold zero_real in Hx. destruct (Req_EM_T x 0) as [->|]; [ring|discriminate].
    - apply rows_enumerate.
    - apply tuples_in in Ht as [H1 H2]. now apply rows_valid.
    - intros ins Hi. cbn [read_by_sampling body] in *. destruct (NZ _ (integer_spins ins Hi)) as [outs [[Lo Bo] No]]. exists (map Z.of_nat outs).
      split; [split; [now rewrite map_length|]; intros x Hx; apply in_map_iff in Hx as [y [<- Hy]]; apply Bo in Hy; lia|]. apply zero_real_false. rewrite element_split by (now destruct Hi). rewrite map_map, (map_ext _ (fun x => x)), map_id by apply Nat2Z.id. exact No.
    - rewrite amplitude_rows. now apply zero_real_false.
    - rewrite Ev. f_equal. f_equal. rewrite amplitude_rows in *.
      assert (Q : (v * psi_of m n dim T t = applied_transposed d ps A (wave m n dim T) (spin_on n t))%R).
      { apply (Rmult_eq_reg_r (psi_of m n dim T t)); [|exact Pt]. rewrite Rmult_assoc, Hv, Rmult_comm. unfold applied_transposed. rewrite (Sums_tuples real_exact).
        transitivity (psi_of m n dim T t * total (all_spins m n d) (fun t' => if agree_off (Z.of_nat m) (Z.of_nat n) (integer_sites ps) (in_rows m n t) (in_rows m n t') then
          element_at k A (spins_at (in_rows m n t) (integer_sites ps) ++ spins_at (in_rows m n t') (integer_sites ps)) * psi_of m n dim T t' else 0))%R.
        { rewrite <- total_scale. unfold total, Spec.Sampling.rsum. rewrite map_map. f_equal. apply map_ext. intros t'. rewrite amplitude_rows. destruct (agree_off _ _ _ _ _); ring. }
        f_equal. rewrite total_filter, (total_permutation _ _ _ (connected m n d ps ND On t Ht)). unfold total. rewrite map_map. unfold Spec.Contract.rsum.
        change (@radd R ScalarReal) with Rplus. change (@rzero R ScalarReal) with 0%R. f_equal. apply map_ext_in. intros q Hq. apply spin_tuples_in in Hq as [Lq _].
        rewrite element_split by (unfold spins_at, integer_sites; now rewrite !map_length). rewrite !spins_of_rows, Rmult_comm. f_equal.
        - unfold wave, psi_of, psi. apply network_ext_range; [exact real_exact|]. intros i j u w l r Hi Hj _. unfold as_spins. now rewrite listed_spin.
        - f_equal. transitivity (map (fun p => spins_put (spin_on n t) ps q (fst p) (snd p)) ps); [|now apply put_read_many]. apply map_ext_in. intros p Hp. destruct (On p Hp). now apply listed_spin. }
      rewrite <- Q. now field.
  Qed.
  Theorem measured_symmetric : symmetric_operator k d A -> forall t, In t (all_spins m n d) -> psi_of m n dim T t <> 0%R ->
    observe zero_real (amplitude_of m n dim T) Rdiv Rmult (fun x => x) Rplus 0%R (Z.of_nat d) (integer_sites ps) (read_by_sampling k A) (in_rows m n t) (psi_of m n dim T t) =
    Ok (Some (applied d ps A (wave m n dim T) (spin_on n t) / psi_of m n dim T t)%R).
  Proof.
    intros Sy t Ht Pt. rewrite (measured_transposed t Ht Pt). do 3 f_equal. unfold applied_transposed, applied. rewrite !(Sums_tuples real_exact). f_equal. apply map_ext_in. intros q Hq. apply spin_tuples_in in Hq.
    apply f_equal. apply Sy; [|exact Hq]. split; [apply map_length|]. intros x Hx. apply in_map_iff in Hx as [p [<- Hp]]. apply tuples_in in Ht as [Lt Bt]. destruct (On p Hp). apply Bt. unfold spin_on. apply nth_In. rewrite Lt. nia.
  Qed.
End Measured.
