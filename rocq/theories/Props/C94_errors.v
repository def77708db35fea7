(** C94: the statistical errors that Markov sampling returns beside the means.
    [error_square l]: the error for one observer that has the values l at the steps; None: not a number; [energy_error_square]: the one printed for the energy
    (Model/Statistics.v).  [draws n f]: the mean of f over lists of n independent samples of a finite distribution with weights w (Spec/Statistics.v). *)
From Coq Require Import List Bool Arith ZArith Lia QArith Qreals Reals Lra.
From Verif Require Import Base.Outcome Base.SMap Model.Symmetry Model.Schedule Model.Sampling Model.Statistics Spec.Bonds Spec.Lattice Spec.Sampling Spec.Statistics
  Proof.MarkovFacts Proof.StatFacts Proof.MarkovErrors Proof.ExSampling.
Import ListNotations.
Open Scope nat_scope.

(** the values are those whose mean is returned *)
Theorem C94_mean :
  forall (V : Type) (is_zero : V -> bool) (psi : configuration -> V) (over : V -> V -> V) (norm : V -> R) (times : V -> V -> V) (part : V -> R)
    (d : Z) (hamiltonians : list (positions * operator V)) (sequence : list positions) (ps : positions) (op : operator V) (n : nat) (c : configuration) (g : option R -> R),
  expect (markov is_zero psi over norm times part d hamiltonians sequence ps op n c) g =
  expect (markov_values is_zero psi over norm times part d hamiltonians sequence ps op n (c, psi c)) (fun l => g (mean_of l)).
Proof. exact @markov_is_mean. Qed.
Print Assumptions C94_mean.

(** from two steps on the square is a number, not negative, and zero exactly if all values are equal *)
Theorem C94_nonnegative : forall l : list R, 2 <= length l ->
  exists e, error_square (map Some l) = Some e /\ (0 <= e)%R /\ (e = 0%R <-> forall x y, In x l -> In y l -> x = y).
Proof. exact error_nonnegative. Qed.
Print Assumptions C94_nonnegative.
Example C94_nonnegative_case : error_square (map Some [1; 2; 6]%R) = Some (7 / 3)%R.
Proof. unfold error_square, sum_of. cbn. f_equal. field. Qed.

(** for one step there is none *)
Theorem C94_one_step_refuted : ~ (forall l : list R, l <> [] -> error_square (map Some l) <> None).
Proof. intros H. now apply (H [1%R]). Qed.
Print Assumptions C94_one_step_refuted.

(** independent samples: on average the square of the deviation of the mean *)
Theorem C94_independent :
  forall (A : Type) (outcomes : list A) (w : A -> R), distribution outcomes w -> forall (n : nat) (v : A -> R), 2 <= n ->
  draws outcomes w n (fun l => value_of (error_square (map (fun a => Some (v a)) l))) =
  draws outcomes w n (fun l => ((arithmetic_mean (map v l) - average outcomes w v) * (arithmetic_mean (map v l) - average outcomes w v))%R).
Proof. exact @error_unbiased. Qed.
Print Assumptions C94_independent.
(** and for the energy, if the terms are uncorrelated *)
Theorem C94_energy_partial :
  forall (A : Type) (outcomes : list A) (w : A -> R), distribution outcomes w -> forall (n : nat) (terms : list (A -> R)), 2 <= n ->
  ForallOrdPairs (uncorrelated outcomes w) terms ->
  let energy a := fold_right Rplus 0%R (map (fun f => f a) terms) in
  draws outcomes w n (fun l => value_of (energy_error_square (map (fun f => map (fun a => Some (f a)) l) terms))) =
  draws outcomes w n (fun l => ((arithmetic_mean (map energy l) - average outcomes w energy) * (arithmetic_mean (map energy l) - average outcomes w energy))%R).
Proof. exact @energy_error. Qed.
Print Assumptions C94_energy_partial.
(** two independent coins *)
Definition coins : list (bool * bool) := [(false, false); (false, true); (true, false); (true, true)].
Definition fair (ab : bool * bool) : R := (1 / 4)%R.
Definition first (ab : bool * bool) : R := if fst ab then 1%R else (-1)%R.
Definition second (ab : bool * bool) : R := if snd ab then 3%R else 0%R.
Example C94_hypotheses : distribution coins fair /\ ForallOrdPairs (uncorrelated coins fair) [first; second] /\ (average coins fair first <> average coins fair second)%R.
Proof.
  split; [unfold distribution, average, fair, coins; cbn; lra|]. split.
  - repeat constructor. unfold uncorrelated, average, fair, first, second, coins. cbn. lra.
  - unfold average, fair, first, second, coins. cbn. lra.
Qed.
(** not if they are correlated: two equal terms *)
Theorem C94_energy_refuted :
  ~ (forall (A : Type) (outcomes : list A) (w : A -> R), distribution outcomes w -> forall (n : nat) (terms : list (A -> R)), 2 <= n ->
     let energy a := fold_right Rplus 0%R (map (fun f => f a) terms) in
     draws outcomes w n (fun l => value_of (energy_error_square (map (fun f => map (fun a => Some (f a)) l) terms))) =
     draws outcomes w n (fun l => ((arithmetic_mean (map energy l) - average outcomes w energy) * (arithmetic_mean (map energy l) - average outcomes w energy))%R)).
Proof.
  intros H. specialize (H _ coins fair (proj1 C94_hypotheses) 2 [first; first] (le_n 2)). cbv zeta in H.
  unfold energy_error_square, error_square, sum_of, arithmetic_mean, average, fair, first, coins in H. cbn in H. lra.
Qed.
Print Assumptions C94_energy_refuted.

(** ** the samples of a Markov chain, started from a configuration drawn from the squared wave function *)
Definition one_site : positions := [(0, 0)%Z].
Definition diagonal (index : list Z) : Q := match index with [a; b] => if (a =? b)%Z then inject_Z (1 + a) else 0%Q | _ => 0%Q end.
Definition diagonal_op : operator Q := mkOperator 1 (fun index => Ok (diagonal index)).
Theorem C94_markov_refuted :
  ~ (forall (V : Type) (is_zero : V -> bool) (psi : configuration -> V) (over : V -> V -> V) (norm : V -> R) (M N d : Z) all, (0 < d)%Z -> enumerates M N d all ->
     (forall a b, is_zero b = false -> norm (over a b) = norm a / norm b)%R -> (forall v, 0 <= norm v)%R -> (forall v, is_zero v = true <-> norm v = 0%R) ->
     forall hamiltonians sequence, (forall ps, In ps sequence -> exists op, mfind ps hamiltonians = Some op /\ safe_term is_zero M N d ps op) ->
     forall (times : V -> V -> V) (part : V -> R) (ps : positions) (op : operator V) (el : list Z -> V) (overlap : V -> V -> R),
     acts_as d op el -> body op = length ps -> NoDup ps -> (forall p, In p ps -> inside M N p) -> no_zero_row is_zero d op el ->
     (forall x y, is_zero y = false -> part (over x y) * overlap y y = overlap y x)%R -> (forall x y z, is_zero x = true -> overlap y (times x z) = 0%R) ->
     (forall x, norm x = overlap x x) -> (forall x y, is_zero x = true -> overlap x y = 0%R) ->
     forall n, 2 <= n -> (0 < rsum (map (fun c => norm (psi c)) all))%R ->
     let mean_over (f : list (option R) -> R) := rsum (map (fun c => norm (psi c) * expect (markov_values is_zero psi over norm times part d hamiltonians sequence ps op n (c, psi c)) f)%R all) in
     mean_over (fun l => value_of (error_square l)) =
     mean_over (fun l => let deviation := (value_of (mean_of l) - expectation M N ps el psi times overlap all)%R in (deviation * deviation)%R)).
Proof.
  assert (A : acts_as 2 diagonal_op diagonal) by (split; [discriminate|reflexivity]).
  assert (Z1 : no_zero_row zeroQ 2 diagonal_op diagonal).
  { intros ins [L1 V1]. exists ins. split; [now split|]. destruct ins as [|a [|b ins]]; try discriminate L1. assert (B : (0 <= a < 2)%Z) by (apply V1; now left).
    assert (D : a = 0%Z \/ a = 1%Z) by lia. destruct D as [-> | ->]; reflexivity. }
  assert (S1 : safe_term zeroQ 1 2 2 one_site diagonal_op).
  { split.
    - split; [repeat constructor; intros []|]. split; [intros p [<-|[]]; unfold inside; cbn; lia|]. split; [reflexivity|]. exists diagonal. split; [exact A|].
      intros ins outs [L1 _] [L2 _]. destruct ins as [|a [|b ins]]; try discriminate L1. destruct outs as [|a' [|b' outs]]; try discriminate L2. cbn [app diagonal].
      rewrite (Z.eqb_sym a' a). destruct (Z.eqb_spec a a') as [->|]; reflexivity.
    - intros el Hel. exact (no_zero_row_unique _ _ _ _ _ _ A Hel Z1). }
  intros H.
  specialize (H Q zeroQ psi2 Qdiv normQ 1%Z 2%Z 2%Z all2 ltac:(lia) all2_enumerates normQ_over normQ_nonneg normQ_zero [(one_site, diagonal_op)] [one_site]).
  specialize (H ltac:(intros ps [<-|[]]; exists diagonal_op; split; [reflexivity|exact S1])).
  specialize (H Qmult Q2R one_site diagonal_op diagonal overlapQ A eq_refl ltac:(repeat constructor; intros []) ltac:(intros p [<-|[]]; unfold inside; cbn; lia) Z1
    overQ_overlap zeroQ_overlap ltac:(reflexivity) overlapQ_zero 2 (le_n 2)).
  assert (P : (0 < rsum (map (fun c => normQ (psi2 c)) all2))%R) by (unfold rsum, all2, normQ, psi2, Q2R; cbn; lra).
  specialize (H P). cbv zeta in H.
  assert (X : expectation 1 2 one_site diagonal psi2 Qmult overlapQ all2 = (9 / 5)%R).
  { lazy -[Rplus Rmult Rdiv Rminus Rinv Ropp Q2R IZR]. unfold Q2R. cbn [Qnum Qden]. field. }
  rewrite X in H. revert H. unfold all2. cbn [map]. lazy -[Rplus Rmult Rdiv Rminus Rinv Ropp Q2R IZR INR not]. unfold Q2R. cbn [Qnum Qden INR]. intros H. field_simplify in H. lra.
Qed.
Print Assumptions C94_markov_refuted.
