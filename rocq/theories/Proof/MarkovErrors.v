(** The mean that Markov sampling returns is the mean of the values at its steps. *)
From Coq Require Import List Bool Arith ZArith Reals Lra Lia.
From Verif Require Import Base.Outcome Base.SMap Model.Symmetry Model.Schedule Model.Sampling Model.Statistics Spec.Bonds Spec.Lattice Spec.Sampling Spec.Statistics Proof.MarkovFacts Proof.StatFacts.
Import ListNotations.
Open Scope nat_scope.

Section Values.
  Context {V : Type}.
  Variables (is_zero : V -> bool) (amplitude : configuration -> V) (over : V -> V -> V) (norm : V -> R) (times : V -> V -> V) (part : V -> R).
  Variables (d : Z) (hamiltonians : list (positions * operator V)) (sequence : list positions) (ps : positions) (op : operator V).
  Notation loop := (markov_loop is_zero amplitude over norm times part d hamiltonians sequence ps op).
  Notation values := (markov_values is_zero amplitude over norm times part d hamiltonians sequence ps op).
  Definition collect (result value : option R) : option R := match result, value with Some r, Some v => Some (r + v)%R | _, _ => None end.
  Definition finish (n : nat) (result : option R) : option R := match n, result with S _, Some r => Some (r / INR n)%R | _, _ => None end.
  Lemma loop_values : forall total state result k (g : option R -> R),
    expect (loop total state result) (fun r => g (finish (k + total) r)) = expect (values total state) (fun l => g (finish (k + length l) (fold_left collect l result))).
  Proof.
    induction total as [|total IH]; intros state result k g; [reflexivity|]. cbn [markov_loop markov_values]. rewrite !expect_bind. f_equal.
    apply FunctionalExtensionality.functional_extensionality. intros state'. rewrite !expect_bind. f_equal. apply FunctionalExtensionality.functional_extensionality. intros v.
    rewrite expect_bind. pose proof (IH state' (collect result v) (S k) g) as X. replace (S k + total) with (k + S total) in X by lia. refine (eq_trans X _). f_equal. apply FunctionalExtensionality.functional_extensionality. intros l.
    cbn [expect length fold_left]. replace (k + S (length l)) with (S k + length l) by lia. reflexivity.
  Qed.
  Lemma collect_numbers : forall l r, fold_left collect l (Some r) = option_map (fun l' => fold_left Rplus l' r) (numbers l).
  Proof.
    assert (N : forall l, fold_left collect l None = None) by (induction l as [|v l IH]; [reflexivity|exact IH]).
    induction l as [|[v|] l IH]; intros r; cbn [fold_left numbers]; [reflexivity| |].
    - cbn [collect]. rewrite IH. destruct (numbers l); reflexivity.
    - cbn [collect]. now rewrite N.
  Qed.
  Lemma numbers_length : forall l l', numbers l = Some l' -> length l' = length l.
  Proof. induction l as [|[v|] l IH]; intros l' H; cbn in H; [now injection H as <-| |discriminate]. destruct (numbers l) as [l0|]; [|discriminate]. injection H as <-. cbn. now rewrite (IH l0). Qed.
  Lemma finish_mean : forall l, finish (length l) (fold_left collect l (Some 0%R)) = mean_of l.
  Proof.
    intros l. rewrite collect_numbers. unfold mean_of. destruct (numbers l) as [l'|] eqn:E; cbn [option_map]; [|now destruct (length l)].
    rewrite <- (numbers_length l l' E). destruct l' as [|x l']; reflexivity.
  Qed.
  Theorem markov_is_mean : forall total c (g : option R -> R),
    expect (markov is_zero amplitude over norm times part d hamiltonians sequence ps op total c) g = expect (values total (c, amplitude c)) (fun l => g (mean_of l)).
  Proof.
    intros total c g. unfold markov. rewrite expect_bind. cbn [expect].
    transitivity (expect (values total (c, amplitude c)) (fun l => g (finish (0 + length l) (fold_left collect l (Some 0%R))))).
    - rewrite <- loop_values. reflexivity.
    - f_equal. apply FunctionalExtensionality.functional_extensionality. intros l. cbn [Nat.add]. now rewrite finish_mean.
  Qed.
End Values.
