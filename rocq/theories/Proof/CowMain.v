(** The statements of C26, C62 and C63 put together from the facts on single steps. *)
From Coq Require Import String List Bool Arith ZArith Lia.
From Verif Require Import Base.Outcome Base.SMap Model.Symmetry Model.Edge Model.Core Model.EdgeOperator
  Model.Elementwise Model.Cow Spec.Copies Proof.SymmetryFacts Proof.ScalarZ Proof.ExTensors Proof.CowFacts Proof.CowStep Proof.CowSelf.
Import ListNotations.

Section CowMain.
  Context {S R : Type} {SS : Sym S} {SL : SymLaws S} {RR : Scalar R}.
  Variable E : @env R.

  Lemma others_unchanged : forall p q st1 st2 y,
    run E (@empty_state S R) p = Ok st1 -> run E st1 q = Ok st2 -> forallb direct q = true -> ~ In y (flat_map touched q) ->
    read st2 y = read st1 y.
  Proof. intros p q st1 st2 y Hp Hq D Hy. apply (run_others E q); auto. exact (run_inv E p _ _ inv_empty Hp). Qed.

  Lemma as_if_own : forall p st s, run E (@empty_state S R) p = Ok st -> direct s = true -> no_self s = true ->
    match own E (read st) s with
    | Ok f => exists st', step E st s = Ok (st', None) /\ forall y, read st' y = f y
    | Throw e => exists st', step E st s = Ok (st', Some e) /\
        forall y, (forall x op z, s = STensor x op z -> e <> OutOfRange) -> read st' y = read st y
    | UB => step E st s = UB
    | OutOfFuel => step E st s = OutOfFuel
    end.
  Proof.
    intros p st s Hp D N. pose proof (run_inv E p _ _ inv_empty Hp) as I. pose proof (step_own E st s I D N) as H.
    assert (G : outcome st (own E (read st) s) (step E st s) -> match own E (read st) s with
      | Ok f => exists st', step E st s = Ok (st', None) /\ forall y, read st' y = f y
      | Throw e => exists st', step E st s = Ok (st', Some e) /\
          forall y, (forall x op z, s = STensor x op z -> e <> OutOfRange) -> read st' y = read st y
      | UB => step E st s = UB
      | OutOfFuel => step E st s = OutOfFuel
      end).
    { unfold outcome. destruct (own E (read st) s); auto; intros [st' [H1 [H2 H3]]]; exists st'; auto. }
    destruct s; try (apply G; exact H). unfold outcome_but in H.
    destruct (own E (read st) (STensor x op y)) as [f|e| |]; try (apply G; exact H).
    destruct H as [st' [H1 [H2 H3]]]. exists st'. split; auto. intros z Hz. apply H3. right. now apply (Hz x op y).
  Qed.
End CowMain.

(** a write through a kept reference reaches the copy *)
Definition v2 : edge unit := mkEdge false [(tt, 2)].
Definition held_p1 : list (@stmt unit Z) := [SNew 0 [1] [v2] false; STransform 0 (fun _ => 5%Z)].
Definition held_ref : @stmt unit Z := SRef 0 0 [(1, (tt, 1))].
Definition held_p2 : list (@stmt unit Z) := [SCopy 1 0].
Definition before_write : res (@state unit Z) := run exE empty_state (held_p1 ++ held_ref :: held_p2).
Definition elem0 (st : @state unit Z) (x : nat) : res Z :=
  match read st x with Some t => const_at t [(1, (tt, 1))] | None => UB end.

Lemma held_values :
  bind before_write (fun st => elem0 st 1) = Ok 5%Z /\
  bind before_write (fun st => bind (step exE st (SWrite 0 7%Z)) (fun r => elem0 (fst r) 1)) = Ok 7%Z.
Proof. split; vm_compute; reflexivity. Qed.

Lemma held_reference :
  ~ (forall (p1 p2 : list (@stmt unit Z)) r x pos y v st1 st2, y <> x ->
       run exE empty_state (p1 ++ SRef r x pos :: p2) = Ok st1 ->
       (forall x' pos', ~ In (SRef r x' pos') p2) ->
       step exE st1 (SWrite r v) = Ok (st2, None) -> read st2 y = read st1 y).
Proof.
  intro H. destruct held_values as [H1 H2].
  destruct before_write as [st1|e| |] eqn:Eb; try discriminate H1. cbn [bind] in H1, H2.
  destruct (step exE st1 (SWrite 0 7%Z)) as [[st2 o]|e| |] eqn:Es; try discriminate H2. cbn [bind fst] in H2.
  assert (Ho : o = None).
  { cbn [step] in Es. destruct (mfind 0 (st_refs st1)) as [l|]; [|discriminate]. cbn [get_or_ub bind] in Es.
    destruct (fetch st1 _) as [c|e| |]; try discriminate. cbn [bind] in Es.
    destruct (poke c _ _ _) as [c'|e| |]; try discriminate. cbn [bind] in Es. congruence. }
  subst o. unfold elem0 in H1, H2.
  rewrite (H held_p1 held_p2 0 0 [(1, (tt, 1))] 1 7%Z st1 st2) in H2; auto.
  - rewrite H1 in H2. discriminate.
  - intros x' pos' [Hin|[]]. discriminate.
Qed.
