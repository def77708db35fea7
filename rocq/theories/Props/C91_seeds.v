(** C91: seeds of random numbers of the processes.  [always_reaches]: whatever the interleaving, all processes come to the end (Spec/Runs.v); [drawn next state k]: the
    number drawn after k others; [never_the_same]: no two processes ever draw the same number at the same time (Spec/Seeds.v); [pick]: how a seed is drawn from the
    engine. *)
From Coq Require Import List Bool Arith NArith ZArith Lia.
From Verif Require Import Base.Outcome Model.Mpi Model.Seeds Spec.Runs Spec.Seeds Proof.SeedFacts.
Import ListNotations.
Local Open Scope N_scope.

(** ** seed: all processes give zero, or none does *)
Theorem C91_seed_zero : forall (engine : Type) (engine_seed : N -> engine) (size : nat) (device : nat -> N), (0 < size)%nat ->
  always_reaches (launch size (fun r => seed engine_seed size r (device r) 0)) (finished size (fun _ => Stop (Ok (engine_seed (device 0%nat))))).
Proof. exact @seed_zero. Qed.
Print Assumptions C91_seed_zero.
Theorem C91_seed_given : forall (engine : Type) (engine_seed : N -> engine) (size : nat) (device s : nat -> N), (forall r, (r < size)%nat -> s r <> 0) ->
  always_reaches (launch size (fun r => seed engine_seed size r (device r) (s r))) (finished size (fun r => Stop (Ok (engine_seed (s r))))).
Proof. exact @seed_given. Qed.
Print Assumptions C91_seed_given.
(** ** merge_seed: the same engine in all processes, whatever engines they had *)
Theorem C91_merge : forall (engine : Type) (engine_seed : N -> engine) (pick : engine -> N * engine), (forall e, 1 <= fst (pick e)) ->
  forall (size : nat) (device : nat -> N) (e : nat -> engine), (0 < size)%nat ->
  always_reaches (launch size (fun r => merge_seed engine_seed pick size r (device r) (e r))) (finished size (fun _ => Stop (Ok (engine_seed (fst (pick (e 0%nat))))))).
Proof. exact @merge_all. Qed.
Print Assumptions C91_merge.
(** ** split_seed: different numbers, if no seed is a multiple of 2^31 - 1 and the seeds do not wrap around; missing: the other seeds, for which the statement is false *)
Theorem C91_split_partial : forall (pick : N -> N * N) (e : N) (size : nat), fst (pick e) + N.of_nat size <= 2 ^ 32 ->
  (forall r, (r < size)%nat -> (fst (pick e) + N.of_nat r) mod 2147483647 <> 0) ->
  never_the_same minstd_next size (fun r => split_seed minstd_seed pick r e).
Proof. exact @split_different. Qed.
Print Assumptions C91_split_partial.
Theorem C91_split_refuted : ~ forall (fuel : nat) (s v st : N) (size : nat), 0 < s < 2 ^ 32 -> N.of_nat size < 2 ^ 31 -> uniform_uint32 fuel (minstd_seed s) = Some (v, st) ->
  never_the_same minstd_next size (fun r => split_seed minstd_seed (fun _ => (v, st)) r (minstd_seed s)).
Proof. exact split_refuted. Qed.
Print Assumptions C91_split_refuted.
(** after seed(1475608308) and split_seed() the processes 0 and 1 draw the same numbers for ever *)
Theorem C91_same_numbers : forall k, uniform_uint32 3 (minstd_seed 1475608308) = Some (2147483647, 1) /\
  drawn minstd_next (split_seed minstd_seed (fun _ => (2147483647, 1)) 0 (minstd_seed 1475608308)) k = drawn minstd_next (split_seed minstd_seed (fun _ => (2147483647, 1)) 1 (minstd_seed 1475608308)) k.
Proof. exact same_forever. Qed.
Print Assumptions C91_same_numbers.

(** seeds are drawn from 1, ..., 2^32 - 1 *)
Theorem C91_range : forall (fuel : nat) (st v st' : N), uniform_uint32 fuel st = Some (v, st') -> 1 <= v < 2 ^ 32.
Proof. exact uniform_range. Qed.
Print Assumptions C91_range.
Definition pick91 (e : N) : N * N := match uniform_uint32 9 e with Some p => p | None => (1, e) end.
Example C91_draws : pick91 (minstd_seed 1) = (282475249, 282475249) /\ pick91 (minstd_seed 42) = (1126542223, 1126542223).
Proof. split; vm_compute; reflexivity. Qed.
Example C91_hypotheses : (forall e, 1 <= fst (pick91 e)) /\ fst (pick91 (minstd_seed 42)) + N.of_nat 64 <= 2 ^ 32 /\
  forall r, (r < 64)%nat -> (fst (pick91 (minstd_seed 42)) + N.of_nat r) mod 2147483647 <> 0.
Proof.
  split; [|split].
  - intros e. unfold pick91. destruct (uniform_uint32 9 e) as [[v st]|] eqn:Q; [exact (proj1 (uniform_range _ _ _ _ Q))|reflexivity].
  - vm_compute. discriminate.
  - destruct C91_draws as [_ ->]. cbn [fst]. intros r Hr. rewrite N.mod_small by lia. lia.
Qed.
Example C91_split_example : map (fun r => drawn minstd_next (split_seed minstd_seed pick91 r (minstd_seed 42)) 0) [0; 1; 2]%nat = [1579310009; 1579326816; 1579343623].
Proof. vm_compute. reflexivity. Qed.
