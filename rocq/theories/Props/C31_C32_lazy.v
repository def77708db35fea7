(** C31, C32: lazy evaluation graphs.  [expected]: the outputs of a program on cells without caches, Spec/Reactive.v. *)
From Coq Require Import List Bool Arith.
From Verif Require Import Base.Outcome Model.Lazy Spec.Reactive Proof.LazyFacts.
Import ListNotations.

(** ** C31.  A program that uses only handles it holds, and reads only cells whose roots have values, gets at every read the value of the
    functions applied to the present root values.  [expected] gives the list of these values. *)
Theorem C31_reads_are_current :
  forall (V : Type) (ops : list (op V)) outs w, expected ops no_world = Some (outs, w) -> exists m, run ops = Ok (outs, m).
Proof. exact @run_spec. Qed.
Print Assumptions C31_reads_are_current.
(** in particular after any program without Load every cell held can be read, provided the roots have values *)
Theorem C31_every_cell_readable :
  forall (V : Type) (ops : list (op V)) outs w i v, forallb (fun o => negb (is_load o)) ops = true -> expected ops no_world = Some (outs, w) ->
  holds w i = true -> meaning (defs w) i = Some v -> exists m, run (ops ++ [Read i]) = Ok (outs ++ [v], m).
Proof. exact @lazy_current. Qed.
Print Assumptions C31_every_cell_readable.

Definition plus_all (l : list nat) : nat := fold_right plus 0 l.
(** two roots, a shared node, a path, a node using both; roots changed between reads, a handle dropped *)
Definition diamond : list (op nat) :=
  [NewRoot (Some 1); NewRoot (Some 10); NewNode plus_all [0; 1]; NewPath plus_all [2; 2]; NewNode plus_all [2; 3; 0];
   Read 4; SetRoot 0 2; Read 4; DropHandle 2; Read 3; SetRoot 1 20; Read 4; UnsetRoot 1; SetRoot 1 30; Read 3].
Example C31_example : (exists w, expected diamond no_world = Some ([34; 38; 24; 68; 64], w)) /\ exists m, run diamond = Ok ([34; 38; 24; 68; 64], m).
Proof. split; vm_compute; eexists; reflexivity. Qed.

(** ** C32.  Full statement, false of the code: a node created after the dump keeps what it computed before the load. *)
Definition C32_claim : Prop := forall (h1 h2 : list (op nat)) outs1 w1 outs2 w2 i v,
  expected h1 no_world = Some (outs1, w1) -> expected (h1 ++ Dump :: h2) no_world = Some (outs2, w2) -> forallb (fun o => negb (is_load o)) (h1 ++ h2) = true ->
  holds w2 i = true -> meaning (restore (defs w1) (defs w2)) i = Some v ->
  exists m, run ((h1 ++ Dump :: h2) ++ [Load (length (saved w1)); Read i]) = Ok (outs2 ++ [v], m).
Theorem C32_younger_nodes_refuted : ~ C32_claim.
Proof.
  intro C. destruct (C [NewRoot (Some 1)] [SetRoot 0 2; NewNode plus_all [0]; Read 1] [] _ [2] _ 1 1 eq_refl eq_refl eq_refl eq_refl eq_refl) as [m E].
  vm_compute in E. discriminate.
Qed.
Print Assumptions C32_younger_nodes_refuted.
(** what holds: every cell that existed at the dump returns what it returned then, whatever happened in between (other dumps and loads included) *)
Theorem C32_restored_partial :
  forall (V : Type) (h1 h2 : list (op V)) outs1 w1 outs2 w2 i v,
  forallb (fun o => negb (is_load o)) h1 = true -> expected h1 no_world = Some (outs1, w1) -> expected (h1 ++ Dump :: h2) no_world = Some (outs2, w2) ->
  i < length (defs w1) -> holds w2 i = true -> meaning (defs w1) i = Some v ->
  exists m, run ((h1 ++ Dump :: h2) ++ [Load (length (saved w1)); Read i]) = Ok (outs2 ++ [v], m).
Proof. exact @lazy_restored. Qed.
Print Assumptions C32_restored_partial.
(** what follows the load is covered by C31_reads_are_current, whose programs may contain Dump and Load *)
Definition undo : list (op nat) :=
  [NewRoot (Some 1); NewNode plus_all [0; 0]; Read 1; Dump; SetRoot 0 5; Read 1; NewRoot (Some 7); NewNode plus_all [2]; NewNode plus_all [1; 3]; Read 4;
   Dump; Load 0; Read 1; Read 3; SetRoot 0 6; Read 1; Load 1; Read 4; Read 0; Load 0; Read 0].
Example C32_example : exists w m, expected undo no_world = Some ([2; 10; 17; 2; 7; 12; 17; 5; 1], w) /\ run undo = Ok ([2; 10; 17; 2; 7; 12; 17; 5; 1], m).
Proof. eexists. eexists. split; vm_compute; reflexivity. Qed.
