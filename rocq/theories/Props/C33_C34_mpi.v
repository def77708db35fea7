(** C33, C34: broadcast and reduce.  [always_reaches], [combined], [broadcasts], [announced]: Spec/Runs.v. *)
From Coq Require Import String List Bool Arith ZArith Permutation.
From Verif Require Import Base.Outcome Model.Mpi Spec.Runs Proof.MpiFacts.
Import ListNotations.

(** ** C33.  Whatever the interleaving and the buffering, all processes end, with the root's value, and no message is left over. *)
Theorem C33_broadcast_delivers :
  forall (V : Type) size (root : Z) (val : nat -> V), valid_root root size = true ->
  always_reaches (launch size (fun r => broadcast size r root (val r) (fun v => Stop (Ok v)))) (finished size (fun _ => Stop (Ok (val (Z.to_nat root))))).
Proof. exact @broadcast_delivers. Qed.
Print Assumptions C33_broadcast_delivers.
(** any number of broadcasts in a row, with changing roots and values that depend on what was received before, do not disturb each other *)
Theorem C33_broadcasts_in_a_row :
  forall (V : Type) size (rounds : list (Z * (list V -> nat -> V))), (forall r, In r rounds -> valid_root (fst r) size = true) ->
  always_reaches (launch size (fun r => broadcasts size r rounds [])) (finished size (fun _ => Stop (Ok (announced rounds [])))).
Proof. exact @broadcasts_deliver. Qed.
Print Assumptions C33_broadcasts_in_a_row.
(** an invalid root is an error on every process *)
Theorem C33_invalid_root :
  forall (V : Type) size rank (root : Z) (value : V) (k : V -> prog V V), size <> 1 -> valid_root root size = false ->
  broadcast size rank root value k = Stop (tat_error "Invalid root rank when mpi broadcast").
Proof. exact @broadcast_invalid. Qed.
Print Assumptions C33_invalid_root.

Example C33_valid : valid_root 2 5 = true /\ valid_root 5 5 = false /\ valid_root (-1) 5 = false.
Proof. repeat split. Qed.
(** five processes, root 2: process 2 sends to 3 and 4, process 3 to 0 and 1 *)
Example C33_tree : broadcast 5 2 2 7 (fun v => Stop (Ok v)) = Send 3 7 (Send 4 7 (Stop (Ok 7))) /\
  (exists k, broadcast 5 3 2 0 (fun v => Stop (Ok v)) = Receive 2 k /\ k 7 = Send 0 7 (Send 1 7 (Stop (Ok 7)))) /\
  exists k, broadcast 5 1 2 0 (fun v => Stop (Ok v)) = Receive 3 k /\ k 7 = Stop (Ok 7).
Proof. split; [reflexivity|]. split; eexists; split; reflexivity. Qed.
Example C33_rounds : forall r, In r [(2%Z, fun (seen : list nat) (rank : nat) => rank * 10); (4%Z, fun seen rank => rank + fold_right plus 0 seen)] -> valid_root (fst r) 5 = true.
Proof. intros r [<-|[<-|[]]]; reflexivity. Qed.
Example C33_rounds_result : announced [(2%Z, fun (seen : list nat) (rank : nat) => rank * 10); (4%Z, fun seen rank => rank + fold_right plus 0 seen)] [] = [20; 24].
Proof. reflexivity. Qed.

(** ** C34.  Whatever the interleaving and the buffering, all processes end; the root has the combination of the values of all processes, each once,
    grouped along the binary tree in which node f, process (f + root) mod size, has the sons 2f+1 and 2f+2. *)
Theorem C34_reduce_combines :
  forall (V : Type) size (root : Z) op (val : nat -> V), valid_root root size = true ->
  exists result, always_reaches (launch size (fun r => reduce size r root op (val r) (fun o => Stop (Ok o)))) (finished size (fun r => Stop (Ok (result r)))) /\
  exists ranks v, result (Z.to_nat root) = Some v /\ combined size op (fun f => val ((f + Z.to_nat root) mod size)) 0 ranks v /\
    Permutation (map (fun f => (f + Z.to_nat root) mod size) ranks) (seq 0 size).
Proof. exact @reduce_combines. Qed.
Print Assumptions C34_reduce_combines.
(** the tree fixes the grouping *)
Theorem C34_tree_is_fixed :
  forall (V : Type) size op (val : nat -> V) f rs v rs' v', combined size op val f rs v -> combined size op val f rs' v' -> rs = rs' /\ v = v'.
Proof. exact @combined_unique. Qed.
Print Assumptions C34_tree_is_fixed.
(** an associative and commutative function: the plain fold *)
Theorem C34_reduce_folds :
  forall (V : Type) size (root : Z) op (val : nat -> V), valid_root root size = true ->
  (forall a b c, op a (op b c) = op (op a b) c) -> (forall a b, op a b = op b a) ->
  exists result, always_reaches (launch size (fun r => reduce size r root op (val r) (fun o => Stop (Ok o)))) (finished size (fun r => Stop (Ok (result r)))) /\
    result (Z.to_nat root) = Some (fold_left op (map val (seq 1 (size - 1))) (val 0)).
Proof. exact @reduce_folds. Qed.
Print Assumptions C34_reduce_folds.
Theorem C34_invalid_root :
  forall (V : Type) size rank (root : Z) op (value : V) (k : option V -> prog V (option V)), size <> 1 -> valid_root root size = false ->
  reduce size rank root op value k = Stop (tat_error "Invalid root rank when mpi reduce").
Proof. exact @reduce_invalid. Qed.
Print Assumptions C34_invalid_root.

(** five processes, root 2: what processes 2 and 3 do *)
Example C34_tree : (exists k, reduce 5 3 2 Nat.sub 100 (fun o => Stop (Ok o)) = Receive 0 k /\ exists k', k 1 = Receive 1 k' /\ k' 2 = Send 2 97 (Stop (Ok (Some 97)))) /\
  (exists k, reduce 5 2 2 Nat.sub 1000 (fun o => Stop (Ok o)) = Receive 3 k /\ exists k', k 97 = Receive 4 k' /\ k' 3 = Stop (Ok (Some 900))) /\
  reduce 5 4 2 Nat.sub 3 (fun o => Stop (Ok o)) = Send 2 3 (Stop (Ok None)).
Proof.
  split; [|split; [|reflexivity]].
  - eexists. split; [reflexivity|]. eexists. split; reflexivity.
  - eexists. split; [reflexivity|]. eexists. split; reflexivity.
Qed.
Example C34_combined : combined 5 Nat.sub (fun f => nth f [1000; 100; 3; 1; 2] 0) 0 [0; 1; 3; 4; 2] 900.
Proof.
  apply (two_sons 5 Nat.sub (fun f => nth f [1000; 100; 3; 1; 2] 0) 0 [1; 3; 4] 97 [2] 3); [repeat constructor| |].
  - apply (two_sons 5 Nat.sub (fun f => nth f [1000; 100; 3; 1; 2] 0) 1 [3] 1 [4] 2); [repeat constructor| |].
    + apply (leaf 5 Nat.sub (fun f => nth f [1000; 100; 3; 1; 2] 0) 3). repeat constructor.
    + apply (leaf 5 Nat.sub (fun f => nth f [1000; 100; 3; 1; 2] 0) 4). repeat constructor.
  - apply (leaf 5 Nat.sub (fun f => nth f [1000; 100; 3; 1; 2] 0) 2). repeat constructor.
Qed.
