(** C41, C54: the simple update.  [always_reaches], [finished]: Spec/Runs.v; [sweeps], [oriented], [local_term], [inside]: Spec/Bonds.v; [shaped]: Spec/Lattice.v. *)
From Coq Require Import String List Bool Arith ZArith Permutation.
From Verif Require Import Base.Outcome Base.SMap Model.Symmetry Model.Schedule Model.Lazy Model.Mpi Model.SimpleUpdate Spec.Bonds Spec.Runs Spec.Lattice Proof.SimpleUpdateFacts.
Import ListNotations.
Open Scope Z_scope.

(** ** C41.  One group: whatever the number of processes, the interleaving and the buffering, every process ends with the network that one process
    gets by executing the terms of the group one after the other, in any order. *)
Theorem C41_group_is_sequential :
  forall (T S U : Type) (multiple : T -> S -> side -> bool -> T) (site_update : T -> U -> T) (bond_update : bool -> T -> T -> U -> T * S * T) (normalized : T -> T) (blank : S)
    M N (updater : list (positions * U)) (keys : list positions) gs g size n,
  NoDup keys -> oriented keys -> (forall p, In p keys -> local_term p /\ forall a, In a p -> inside M N a) ->
  (forall p, In p keys -> exists u, mfind p updater = Some u) -> simple_update_sequence keys = Ok gs -> In g gs -> (0 < size)%nat -> shaped M N n ->
  exists n', (forall order, Permutation order g -> foldM (term_of multiple site_update bond_update normalized updater) order n = Ok n') /\
    always_reaches (launch size (fun r => group_update multiple site_update bond_update normalized blank size r updater g n (fun n => Stop (Ok n)))) (finished size (fun _ => Stop (Ok n'))).
Proof. exact @one_group. Qed.
Print Assumptions C41_group_is_sequential.
(** The whole update: any number of sweeps, forward and backward through the groups. *)
Theorem C41_update_is_sequential :
  forall (T S U : Type) (multiple : T -> S -> side -> bool -> T) (site_update : T -> U -> T) (bond_update : bool -> T -> T -> U -> T * S * T) (normalized : T -> T) (blank : S)
    M N (exponential : nat -> nat -> U) steps (hs : list (positions * nat)) size n,
  NoDup (map fst hs) -> oriented (map fst hs) -> (forall p, In p (map fst hs) -> local_term p /\ forall a, In a p -> inside M N a) -> (0 < size)%nat -> shaped M N n ->
  exists gs n', simple_update_sequence (map fst hs) = Ok gs /\ foldM (term_of multiple site_update bond_update normalized (make_updater exponential hs)) (sweeps steps gs) n = Ok n' /\
    always_reaches (launch size (fun r => simple_update multiple site_update bond_update normalized blank exponential steps size r hs n)) (finished size (fun _ => Stop (Ok n'))).
Proof. exact @whole_update. Qed.
Print Assumptions C41_update_is_sequential.
(** Every term is updated with the exponential of its own operator. *)
Theorem C41_own_operator :
  forall (U : Type) (exponential : nat -> nat -> U) (hs : list (positions * nat)), (forall p q h, In (p, h) hs -> In (q, h) hs -> length p = length q) -> NoDup (map fst hs) ->
  forall p h, In (p, h) hs -> mfind p (make_updater exponential hs) = Some (exponential (length p) h).
Proof. exact @updater_exponential. Qed.
Print Assumptions C41_own_operator.

(** a lattice with one row and three columns of numbers; the bond update adds the operator to one side and the neighbour's value to the other *)
Definition toy_bond (_ : bool) (l r u : Z) : Z * Z * Z := (l + u, l * r, r + l).
Definition toy_term := term_of (fun t s _ (division : bool) => if division then t - s else t + s) Z.mul toy_bond (fun t => t).
Definition row3 : network Z Z := mkNetwork [[1; 2; 3]] [].
Definition terms3 : list (positions * nat) := [([(0, 0)], 7%nat); ([(0, 0); (0, 1)], 8%nat); ([(0, 1); (0, 2)], 8%nat)].
Example C41_terms : NoDup (map fst terms3) /\ oriented (map fst terms3) /\ (forall p, In p (map fst terms3) -> local_term p /\ forall a, In a p -> inside 1 3 a) /\ shaped 1 3 row3.
Proof.
  split; [repeat constructor; cbn; intuition discriminate|]. split; [|split].
  - intros a b Ha Hb. cbn in Ha, Hb. repeat match goal with H : _ \/ _ |- _ => destruct H | H : False |- _ => destruct H end; try discriminate; inversion H; inversion H0; congruence.
  - intros p Hp. cbn in Hp. repeat match goal with H : _ \/ _ |- _ => destruct H as [<-|H] | H : False |- _ => destruct H end;
      (split; [first [left; eexists; reflexivity|right; eexists; eexists; split; reflexivity]|]);
      intros a Ha; cbn in Ha; repeat match goal with H : _ \/ _ |- _ => destruct H as [<-|H] | H : False |- _ => destruct H end; unfold inside; cbn; Lia.lia.
  - split; [split; [reflexivity|intros row [<-|[]]; reflexivity]|constructor].
Qed.
Example C41_result : exists gs, simple_update_sequence (map fst terms3) = Ok gs /\
  foldM (toy_term (make_updater (fun sites h => Z.of_nat (sites * 10 + h)) terms3)) (sweeps 1 gs) row3 =
  Ok (mkNetwork [[1819; 313; 296]] [((DirR, (0, 0)), 1080246); ((DirR, (0, 1)), 13440)]).
Proof. eexists. split; [reflexivity|]. vm_compute. reflexivity. Qed.

(** ** C54.  A bond update that does [first] to the first and [second] to the second of its two tensors (environments left out): the sites should get
    them in the order in which the term lists them.  False: the left or upper site always counts as first. *)
Theorem C54_site_order_refuted :
  ~ forall (T S U : Type) (first second : U -> T -> T) (s0 : S) M N a b u n t t', adjacent a b -> inside M N a -> inside M N b -> shaped M N n ->
    lookup (fst a) (snd a) (lattice n) = Some t -> lookup (fst b) (snd b) (lattice n) = Some t' ->
    exists n', single_term (fun t (_ : S) _ _ => t) (fun t _ => t) (fun _ l r u => (first u l, s0, second u r)) (fun t => t) [a; b] u n = Ok n' /\
      lookup (fst a) (snd a) (lattice n') = Some (first u t) /\ lookup (fst b) (snd b) (lattice n') = Some (second u t').
Proof. exact order_matters. Qed.
Print Assumptions C54_site_order_refuted.
(** it is right when the left or upper site is listed first *)
Theorem C54_ascending_partial :
  forall (T S U : Type) (first second : U -> T -> T) (s0 : S) M N a b u n t t', adjacent a b -> fst a <= fst b -> snd a <= snd b -> inside M N a -> inside M N b -> shaped M N n ->
    lookup (fst a) (snd a) (lattice n) = Some t -> lookup (fst b) (snd b) (lattice n) = Some t' ->
    exists n', single_term (fun t (_ : S) _ _ => t) (fun t _ => t) (fun _ l r u => (first u l, s0, second u r)) (fun t => t) [a; b] u n = Ok n' /\
      lookup (fst a) (snd a) (lattice n') = Some (first u t) /\ lookup (fst b) (snd b) (lattice n') = Some (second u t').
Proof. exact @ascending_order. Qed.
Print Assumptions C54_ascending_partial.
(** the update does not depend on the listed order at all *)
Theorem C54_order_ignored :
  forall (T S U : Type) (multiple : T -> S -> side -> bool -> T) (site_update : T -> U -> T) (bond_update : bool -> T -> T -> U -> T * S * T) (normalized : T -> T) a b u (n : network T S),
  single_term multiple site_update bond_update normalized [b; a] u n = single_term multiple site_update bond_update normalized [a; b] u n.
Proof. exact @order_ignored. Qed.
Print Assumptions C54_order_ignored.
Example C54_case : adjacent (0, 1) (1, 1) /\ fst (0, 1) <= fst (1, 1) /\ inside 2 2 (0, 1) /\ inside 2 2 (1, 1) /\ shaped 2 2 (mkNetwork [[1; 2]; [3; 4]] ([] : list (bond * Z))).
Proof. repeat split; cbn; try Lia.lia; try constructor. intros row [<-|[<-|[]]]; reflexivity. Qed.
