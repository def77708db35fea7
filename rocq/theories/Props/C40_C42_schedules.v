(** C40, C42: the order in which Hamiltonian terms are visited.  [oriented], [local_term], [inside], [share_no_site]: Spec/Bonds.v. *)
From Coq Require Import String List Bool Arith ZArith Permutation.
From Verif Require Import Base.Outcome Base.SMap Model.Symmetry Model.Schedule Model.SimpleUpdate Spec.Bonds Spec.Lattice Proof.ScheduleFacts Proof.SimpleUpdateFacts.
Import ListNotations.
Open Scope Z_scope.

(** ** C40 *)
Theorem C40_every_term_once :
  forall (keys : list positions) gs, NoDup keys -> simple_update_sequence keys = Ok gs -> Permutation (concat gs) keys.
Proof. exact simple_update_exactly_once. Qed.
Print Assumptions C40_every_term_once.
(** the schedule is found for single sites and nearest neighbours *)
Theorem C40_schedule_found :
  forall M N (keys : list positions), NoDup keys -> (forall p, In p keys -> local_term p /\ forall a, In a p -> inside M N a) -> exists gs, simple_update_sequence keys = Ok gs.
Proof. exact simple_update_succeeds. Qed.
Print Assumptions C40_schedule_found.
Theorem C40_no_common_site :
  forall (keys : list positions) gs g (p q : positions), simple_update_sequence keys = Ok gs -> oriented keys -> In g gs -> In p g -> In q g -> p <> q -> share_no_site p q.
Proof. exact simple_update_disjoint. Qed.
Print Assumptions C40_no_common_site.
(** no term reads an environment that another term of its group writes: changing it first or last makes no difference *)
Theorem C40_environment_unread :
  forall (T S U : Type) (multiple : T -> S -> side -> bool -> T) (site_update : T -> U -> T) (bond_update : bool -> T -> T -> U -> T * S * T) (normalized : T -> T) (blank : S)
    M N (keys : list positions) gs g (p q : positions) bs b s u n,
  NoDup keys -> oriented keys -> (forall p, In p keys -> local_term p /\ forall a, In a p -> inside M N a) ->
  simple_update_sequence keys = Ok gs -> In g gs -> In p g -> In q g -> p <> q -> related_environment q = Ok bs -> In b bs -> shaped M N n ->
  single_term multiple site_update bond_update normalized p u (set_environment n b s) =
  bind (single_term multiple site_update bond_update normalized p u n) (fun n' => Ok (set_environment n' b s)).
Proof. exact @environment_unread. Qed.
Print Assumptions C40_environment_unread.

(** all sites and bonds of a lattice with two rows and three columns, one bond reversed *)
Definition keys23 : list positions :=
  [[(0, 0)]; [(0, 1); (0, 0)]; [(0, 0); (1, 0)]; [(0, 1)]; [(0, 1); (0, 2)]; [(0, 1); (1, 1)]; [(0, 2); (1, 2)]; [(1, 0); (1, 1)]; [(1, 1); (1, 2)]].
Example C40_keys : NoDup keys23 /\ oriented keys23 /\ forall p, In p keys23 -> local_term p /\ forall a, In a p -> inside 2 3 a.
Proof.
  split; [|split].
  - repeat constructor; cbn; intuition discriminate.
  - intros a b Ha Hb. cbn in Ha, Hb. repeat match goal with H : _ \/ _ |- _ => destruct H | H : False |- _ => destruct H end; try discriminate; inversion H; inversion H0; congruence.
  - intros p Hp. cbn in Hp. repeat match goal with H : _ \/ _ |- _ => destruct H as [<-|H] | H : False |- _ => destruct H end;
      (split; [first [left; eexists; reflexivity|right; eexists; eexists; split; reflexivity]|]);
      intros a Ha; cbn in Ha; repeat match goal with H : _ \/ _ |- _ => destruct H as [<-|H] | H : False |- _ => destruct H end; unfold inside; cbn; Lia.lia.
Qed.
Example C40_schedule : simple_update_sequence keys23 =
  Ok [[[(0, 0)]; [(0, 1)]]; [[(0, 1); (0, 0)]; [(1, 0); (1, 1)]]; [[(0, 1); (0, 2)]; [(1, 1); (1, 2)]]; [[(0, 0); (1, 0)]; [(0, 1); (1, 1)]; [(0, 2); (1, 2)]]; []].
Proof. reflexivity. Qed.
(** a term on three sites is refused; the hypothesis on orientations is needed *)
Example C40_refused : simple_update_sequence ([(0, 0); (0, 1); (1, 1)] :: keys23) = Throw (NotImplementedError "Unsupported simple update style").
Proof. reflexivity. Qed.
Example C40_both_orientations : simple_update_sequence [[(0, 0); (0, 1)]; [(0, 1); (0, 0)]] = Ok [[]; [[(0, 0); (0, 1)]; [(0, 1); (0, 0)]]; []; []; []].
Proof. reflexivity. Qed.

(** ** C42 *)
Theorem C42_every_term_once :
  forall M N (keys s : list positions), NoDup keys -> markov_sequence M N keys = Ok s -> Permutation s keys.
Proof. exact markov_exactly_once. Qed.
Print Assumptions C42_every_term_once.
Theorem C42_schedule_found :
  forall M N (keys : list positions), NoDup keys -> (forall p, In p keys -> local_term p /\ forall a, In a p -> inside M N a) -> exists s, markov_sequence M N keys = Ok s.
Proof. exact markov_succeeds. Qed.
Print Assumptions C42_schedule_found.
Theorem C42_only_failure :
  forall M N (keys : list positions) e, markov_sequence M N keys = Throw e -> e = NotImplementedError "Unsupported markov sampling style".
Proof. exact markov_fails. Qed.
Print Assumptions C42_only_failure.

Example C42_schedule : markov_sequence 2 3 keys23 =
  Ok [[(0, 0)]; [(0, 1); (0, 0)]; [(0, 1)]; [(0, 1); (0, 2)]; [(1, 0); (1, 1)]; [(1, 1); (1, 2)]; [(0, 0); (1, 0)]; [(0, 1); (1, 1)]; [(0, 2); (1, 2)]].
Proof. reflexivity. Qed.
Example C42_refused : markov_sequence 2 3 ([(0, 0); (1, 1)] :: keys23) = Throw (NotImplementedError "Unsupported markov sampling style").
Proof. reflexivity. Qed.
