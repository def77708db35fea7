(** Examples for C43, C45, C55, C56, C57: rational amplitudes on two sites. *)
From Coq Require Import List Bool Arith ZArith Lia QArith Qreals Reals Lra.
From Verif Require Import Base.Outcome Base.SMap Model.Symmetry Model.Schedule Model.Sampling Spec.Bonds Spec.Lattice Spec.Sampling Proof.SymmetryFacts Proof.ScheduleFacts Proof.ErgodicFacts Proof.ElementFacts.
Import ListNotations.
Open Scope Z_scope.

(** rational scalars *)
Definition zeroQ (v : Q) : bool := Qeq_bool v 0.
Definition normQ (v : Q) : R := (Q2R v * Q2R v)%R.
Definition overlapQ (x y : Q) : R := (Q2R x * Q2R y)%R.
Lemma zeroQ_true : forall v, zeroQ v = true <-> Q2R v = 0%R.
Proof.
  intros v. unfold zeroQ. rewrite Qeq_bool_iff. split.
  - intros H. rewrite (Qeq_eqR _ _ H). unfold Q2R. cbn. lra.
  - intros H. apply eqR_Qeq. rewrite H. unfold Q2R. cbn. lra.
Qed.
Lemma zeroQ_false : forall v, zeroQ v = false -> Q2R v <> 0%R /\ ~ (v == 0)%Q.
Proof.
  intros v H. assert (A : Q2R v <> 0%R) by (intros E; apply zeroQ_true in E; congruence). split; [exact A|]. intros E. apply A. rewrite (Qeq_eqR _ _ E). unfold Q2R. cbn. lra.
Qed.
Lemma normQ_over : forall a b, zeroQ b = false -> normQ (a / b) = (normQ a / normQ b)%R.
Proof. intros a b H. apply zeroQ_false in H. destruct H as [H1 H2]. unfold normQ. rewrite Q2R_div by exact H2. field. exact H1. Qed.
Lemma normQ_nonneg : forall v, (0 <= normQ v)%R.
Proof. intros v. unfold normQ. apply Rle_0_sqr. Qed.
Lemma normQ_zero : forall v, zeroQ v = true <-> normQ v = 0%R.
Proof. intros v. rewrite zeroQ_true. unfold normQ. split; [intros ->; lra|]. intros H. apply Rsqr_0_uniq. exact H. Qed.
Lemma overQ_overlap : forall x y, zeroQ y = false -> (Q2R (x / y) * overlapQ y y = overlapQ y x)%R.
Proof. intros x y H. apply zeroQ_false in H. destruct H as [H1 H2]. unfold overlapQ. rewrite Q2R_div by exact H2. field. exact H1. Qed.
Lemma zeroQ_overlap : forall x y z, zeroQ x = true -> overlapQ y (x * z) = 0%R.
Proof. intros x y z H. apply zeroQ_true in H. unfold overlapQ. rewrite Q2R_mult, H. lra. Qed.
Lemma overlapQ_zero : forall x y, zeroQ x = true -> overlapQ x y = 0%R.
Proof. intros x y H. apply zeroQ_true in H. unfold overlapQ. rewrite H. lra. Qed.

(** two sites side by side, spins 0 and 1 *)
Definition all2 : list configuration := [[[0; 0]]; [[0; 1]]; [[1; 0]]; [[1; 1]]].
Lemma two_spins : forall c, valid_configuration 1 2 2 c <-> exists a b, c = [[a; b]] /\ 0 <= a < 2 /\ 0 <= b < 2.
Proof.
  intros c. split.
  - intros [[L R] Vs]. destruct c as [|row [|? ?]]; cbn in L; try discriminate. assert (Lr := R row (or_introl eq_refl)). destruct row as [|a [|b [|? ?]]]; cbn in Lr; try discriminate.
    exists a, b. split; [reflexivity|]. split; apply (Vs [a; b] (or_introl eq_refl)); cbn; tauto.
  - intros [a [b [-> [Ha Hb]]]]. split; [split; [reflexivity|intros row [<-|[]]; reflexivity]|]. intros row [<-|[]] s [<-|[<-|[]]]; assumption.
Qed.
Lemma all2_enumerates : enumerates 1 2 2 all2.
Proof.
  split; [repeat constructor; cbn; intuition discriminate|]. intros c. rewrite two_spins. split.
  - intros H. cbn in H. repeat destruct H as [<-|H]; try (destruct H); eexists; eexists; (split; [reflexivity|lia]).
  - intros [a [b [-> [Ha Hb]]]]. assert (A : a = 0 \/ a = 1) by lia. assert (B : b = 0 \/ b = 1) by lia. destruct A as [->| ->], B as [->| ->]; cbn; tauto.
Qed.
(** exchange of the two spins *)
Definition exchange (index : list Z) : Q := match index with [a; b; a'; b'] => if (a =? b') && (b =? a') then 1 else 0 | _ => 0 end.
Definition exchange_op : operator Q := mkOperator 2 (fun index => Ok (exchange index)).
Definition pair2 : positions := [(0, 0); (0, 1)].
Lemma exchange_acts : acts_as 2 exchange_op exchange.
Proof. split; [discriminate|reflexivity]. Qed.
Lemma exchange_rows : no_zero_row zeroQ 2 exchange_op exchange.
Proof.
  intros ins [L Vi]. destruct ins as [|a [|b [|? ?]]]; cbn in L; try discriminate. exists [b; a]. split; [split; [reflexivity|]|].
  - intros s [<-|[<-|[]]]; apply Vi; cbn; tauto.
  - cbn [app exchange]. rewrite !Z.eqb_refl. reflexivity.
Qed.
Lemma acts_unique : forall V (op : operator V) d el el', acts_as d op el -> acts_as d op el' -> forall index, length index = (2 * body op)%nat -> valid_spins d index -> el index = el' index.
Proof. intros V op d el el' [_ A] [_ A'] index L Vi. assert (E := A index L Vi). rewrite (A' index L Vi) in E. congruence. Qed.
Lemma no_zero_row_unique : forall V (is_zero : V -> bool) (op : operator V) d el el', acts_as d op el -> acts_as d op el' -> no_zero_row is_zero d op el -> no_zero_row is_zero d op el'.
Proof.
  intros V is_zero op d el el' A A' H ins Hi. destruct (H ins Hi) as [outs [Ho Z]]. exists outs. split; [exact Ho|]. rewrite <- (acts_unique _ op d el el' A A'); [exact Z| |].
  - rewrite app_length. destruct Hi, Ho. lia.
  - intros s Hs. apply in_app_iff in Hs. destruct Hi, Ho. destruct Hs; auto.
Qed.
Lemma pair2_fine : NoDup pair2 /\ forall p, In p pair2 -> inside 1 2 p.
Proof. split; [repeat constructor; cbn; intuition discriminate|]. intros p [<-|[<-|[]]]; unfold inside; cbn; lia. Qed.
Lemma exchange_safe : safe_term zeroQ 1 2 2 pair2 exchange_op.
Proof.
  split; [|intros el A; apply (no_zero_row_unique _ _ _ _ exchange el exchange_acts A exchange_rows)]. split; [apply pair2_fine|]. split; [apply pair2_fine|]. split; [reflexivity|]. exists exchange. split; [apply exchange_acts|].
  intros ins outs [Li _] [Lo _]. destruct ins as [|a [|b [|? ?]]]; cbn in Li; try discriminate. destruct outs as [|a' [|b' [|? ?]]]; cbn in Lo; try discriminate. cbn [app exchange].
  rewrite (Z.eqb_sym a' b), (Z.eqb_sym b' a), andb_comm. destruct ((b =? a') && (a =? b'))%bool eqn:E; rewrite ?E; reflexivity.
Qed.
(** the amplitude depends on the first spin *)
Definition psi2 (c : configuration) : Q := inject_Z (1 + spin c (0, 0)).
Lemma psi2_nonzero : forall c, valid_configuration 1 2 2 c -> zeroQ (psi2 c) = false.
Proof.
  intros c Vc. apply two_spins in Vc. destruct Vc as [a [b [-> [Ha Hb]]]]. assert (A : a = 0 \/ a = 1) by lia. destruct A as [->| ->]; reflexivity.
Qed.
