(** Sums over coordinates. *)
From Coq Require Import List Bool Arith Lia Permutation.
From Verif Require Import Base.Outcome Base.SMap Model.Symmetry Model.Edge Model.Core Spec.Blocks Spec.Fuse Spec.Contract
  Proof.SymmetryFacts Proof.LoopFacts Proof.CoreFacts Proof.ElemFacts.
Import ListNotations.

Section Sums.
  Context {S R : Type} {SS : Sym S} {SL : SymLaws S} {RR : Scalar R}.
  Notation entry := (S * nat)%type.

  Lemma in_points : forall maps (pt : list entry), In pt (points maps) <-> in_range maps pt.
  Proof.
    induction maps as [|m ms IH]; intro pt; cbn [points].
    - split; [intros [<-|[]]; constructor|]. intro H. inversion H. now left.
    - split.
      + intro H. apply in_flat_map in H as [[s d] [H1 H2]]. apply in_flat_map in H2 as [i [H2 H3]]. apply in_seq in H2. cbn [fst snd] in *.
        apply in_map_iff in H3 as [p [<- H3]]. econstructor; [exact H1|lia|now apply IH].
      + intro H. inversion H as [|? ? s i d p H1 H2 H3]; subst. apply in_flat_map. exists (s, d). split; [exact H1|].
        apply in_flat_map. exists i. split; [apply in_seq; cbn [snd]; lia|]. cbn [fst]. apply in_map. now apply IH.
  Qed.

  Lemma NoDup_app_intro : forall A (l1 l2 : list A), NoDup l1 -> NoDup l2 -> (forall x, In x l1 -> ~ In x l2) -> NoDup (l1 ++ l2).
  Proof.
    induction l1 as [|x l1 IH]; intros l2 H1 H2 H; [exact H2|]. inversion H1; subst. cbn [app]. constructor.
    - intro Hc. apply in_app_or in Hc as [Hc|Hc]; [contradiction|]. apply (H x); [now left|exact Hc].
    - apply IH; auto. intros y Hy. apply H. now right.
  Qed.
  Lemma NoDup_flat_map : forall A B (f : A -> list B) l, NoDup l -> (forall x, In x l -> NoDup (f x)) ->
    (forall x y z, In x l -> In y l -> In z (f x) -> In z (f y) -> x = y) -> NoDup (flat_map f l).
  Proof.
    induction l as [|x l IH]; intros Hn Hf Hd; [constructor|]. inversion Hn; subst. cbn [flat_map]. apply NoDup_app_intro.
    - apply Hf. now left.
    - apply IH; auto. { intros y Hy. apply Hf. now right. } intros a b z Ha Hb. apply Hd; now right.
    - intros z Hz Hc. apply in_flat_map in Hc as [y [Hy Hzy]].
      assert (x = y) by (apply (Hd x y z); auto; [now left|now right]). subst. contradiction.
  Qed.
  Lemma NoDup_map_inj : forall A B (f : A -> B) l, NoDup l -> (forall x y, In x l -> In y l -> f x = f y -> x = y) -> NoDup (map f l).
  Proof.
    induction l as [|x l IH]; intros Hn Hf; [constructor|]. inversion Hn; subst. cbn [map]. constructor.
    - intro Hc. apply in_map_iff in Hc as [y [E Hy]]. assert (y = x) by (apply Hf; auto; [now right|now left]). subst. contradiction.
    - apply IH; auto. intros a b Ha Hb. apply Hf; now right.
  Qed.
  Lemma NoDup_points : forall maps : list (list entry), sorted_maps maps -> NoDup (points maps).
  Proof.
    induction maps as [|m ms IH]; intro Hs; cbn [points]; [repeat constructor; intros []|]. inversion Hs as [|? ? Hm Hms]; subst.
    specialize (IH Hms). assert (Hk : NoDup (map fst m)) by (now apply msorted_nodup).
    apply NoDup_flat_map.
    - now apply NoDup_map_inv in Hk.
    - intros [s d] _. apply NoDup_flat_map; [apply seq_NoDup| |].
      + intros i _. apply NoDup_map_inj; auto. intros x y _ _ E. now injection E.
      + intros i j z _ _ Hi Hj. apply in_map_iff in Hi as [p [<- _]]. apply in_map_iff in Hj as [q [E _]]. now injection E.
    - intros [s d] [s' d'] z H1 H2 Hz Hz'. apply in_flat_map in Hz as [i [_ Hz]]. apply in_flat_map in Hz' as [j [_ Hz']].
      apply in_map_iff in Hz as [p [<- _]]. apply in_map_iff in Hz' as [q [E _]]. cbn [fst] in E. injection E as E _ _. subst s'. f_equal.
      pose proof (In_mfind m s d Hm H1) as F1. pose proof (In_mfind m s d' Hm H2) as F2. congruence.
  Qed.

  Hypothesis EA : exact_arithmetic R.
  Lemma rsum_perm : forall l1 l2 : list R, Permutation l1 l2 -> rsum l1 = rsum l2.
  Proof.
    unfold rsum. induction 1; cbn [fold_right]; auto; try congruence.
    rewrite !(ea_add_assoc _ EA). now rewrite (ea_add_comm _ EA y x).
  Qed.
  Lemma rsum_zero : forall l : list R, (forall x, In x l -> x = rzero) -> rsum l = rzero.
  Proof.
    induction l as [|x l IH]; intro H; [reflexivity|]. unfold rsum in *. cbn [fold_right]. rewrite IH by (intros; apply H; now right).
    rewrite (H x (or_introl eq_refl)). apply (ea_add_0 _ EA).
  Qed.
  Lemma rsum_app : forall l1 l2 : list R, rsum (l1 ++ l2) = radd (rsum l1) (rsum l2).
  Proof.
    induction l1 as [|x l1 IH]; intro l2; unfold rsum in *; cbn [app fold_right]; [now rewrite (ea_add_0 _ EA)|].
    rewrite IH. apply (ea_add_assoc _ EA).
  Qed.
  Lemma rsum_fold : forall (l : list R) x, fold_left radd l x = radd x (rsum l).
  Proof.
    induction l as [|y l IH]; intro x; unfold rsum in *; cbn [fold_left fold_right].
    - rewrite (ea_add_comm _ EA). now rewrite (ea_add_0 _ EA).
    - rewrite IH. symmetry. apply (ea_add_assoc _ EA).
  Qed.
  Lemma rsum_fold_0 : forall (A : Type) (f : A -> R) l, fold_left (fun acc x => radd acc (f x)) l rzero = rsum (map f l).
  Proof.
    intros A f l. rewrite <- (ea_add_0 _ EA (rsum (map f l))). rewrite <- rsum_fold. generalize (@rzero R RR).
    induction l as [|x l IH]; intro z; cbn [map fold_left]; auto.
  Qed.
  Lemma rsum_filter : forall (A : Type) (g : A -> bool) (f : A -> R) l, (forall x, In x l -> g x = false -> f x = rzero) ->
    rsum (map f l) = rsum (map f (filter g l)).
  Proof.
    intros A g f l. induction l as [|x l IH]; intro H; [reflexivity|]. cbn [map filter].
    specialize (IH (fun y Hy => H y (or_intror Hy))). destruct (g x) eqn:E; unfold rsum in *; cbn [map fold_right]; rewrite IH; auto.
    rewrite (H x (or_introl eq_refl) E). apply (ea_add_0 _ EA).
  Qed.
  (** two sums with corresponding terms *)
  Lemma rsum_bij : forall (A B : Type) (f : A -> R) (g : B -> R) (h : A -> B) l1 l2, NoDup l1 -> NoDup l2 ->
    (forall x, In x l1 -> In (h x) l2 /\ g (h x) = f x) ->
    (forall x y, In x l1 -> In y l1 -> h x = h y -> x = y) ->
    (forall z, In z l2 -> exists x, In x l1 /\ h x = z) -> rsum (map f l1) = rsum (map g l2).
  Proof.
    intros A B f g h l1 l2 N1 N2 H1 H2 H3. transitivity (rsum (map g (map h l1))).
    - f_equal. rewrite map_map. apply map_ext_in. intros x Hx. symmetry. now apply H1.
    - apply rsum_perm. apply Permutation_map. apply NoDup_Permutation; auto; [now apply NoDup_map_inj|].
      intro z. split.
      + intro Hz. apply in_map_iff in Hz as [x [<- Hx]]. now apply H1.
      + intro Hz. destruct (H3 z Hz) as [x [Hx <-]]. now apply in_map.
  Qed.
  Lemma rsum_ext : forall (A : Type) (f g : A -> R) l, (forall x, In x l -> f x = g x) -> rsum (map f l) = rsum (map g l).
  Proof. intros A f g l H. f_equal. now apply map_ext_in. Qed.
End Sums.
