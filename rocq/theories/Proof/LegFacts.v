(** The legs of a tensor as pairs of a name and an edge. *)
From Coq Require Import List Bool Arith Lia Permutation.
From Verif Require Import Base.Outcome Base.SMap Model.Symmetry Model.Edge Model.Core
  Spec.Blocks Spec.Relabel Spec.Values Proof.SymmetryFacts Proof.LoopFacts Proof.CoreFacts Proof.ConstructFacts Proof.ElemFacts
  Proof.CopyLoopFacts Proof.TransposeTensor Proof.TransposeNames Proof.NamedOperator Proof.SplitMerged.
Import ListNotations.

Lemma combine_nth_some : forall A B (l1 : list A) (l2 : list B) i a b, nth_error l1 i = Some a -> nth_error l2 i = Some b ->
  nth_error (combine l1 l2) i = Some (a, b).
Proof. induction l1 as [|x l1 IH]; intros [|y l2] [|i] a b H1 H2; try discriminate; cbn in *; [congruence|auto]. Qed.
Lemma combine_nth_inv : forall A B (l1 : list A) (l2 : list B) i a b, nth_error (combine l1 l2) i = Some (a, b) ->
  nth_error l1 i = Some a /\ nth_error l2 i = Some b.
Proof. induction l1 as [|x l1 IH]; intros [|y l2] [|i] a b H; try discriminate; cbn in *; [injection H as <- <-; auto|auto]. Qed.
Lemma nth_same_length : forall A B (l1 : list A) (l2 : list B) i a, length l1 = length l2 -> nth_error l1 i = Some a -> exists b, nth_error l2 i = Some b.
Proof.
  intros A B l1 l2 i a H E. destruct (nth_error l2 i) as [b|] eqn:E2; [eauto|]. apply nth_error_None in E2.
  assert (i < length l1) by (apply nth_error_Some; congruence). lia.
Qed.

Lemma Forall2_nth_error : forall A B (P : A -> B -> Prop) l1 l2, Forall2 P l1 l2 -> forall i a b, nth_error l1 i = Some a -> nth_error l2 i = Some b -> P a b.
Proof. intros A B P l1 l2 H. induction H; intros [|i] a b H1 H2; try discriminate; cbn in *; [congruence|eauto]. Qed.

Section Legs.
  Context {S R : Type} {SS : Sym S} {SL : SymLaws S} {RR : Scalar R}.
  Notation entry := (S * nat)%type.
  Notation tlegs t := (combine (t_names t) (t_edges t)).
  Notation position := (list (nat * entry)).

  Lemma leg_of_name : forall (t : tensor S R) n, wf_tensor t -> In n (t_names t) -> exists e, In (n, e) (tlegs t).
  Proof.
    intros t n W H. apply In_nth_error in H as [i Hi]. destruct (nth_same_length _ _ _ _ _ _ (wf_rank _ W) Hi) as [e He].
    exists e. apply (nth_error_In _ i). now apply combine_nth_some.
  Qed.
  Lemma name_of_leg : forall (t : tensor S R) n e, In (n, e) (tlegs t) -> In n (t_names t).
  Proof. intros t n e H. eapply in_combine_l; eauto. Qed.
  Lemma leg_named : forall (t : tensor S R) n e, wf_tensor t -> In (n, e) (tlegs t) -> edge_named (tlegs t) n = e.
  Proof.
    intros t n e W H. unfold edge_named. rewrite (In_mfind_nodup _ n e); [reflexivity| |exact H].
    rewrite combine_map_fst by apply W. apply W.
  Qed.
  Lemma leg_unique : forall (t : tensor S R) n e1 e2, wf_tensor t -> In (n, e1) (tlegs t) -> In (n, e2) (tlegs t) -> e1 = e2.
  Proof. intros t n e1 e2 W H1 H2. apply (leg_named t n) in H1; auto. apply (leg_named t n) in H2; auto. congruence. Qed.
  Lemma legs_to_edges : forall t : tensor S R, wf_tensor t -> map (edge_named (tlegs t)) (t_names t) = t_edges t.
  Proof.
    intros t W. apply nth_error_ext. intro i. rewrite nth_error_map. destruct (nth_error (t_names t) i) as [n|] eqn:En; cbn [option_map].
    - destruct (nth_same_length _ _ _ _ _ _ (wf_rank _ W) En) as [e He]. rewrite He. f_equal. apply leg_named; auto.
      apply (nth_error_In _ i). now apply combine_nth_some.
    - apply nth_error_None in En. symmetry. apply nth_error_None. rewrite <- (wf_rank _ W). exact En.
  Qed.
  Lemma leg_sorted : forall (t : tensor S R) n e, wf_tensor t -> In (n, e) (tlegs t) -> msorted (emap e).
  Proof.
    intros t n e W H. apply in_combine_r in H. pose proof (wf_maps _ (wf_tcore _ W)) as Hs. unfold sorted_maps in Hs. rewrite Forall_forall in Hs.
    apply Hs. unfold maps_of. now apply in_map.
  Qed.
  Lemma leg_range : forall (t : tensor S R) (pos : position) pt, wf_tensor t -> assigns pos (t_names t) pt ->
    (in_range (maps_of (t_edges t)) pt <->
     forall n e, In (n, e) (tlegs t) -> exists d, In (fst (coord pos n), d) (emap e) /\ snd (coord pos n) < d).
  Proof.
    intros t pos pt W Ha. rewrite (assigns_coord pos _ pt Ha). rewrite <- (legs_to_edges t W) at 1. unfold maps_of. rewrite map_map, in_range_named. split.
    - intros H n e Hl. rewrite <- (leg_named t n e W Hl). apply H. now apply name_of_leg in Hl.
    - intros H n Hn. destruct (leg_of_name t n W Hn) as [e Hl]. rewrite (leg_named t n e W Hl). now apply H.
  Qed.
  (** two tensors with the same legs have the same coordinates *)
  Lemma same_legs_range : forall (t t' : tensor S R) (pos : position) pt, wf_tensor t -> wf_tensor t' ->
    (forall n e, In (n, e) (tlegs t') <-> In (n, e) (tlegs t)) -> assigns pos (t_names t') pt -> in_range (maps_of (t_edges t')) pt ->
    exists pt', assigns pos (t_names t) pt' /\ in_range (maps_of (t_edges t)) pt' /\ (Permutation (t_names t) (t_names t') -> ssum (map fst pt') = ssum (map fst pt)).
  Proof.
    intros t t' pos pt W W' HL Ha Hr. exists (map (coord pos) (t_names t)).
    assert (Ha2 : assigns pos (t_names t) (map (coord pos) (t_names t))).
    { apply (assigns_perm pos (t_names t') _ pt Ha). intros x Hx. destruct (leg_of_name t x W Hx) as [e He]. apply HL in He. now apply name_of_leg in He. }
    split; [exact Ha2|]. split.
    - apply (leg_range t pos _ W Ha2). intros n e Hl. apply HL in Hl. now apply (proj1 (leg_range t' pos pt W' Ha) Hr n e).
    - intro HP. rewrite (assigns_coord pos _ pt Ha). apply ssum_perm. now do 2 apply Permutation_map.
  Qed.
  Lemma same_legs_edges : forall t t' : tensor S R, wf_tensor t -> wf_tensor t' -> t_names t = t_names t' ->
    (forall n e, In (n, e) (tlegs t) -> In (n, e) (tlegs t')) -> t_edges t = t_edges t'.
  Proof.
    intros t t' W W' Hn HL. rewrite <- (legs_to_edges t W), <- (legs_to_edges t' W'), <- Hn. apply map_ext_in. intros n Hi.
    destruct (leg_of_name t n W Hi) as [e He]. rewrite (leg_named t n e W He). apply HL in He. now rewrite Hn, (leg_named t' n e W' He).
  Qed.
  Lemma tensor_ext_at : forall t t' : tensor S R, wf_tensor t -> wf_tensor t' -> t_names t = t_names t' -> t_edges t = t_edges t' ->
    (forall pos pt, assigns pos (t_names t) pt -> valid_pt (t_core t) pt -> const_at t pos = const_at t' pos) -> t = t'.
  Proof.
    intros t t' W W' Hn He H. apply tensor_ext; auto. intros p Hp.
    assert (Ha : assigns (combine (t_names t) p) (t_names t) p).
    { apply assigns_combine; [apply W|]. destruct Hp as [Hp _]. apply in_range_length in Hp. rewrite (wf_rank _ W). unfold maps_of in Hp. rewrite map_length in Hp. unfold t_edges. congruence. }
    destruct (const_at_elem t _ p W Ha Hp) as [v [E1 E2]].
    assert (Hp' : valid_pt (t_core t') p) by (destruct Hp; split; auto; fold (t_edges t'); now rewrite <- He).
    destruct (const_at_elem t' (combine (t_names t) p) p W') as [v' [E1' E2']]; auto; [now rewrite <- Hn|].
    rewrite E1, E1'. rewrite (H _ p Ha Hp), E2' in E2. congruence.
  Qed.
End Legs.
