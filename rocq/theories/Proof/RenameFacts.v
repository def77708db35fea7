(** edge_rename *)
From Coq Require Import List Bool Arith.
From Verif Require Import Base.Outcome Base.SMap Model.Symmetry Model.Edge Model.Core Model.EdgeOperator
  Proof.SymmetryFacts Proof.CoreFacts Proof.ElemFacts.
Import ListNotations.

Lemma NoDup_map_inj : forall (f : nat -> nat) l, NoDup l ->
  (forall x y, In x l -> In y l -> f x = f y -> x = y) -> NoDup (map f l).
Proof.
  intros f l H. induction H as [|x l Hx Hl IH]; intro Hi; [constructor|]. cbn [map]. constructor.
  - intro Hin. apply in_map_iff in Hin as [y [E Hy]]. apply Hx.
    replace x with y; auto. symmetry. apply Hi; [now left|now right|auto].
  - apply IH. intros y z Hy Hz. apply Hi; now right.
Qed.

Section Rename.
  Context {S R : Type} {SS : Sym S} {SL : SymLaws S}.
  Lemma edge_rename_keeps : forall (t : tensor S R) dict, 
    t_edges (edge_rename t dict) = t_edges t /\ t_blocks (edge_rename t dict) = t_blocks t /\
    length (t_names (edge_rename t dict)) = length (t_names t) /\
    forall i n, nth_error (t_names t) i = Some n ->
      nth_error (t_names (edge_rename t dict)) i = Some (match mfind n dict with Some n' => n' | None => n end).
  Proof.
    intros t dict. split; [reflexivity|]. split; [reflexivity|]. unfold edge_rename. cbn [t_names]. split; [apply map_length|].
    intros i n H. exact (map_nth_error (rename_one dict) i (t_names t) H).
  Qed.
  Lemma edge_rename_wf : forall (t : tensor S R) dict, wf_tensor t ->
    (forall x y, In x (t_names t) -> In y (t_names t) -> rename_one dict x = rename_one dict y -> x = y) ->
    wf_tensor (edge_rename t dict).
  Proof.
    intros t dict [W1 W2 W3] Hi. constructor; [exact W1|now apply NoDup_map_inj|].
    unfold edge_rename. cbn [t_names]. rewrite map_length. exact W3.
  Qed.
  Lemma edge_rename_read : forall (t : tensor S R) dict pos pos' pt, wf_tensor t ->
    (forall x y, In x (t_names t) -> In y (t_names t) -> rename_one dict x = rename_one dict y -> x = y) ->
    assigns pos (t_names t) pt -> assigns pos' (t_names (edge_rename t dict)) pt -> valid_pt (t_core t) pt ->
    const_at (edge_rename t dict) pos' = const_at t pos.
  Proof.
    intros t dict pos pos' pt W Hi H1 H2 Hv. pose proof (edge_rename_wf t dict W Hi) as W'.
    destruct (const_at_elem t pos pt W H1 Hv) as [v [A1 A2]].
    destruct (const_at_elem (edge_rename t dict) pos' pt W' H2 Hv) as [w [B1 B2]].
    change (elem (t_core t) pt = Some w) in B1. congruence.
  Qed.
End Rename.
