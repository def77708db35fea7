(** Concrete tensors with given elements, and a solver of systems of one or two equations, for the examples. *)
From Coq Require Import String List Bool Arith ZArith QArith Qcanon Lia.
From Verif Require Import Base.Outcome Base.SMap Model.Symmetry Model.Edge Model.Core Spec.Contract Spec.Matrix
  Proof.SymmetryFacts Proof.CoreFacts Proof.ConstructFacts Proof.ElemFacts Proof.ExTensors Proof.ScalarQ.
Import ListNotations.
Local Open Scope nat_scope.

Definition filled {S R : Type} {SS : Sym S} {RR : Scalar R} (names : list nat) (edges : list (edge S)) (f : list S -> nat -> R) : tensor S R :=
  match make_tensor rzero names edges false with
  | Ok t => mkTensor (t_names t) (mkCore (t_edges t) (map (fun kb => (fst kb, map (f (fst kb)) (seq 0 (length (snd kb))))) (t_blocks t)))
  | _ => mkTensor [] (mkCore [] [])
  end.
Lemma filled_wf : forall (S R : Type) (SS : Sym S) (SL : SymLaws S) (RR : Scalar R) names (edges : list (edge S)) (f : list S -> nat -> R),
  range_ok names edges = true -> wf_tensor (filled names edges f).
Proof.
  intros S R SS SL RR names edges f H. unfold range_ok in H. apply andb_true_iff in H as [H H3]. apply andb_true_iff in H as [H1 H2].
  apply Nat.eqb_eq in H3. apply negb_true_iff in H2.
  assert (Hn : NoDup names). { clear - H2. induction names as [|n l IH]; [constructor|]. simpl in H2. apply orb_false_iff in H2 as [A B].
    constructor; auto. intro Hin. rewrite <- not_true_iff_false in A. apply A. apply existsb_exists. exists n. split; auto. apply Nat.eqb_refl. }
  assert (Hs : sorted_maps (maps_of edges)).
  { unfold sorted_maps, maps_of. rewrite Forall_map. apply Forall_forall. intros e He. apply sortedb_ok. rewrite forallb_forall in H1. auto. }
  destruct (make_tensor_ok (@rzero R RR) names edges false Hs Hn H3) as [t [E [W _]]]. unfold filled. rewrite E.
  destruct W as [Wc Wn Wr]. constructor; [|exact Wn|exact Wr]. cbn [t_core]. apply (shape_wf (t_core t)); [exact Wc|reflexivity|].
  cbn [c_blocks]. unfold shape. rewrite map_map. apply map_ext. intros [k b]. cbn [fst snd]. now rewrite map_length, seq_length.
Qed.

(** one or two equations *)
Definition solver (n nrhs : nat) (A B : list Qc) : bool * list Qc :=
  match A with
  | [a] => (true, map (fun b => (b / a)%Qc) B)
  | _ => cramer n nrhs A B
  end.
Lemma solver_1 : solves solver 1.
Proof.
  intros nrhs A B LA LB [V [HV _]]. destruct A as [|a [|? ?]]; try discriminate LA. cbn [solver snd]. rewrite map_length. split; [exact LB|].
  assert (Ha : a <> 0%Qc).
  { intro H. pose proof (HV 0 0 ltac:(lia) ltac:(lia)) as E. unfold mmul, rsum, by_columns, ident in E. cbn [seq map fold_right Nat.mul Nat.add Nat.eqb nth rzero rone radd rmul Scalar_Q] in E.
    subst a. set (v := V 0 0) in *. assert (X : (v * 0 + 0 = 0)%Qc) by ring. rewrite X in E. discriminate E. }
  intros i c Hi Hc. replace i with 0 by lia. unfold rsum, by_columns. cbn [seq map fold_right Nat.mul Nat.add nth]. rewrite Nat.mul_1_r.
  change (@rzero Qc Scalar_Q) with (Q2Qc 0). assert (HL : c < length B) by lia.
  rewrite (nth_indep _ (Q2Qc 0) ((fun b => (b / a)%Qc) (Q2Qc 0))) by (now rewrite map_length). rewrite (map_nth (fun b => (b / a)%Qc)).
  cbn [radd rmul Scalar_Q]. field. exact Ha.
Qed.
Lemma solver_2 : solves solver 2.
Proof.
  intros nrhs A B LA LB HV. destruct A as [|a [|c [|b [|d [|? ?]]]]]; try discriminate LA. exact (cramer_solves nrhs [a; c; b; d] B LA LB HV).
Qed.
