(** contract_all_edge of a symmetric tensor with its own conjugate. *)
From Coq Require Import List Bool Arith Lia Permutation.
From Verif Require Import Base.Outcome Base.SMap Model.Symmetry Model.Edge Model.Core Model.EdgeOperator Model.Contract Model.Misc Model.ShrinkExpand
  Spec.Blocks Spec.Relabel Spec.Contract Spec.Conjugate Spec.Linear Spec.Squares Proof.SymmetryFacts Proof.LoopFacts Proof.CoreFacts Proof.ElemFacts Proof.SumFacts Proof.LegFacts Proof.NamedOperator Proof.ConjugateFacts Proof.ContractNames Proof.ContractSym Proof.FactorFacts.
From Verif Require Proof.TransposeNames.
Import ListNotations.

Section Squares.
  Context {S R : Type} {SS : Sym S} {SL : SymLaws S} {RR : Scalar R}.
  Notation entry := (S * nat)%type.

  Lemma named_pair : forall (P : edge S -> edge S -> Prop) es es', Forall2 P es es' -> forall names, length names = length es ->
    forall n, In n names -> P (edge_named (combine names es) n) (edge_named (combine names es') n).
  Proof.
    induction 1 as [|e e' es es' H F IH]; intros [|m names] L n I; cbn in L; try discriminate; [destruct I|]. unfold edge_named. cbn [combine mfind]. destruct (eqb n m) eqn:Q; [exact H|].
    apply (IH names); [congruence|]. destruct I as [->|I]; [|exact I]. rewrite SMap.eqb_refl in Q. discriminate.
  Qed.
  Lemma negated_combine : forall names (pt : list entry), combine names (map opposite pt) = negated (combine names pt).
  Proof. induction names as [|n names IH]; intros [|x pt]; cbn; [reflexivity..|]. now rewrite IH. Qed.
  Lemma free_all : forall l, free_names l l = [].
  Proof.
    intros l. unfold free_names. assert (G : forall k, incl k l -> filter (fun n => negb (member n l)) k = []); [|now apply G].
    induction k as [|n k IH]; intros H; [reflexivity|]. cbn [filter]. replace (member n l) with true; [apply IH; intros x Hx; apply H; now right|]. symmetry. apply member_In. apply H. now left.
  Qed.

  Theorem squares_contracted : @is_nosym S SS = false -> @is_fermi S SS = false -> exact_arithmetic R ->
    forall (E : @env R) (I : internal) (real : bool) (t : tensor S R), i_contract_1 I <> i_contract_2 I -> wf_tensor t -> t_blocks t <> [] ->
    length (t_names t) <= 1 \/ (forall s : S, sneg s = s) ->
    exists c r, conjugate E real t = Ok c /\ contract_all_edge E I t c = Ok r /\ t_names r = [] /\ const_at r [] = Ok (squares real t).
  Proof.
    intros Ns Nf EA E I real t HI W B HL.
    assert (NF : is_nosym = true -> is_fermi = false) by (rewrite Ns; discriminate).
    destruct (conjugate_at E real t NF W) as [c [C1 [C2 [C3 [C4 C5]]]]]. destruct (conjugate_legs E real t c NF W C1) as [_ CL].
    assert (Len : length (t_names t) = length (t_edges t)) by apply (wf_rank _ W).
    assert (F1 : map fst (map (fun n : nat => (n, n)) (t_names t)) = t_names t) by (rewrite map_map; apply map_id).
    assert (F2 : map snd (map (fun n : nat => (n, n)) (t_names t)) = t_names t) by (rewrite map_map; apply map_id).
    destruct (contract_sym_at Ns Nf EA E I t c (map (fun n => (n, n)) (t_names t)) HI W C2 B) as [r [R1 [R2 [R3 [R4 R5]]]]]; rewrite ?F1, ?F2, ?C3.
    - apply incl_refl.
    - apply incl_refl.
    - apply W.
    - apply W.
    - intros a b s d Hab. apply in_map_iff in Hab as [n [Q Hn]]. injection Q as <- <-. unfold legs_of. rewrite C3.
      destruct (named_pair _ _ _ CL (t_names t) Len n Hn) as [_ H]. rewrite (H (sneg s) d). now rewrite sneg_invol.
    - now rewrite map_length.
    - rewrite free_all. constructor.
    - rewrite F1, F2, C3, free_all in R3, R4. cbn [app map] in R3, R4.
      exists c, r. split; [exact C1|]. split; [exact R1|]. split; [exact R3|].
      rewrite (R5 [] []).
      + f_equal. unfold contract_sum, squares. rewrite F1, F2, map_map. cbn [fst]. rewrite <- (maps_named t W : _ = map (fun n => emap (edge_named (legs_of t) n)) (t_names t)).
        f_equal. apply map_ext_in. intros pt Hpt. apply in_points in Hpt. rewrite !app_nil_r. cbv zeta.
        assert (Lp : length (t_names t) = length pt) by (rewrite Len; clear - Hpt; unfold maps_of in Hpt; rewrite <- (map_length emap); induction Hpt; cbn; congruence).
        assert (A : assigns (combine (t_names t) pt) (t_names t) pt) by (apply assigns_combine; [apply W|exact Lp]).
        destruct (eqb (ssum (map fst pt)) szero) eqn:Z.
        * apply (proj1 (SMap.eqb_true _ _)) in Z. destruct (C5 _ pt A (conj Hpt Z)) as [v [V1 V2]]. rewrite negated_combine. unfold element. rewrite V1, V2. now rewrite (TransposeNames.bose_exchanged Nf).
        * assert (Z' : ssum (map fst pt) <> szero) by (intros Q; rewrite Q, SMap.eqb_refl in Z; discriminate).
          replace (element t (combine (t_names t) pt)) with (@rzero R _); [now rewrite !(ea_mul_0 _ EA)|]. unfold element. now rewrite (const_at_forbidden t _ pt W A Hpt Z').
      + rewrite R3. reflexivity.
      + apply R4. split; [constructor|reflexivity].
  Qed.
End Squares.
