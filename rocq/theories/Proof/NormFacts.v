(** contract_all_edge of a tensor without symmetry and the conjugate of another one. *)
From Coq Require Import String Ascii List Bool Arith Lia Permutation.
From Verif Require Import Base.Outcome Base.SMap Model.Symmetry Model.Edge Model.Core Model.EdgeOperator Model.Contract Model.Misc Model.Elementwise Model.ShrinkExpand Model.Auxiliaries
  Spec.Blocks Spec.Relabel Spec.Contract Spec.Values Spec.Plain Spec.Svd Spec.Linear Spec.Overlap Proof.LoopFacts Proof.SumFacts Proof.CoreFacts Proof.ElemFacts Proof.LegFacts Proof.TransposeNames Proof.RenameFacts Proof.RegroupFacts
  Proof.ContractNames Proof.ContractPlain Proof.PlainFacts Proof.PlainElem Proof.SumBonds Proof.ExactApply Proof.AssociatePlain Proof.LinearFacts.
From Verif Require Proof.TransposeTensor Proof.StripTensor.
Import ListNotations.

Section Norm.
  Context {R : Type} {RR : Scalar R}.
  Hypothesis EA : exact_arithmetic R.

  Lemma sum_blocks : forall (g : nat -> R) b P d k, rsum (map (fun i => rsum (map g (seq (b + i * P) P))) (seq k d)) = rsum (map g (seq (b + k * P) (d * P))).
  Proof.
    intros g b P. induction d as [|d IH]; intros k; [reflexivity|]. cbn [seq map Nat.mul]. rewrite seq_app, map_app, (rsum_app EA). unfold rsum at 1. cbn [fold_right]. f_equal.
    fold (rsum (map (fun i => rsum (map g (seq (b + i * P) P))) (seq (S k) d))). rewrite IH. do 3 f_equal. cbn [Nat.mul]. lia.
  Qed.
  Lemma Sums_flat : forall ds b (g : nat -> R), Sums ds (fun idx => g (b + row_major ds idx)) = rsum (map g (seq b (prod ds))).
  Proof.
    induction ds as [|d ds IH]; intros b g.
    - cbn [Sums]. rewrite row_major_nil, Nat.add_0_r. cbn. symmetry. rewrite (ea_add_comm _ EA). apply (ea_add_0 _ EA).
    - cbn [Sums]. unfold Sum. change (prod (d :: ds)) with (d * prod ds). transitivity (rsum (map (fun i => rsum (map g (seq (b + i * prod ds) (prod ds)))) (seq 0 d))); [|rewrite sum_blocks; cbn [Nat.mul]; now rewrite Nat.add_0_r]. f_equal. apply map_ext. intros i.
      rewrite <- IH. apply Sums_ext. intros l Hl. rewrite row_major_cons by (apply Forall2_len in Hl; congruence). f_equal. lia.
  Qed.
  Lemma map_all : forall (f : R -> R) x l, map (fun k => f (nth k l x)) (seq 0 (length l)) = map f l.
  Proof. intros f x. induction l as [|y l IH]; [reflexivity|]. cbn [length seq map nth]. f_equal. rewrite <- seq_shift, map_map. exact IH. Qed.

  (** a sum over all indices is a sum over the stored elements *)
  Theorem Sums_stored : forall (t : tensor unit R) (f : R -> R), plain_tensor t ->
    Sums (map (fun n => size (dimension t n)) (t_names t)) (fun idx => f (value t (combine (t_names t) idx))) = rsum (map f (stored t)).
  Proof.
    intros t f [W B]. pose proof (has_of t W B) as H.
    destruct (plain_block Ns t W B) as [key [data Eb]]. destruct (plain_data Ns t W B key data Eb) as [HL Hd].
    assert (Nd : NoDup (t_names t)) by apply (wf_nodup _ W).
    assert (D : map (fun n => size (dimension t n)) (t_names t) = map (dim_of t) (t_names t)).
    { apply map_ext_in. intros n Hn. rewrite (h_dim _ _ H), (has_size t _ n H Hn). reflexivity. }
    rewrite D. unfold stored. rewrite Eb. cbn [map snd concat]. rewrite app_nil_r, <- (map_all f rzero data), HL, <- (Sums_flat _ 0 (fun k => f (nth k data rzero))).
    apply Sums_ext. intros is I1. f_equal. cbn [Nat.add].
    assert (Ln : length is = length (t_names t)) by (apply Forall2_len in I1; now rewrite map_length in I1).
    assert (Map : map (index (combine (t_names t) is)) (t_names t) = is).
    { apply TransposeTensor.nth_error_ext. intro k. destruct (nth_error is k) as [i|] eqn:Q.
      - destruct (nth_error (t_names t) k) as [n|] eqn:Q'.
        + rewrite nth_error_map, Q'. cbn. f_equal. unfold index. now rewrite (ExactApply.find_combine _ _ _ k n i Nd Q' Q).
        + apply nth_error_None in Q'. assert (k < length is) by (apply nth_error_Some; congruence). lia.
      - apply nth_error_None in Q. apply nth_error_None. rewrite map_length. lia. }
    destruct (Hd (map (fun n => (n, (tt, index (combine (t_names t) is) n))) (t_names t)) is) as [v [V1 [V2 _]]]; [|exact I1|].
    - unfold assigns. replace (map (fun i => (szero, i)) is) with (map (fun i : nat => (@szero unit _, i)) (map (index (combine (t_names t) is)) (t_names t))) by (now rewrite Map). rewrite !map_map. apply map_ext_in. intros n Hn. now apply (find_pos (fun n => (tt, index (combine (t_names t) is) n))).
    - unfold value, element. rewrite V2. symmetry. now apply nth_error_nth.
  Qed.

  Variables (E : @env R) (J : internal).
  Hypothesis HJ : NoDup [i_contract_0 J; i_contract_1 J; i_contract_2 J].
  Theorem inner_product : forall real (t u : tensor unit R), plain_tensor t -> plain_tensor u -> same_dimensions t u ->
    exists c r, conjugate E real u = Ok c /\ contract_all_edge E J t c = Ok r /\ t_names r = [] /\ to_scalar r = Ok (overlap real t u).
  Proof.
    intros real t u Pt Pu D. pose proof (has_same t u Pt Pu D) as Hu. destruct Pt as [Wt Bt]. pose proof (has_of t Wt Bt) as Ht.
    destruct (conjugate_has E real u _ Hu) as [c [C1 [C2 C3]]].
    assert (IK : forall n, In n (t_names t) -> slot (slots_of t) n <> None) by (intros n Hn; now apply (has_in t _ n Ht)).
    destruct (all_edges_has EA E J HJ t c _ _ (t_names t) Ht C2 (wf_nodup _ Wt)) as [r [R1 [R2 R3]]].
    - intros n Hn _. unfold keys, slots_of in Hn. rewrite map_map in Hn. cbn [fst] in Hn. now rewrite map_id in Hn.
    - intros n Hn. split; [reflexivity|now apply IK].
    - assert (Nil : without (t_names t) (slots_of t) = []).
      { unfold without, slots_of. assert (G : forall l, incl l (t_names t) -> filter (fun p => negb (member (fst p) (t_names t))) (map (fun n => (n, dimension t n)) l) = []).
        { induction l as [|p l IH]; intro Hl; [reflexivity|]. cbn [map filter fst]. replace (member p (t_names t)) with true; [apply IH; intros x Hx; apply Hl; now right|]. symmetry. apply member_In. apply Hl. now left. }
        apply G. now intro. }
      rewrite Nil in R2, R3. cbn [app] in R2, R3. exists c, r. split; [exact C1|]. split; [exact R1|]. split.
      + destruct (t_names r) as [|n l] eqn:Q; [reflexivity|]. assert (I : In n (t_names r)) by (rewrite Q; now left). apply (has_in r _ n R2) in I. now elim I.
      + rewrite (StripTensor.scalar_ok r [] [] R2) by reflexivity. f_equal. rewrite R3 by (intro n; now right). unfold overlap.
        replace (map (fun n => size (slot (slots_of t) n)) (t_names t)) with (map (fun n => size (dimension t n)) (t_names t)) by (apply map_ext; intros n; now rewrite slot_of).
        apply Sums_ext. intros idx Hi. rewrite app_nil_r. cbv zeta. f_equal. unfold conjugated. apply C3.
        intros n. destruct (slot (slots_of t) n) eqn:S; [left|now right]. rewrite <- S, slot_of by exact Wt.
        assert (Hn : In n (t_names t)) by (apply (has_in t _ n Ht); congruence). apply In_nth_error in Hn as [k Hk].
        assert (Ln : length idx = length (t_names t)) by (apply Forall2_len in Hi; now rewrite map_length in Hi).
        destruct (nth_error idx k) as [i|] eqn:Q; [|apply nth_error_None in Q; assert (k < length (t_names t)) by (apply nth_error_Some; congruence); lia].
        unfold index. rewrite (ExactApply.find_combine _ _ _ k n i (wf_nodup _ Wt) Hk Q). apply (Forall2_nth_error _ _ _ _ _ Hi k _ _ Q). now rewrite nth_error_map, Hk.
  Qed.
  Theorem norm_contracted : forall real (t : tensor unit R), plain_tensor t ->
    exists c r, conjugate E real t = Ok c /\ contract_all_edge E J t c = Ok r /\ t_names r = [] /\ to_scalar r = Ok (rsum (map (fun x => rmul x (conjugated real x)) (stored t))).
  Proof.
    intros real t P. destruct (inner_product real t t P P) as [c [r [H1 [H2 [H3 H4]]]]]; [now intro|]. exists c, r. repeat (split; [assumption|]). rewrite H4. f_equal.
    exact (Sums_stored t (fun x => rmul x (conjugated real x)) P).
  Qed.
End Norm.
