(** shrink and expand: where symmetric tensors fail *)
From Coq Require Import String List Bool Arith ZArith Lia.
From Verif Require Import Base.Outcome Base.SMap Model.Symmetry Model.Edge Model.Core Model.EdgeOperator Model.Contract Model.ShrinkExpand
  Spec.Blocks Spec.Relabel Spec.Contract Proof.SymmetryFacts Proof.CoreFacts Proof.ElemFacts Proof.LegFacts Proof.ScalarZ Proof.ExTensors.
Import ListNotations.
Local Open Scope string_scope.
Local Open Scope list_scope.

Section Charged.
  Context {S R : Type} {SS : Sym S} {SL : SymLaws S} {RR : Scalar R}.
  Variable E : @env R.
  Variable I : internal.
  Lemma charged_edge : @is_nosym S SS = false -> forall (t : tensor S R) cfg o s, wf_tensor t -> In o (t_names t) -> emap (edge_named (legs_of t) o) = [(s, 1)] -> s <> szero ->
    expand E I t cfg (Some o) = tat_error "Cannot Expand to such Edges whose total Symmetry is not Compatible with origin Edge".
  Proof.
    intros Ns t cfg o s Wt Hin Hm Hs. unfold expand. destruct (leg_of_name t o Wt Hin) as [e He]. pose proof (leg_named t o e Wt He) as Hle. fold (legs_of t) in Hle. rewrite Hle in Hm.
    rewrite (In_mfind_nodup (combine (t_names t) (t_edges t)) o e) by (exact He || (rewrite combine_map_fst by apply Wt; apply Wt)).
    cbn [at_or_throw bind]. rewrite Hm, Ns. cbn [negb andb]. destruct (eqb s szero) eqn:Ez; [apply eqb_eq in Ez; contradiction|]. reflexivity.
  Qed.
End Charged.

Definition cI : internal := mkInternal 101 102 103 104 105 106.
Definition c_one : tensor Z Z := range_tensor [1; 2] [mkEdge false [(1%Z, 2)]; mkEdge false [((-1)%Z, 2)]].
Definition c_two : tensor Z Z := range_tensor [1; 2] [mkEdge false [((-1)%Z, 1); (1%Z, 2)]; mkEdge false [((-1)%Z, 2); (1%Z, 1)]].

Lemma no_way_back : ~ forall (E : @env Z) (I : internal) (t r : tensor Z Z) n s i d new,
  NoDup [i_contract_0 I; i_contract_1 I; i_contract_2 I; new] -> wf_tensor t -> In (s, d) (emap (edge_named (legs_of t) n)) -> i < d ->
  shrink E I t [(n, (s, i))] (Some new) false = Ok r ->
  exists e, expand E I r [(n, (false, (s, (i, d))))] (Some new) = Ok e.
Proof.
  intro H.
  assert (Hs : match shrink exE cI c_one [(1, (1%Z, 0))] (Some 9) false with Ok _ => true | _ => false end = true) by (vm_compute; reflexivity).
  assert (Hb : match bind (shrink exE cI c_one [(1, (1%Z, 0))] (Some 9) false) (fun r => expand exE cI r [(1, (false, (1%Z, (0, 2))))] (Some 9)) with Ok _ => true | _ => false end = false) by (vm_compute; reflexivity).
  revert Hs Hb. generalize (eq_refl (shrink exE cI c_one [(1, (1%Z, 0))] (Some 9) false)).
  generalize (shrink exE cI c_one [(1, (1%Z, 0))] (Some 9) false) at 2 3 4. intros x Er Hs Hb. destruct x as [r| | |]; try discriminate Hs.
  destruct (H exE cI c_one r 1 1%Z 0 2 9) as [e He].
  - repeat constructor; simpl; intuition discriminate.
  - now apply range_wf.
  - now left.
  - auto.
  - exact Er.
  - cbn [bind] in Hb. rewrite He in Hb. discriminate Hb.
Qed.
Lemma several_charges : ~ forall (E : @env Z) (I : internal) (t : tensor Z Z) n s i d new,
  NoDup [i_contract_0 I; i_contract_1 I; i_contract_2 I; new] -> wf_tensor t -> In (s, d) (emap (edge_named (legs_of t) n)) -> i < d -> ~ In new (t_names t) ->
  exists r, shrink E I t [(n, (s, i))] (Some new) false = Ok r.
Proof.
  intro H. destruct (H exE cI c_two 1 1%Z 0 2 9) as [r Hr].
  - repeat constructor; simpl; intuition discriminate.
  - now apply range_wf.
  - right; now left.
  - auto.
  - simpl. intuition discriminate.
  - assert (Hs : match shrink exE cI c_two [(1, (1%Z, 0))] (Some 9) false with Ok _ => true | _ => false end = false) by (vm_compute; reflexivity).
    rewrite Hr in Hs. discriminate Hs.
Qed.
Lemma unchecked_index :
  let t := range_tensor [1; 2] [mkEdge false [(tt, 2)]; mkEdge false [(tt, 3)]] in
  bind (shrink exE cI t [(1, (tt, 0)); (2, (tt, 3))] None false) (fun r => const_at r []) = const_at t [(1, (tt, 1)); (2, (tt, 0))].
Proof. vm_compute. reflexivity. Qed.
