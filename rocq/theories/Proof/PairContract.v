(** Contraction of two tensors over one pair of edges, for all kinds of symmetry. *)
From Coq Require Import String List Bool Arith Lia Sorted Permutation.
From Verif Require Import Base.Outcome Base.SMap Model.Symmetry Model.Edge Model.Core Model.Transpose Model.EdgeOperator Model.Contract
  Spec.Blocks Spec.Fuse Spec.Sign Spec.Relabel Spec.Contract Spec.FermiContract Proof.SymmetryFacts Proof.LoopFacts Proof.CoreFacts Proof.ConstructFacts Proof.ElemFacts Proof.OffsetFacts
  Proof.TableFacts Proof.TransposeTensor Proof.TransposeNames Proof.NamedOperator Proof.LegFacts Proof.RegroupFacts Proof.TwoLegs Proof.ContractPlain Proof.ContractSym.
Import ListNotations.

Section Pair.
  Context {S R : Type} {SS : Sym S} {SL : SymLaws S} {RR : Scalar R}.
  Notation entry := (S * nat)%type.
  Lemma contract_pair_at : exact_arithmetic R -> (is_fermi = true -> exact_negation R) ->
    forall (E : @env R) (I : internal) (t1 t2 : tensor S R) a b, NoDup [i_contract_0 I; i_contract_1 I; i_contract_2 I] ->
    wf_tensor t1 -> wf_tensor t2 -> t_blocks t1 <> [] -> t_blocks t2 <> [] ->
    In a (t_names t1) -> In b (t_names t2) ->
    (is_fermi = true -> earrow (edge_named (legs_of t1) a) = negb (earrow (edge_named (legs_of t2) b))) ->
    (forall s d, In (s, d) (emap (edge_named (legs_of t1) a)) <-> In (sneg s, d) (emap (edge_named (legs_of t2) b))) ->
    let free1 := free_names (t_names t1) [a] in let free2 := free_names (t_names t2) [b] in
    NoDup (free1 ++ free2) ->
    (is_fermi = true -> group_arrow_known (env_arrow E) t1 free1 /\ group_arrow_known (env_arrow E) t2 free2) ->
    exists r, contract E I t1 t2 [(a, b)] = Ok r /\ wf_tensor r /\ t_names r = free1 ++ free2 /\
      (exists re, maps_of re = map (fun n => emap (edge_named (legs_of t1) n)) free1 ++ map (fun n => emap (edge_named (legs_of t2) n)) free2 /\ t_edges r = prune_from (t_blocks r) 0 re) /\
      map fst (t_blocks r) = map fst (block_list (map (fun n => emap (edge_named (legs_of t1) n)) free1 ++ map (fun n => emap (edge_named (legs_of t2) n)) free2)) /\
      (forall pt, valid_pt (t_core r) pt <->
        in_range (map (fun n => emap (edge_named (legs_of t1) n)) free1 ++ map (fun n => emap (edge_named (legs_of t2) n)) free2) pt /\ ssum (map fst pt) = szero) /\
      (is_fermi = true -> forall n, In n free1 -> arrow_valid (edge_named (legs_of t1) n) = true -> earrow (edge_named (legs_of r) n) = earrow (edge_named (legs_of t1) n)) /\
      (is_fermi = true -> forall n, In n free2 -> arrow_valid (edge_named (legs_of t2) n) = true -> earrow (edge_named (legs_of r) n) = earrow (edge_named (legs_of t2) n)) /\
      forall pos pt, assigns pos (t_names r) pt -> valid_pt (t_core r) pt -> const_at r pos = Ok (signed_sum t1 t2 [(a, b)] pos).
  Proof.
    intros EA HN E I t1 t2 a b HI W1 W2 B1 B2 Ia Ib HA HM free1 free2 HD HG.
    destruct (bool_dec (@is_nosym S SS) true) as [Ns|Ns].
    - pose proof (nosym_bose Ns) as Nf.
      assert (Hem : emap (edge_named (legs_of t1) a) = emap (edge_named (legs_of t2) b)).
      { eapply msorted_In_ext; [typeclasses eauto|now apply named_sorted|now apply named_sorted|]. intros s d. rewrite HM. now rewrite (nosym_unit Ns (sneg s)), (nosym_unit Ns s). }
      assert (FN : forall l x n, In n (free_names l [x]) <-> In n l /\ n <> x).
      { intros l x n. unfold free_names. rewrite filter_In. cbn [member existsb]. rewrite orb_false_r, negb_true_iff. split; intros [X Y]; (split; [exact X|]).
        - intros ->. now rewrite Nat.eqb_refl in Y.
        - now apply Nat.eqb_neq. }
      assert (NF : forall n, In n (t_names t1) -> In n (t_names t2) -> ~ In n [a] -> ~ In n [b] -> False).
      { intros n H1 H2 H3 H4. apply (proj2 (proj2 (NoDup_app_inv _ free1 free2 HD)) n); apply FN; (split; [assumption|]); intros ->; [apply H3|apply H4]; now left. }
      destruct (contract_plain_at Ns Nf EA E I t1 t2 [(a, b)]) as [r [fused [H1 [H2 [H3 [H4 [H5 [H6 [H7 H8]]]]]]]]]; auto.
      + intros x [<-|[]]. exact Ia.
      + intros x [<-|[]]. exact Ib.
      + constructor; [intros []|constructor].
      + constructor; [intros []|constructor].
      + intros a' b' [Q|[]]. injection Q as <- <-. exact Hem.
      + intros n X1 X2 X3 X4. destruct (NF n X1 X2 X3 X4).
      + assert (F0 : fused = []).
        { destruct fused as [|n f]; [reflexivity|]. destruct (proj1 (H5 n) (or_introl eq_refl)) as [X1 [X2 [X3 X4]]]. destruct (NF n X1 X2 X3 X4). }
        subst fused. cbn [map fst snd app] in H6, H7. exists r. split; [exact H1|]. split; [exact H2|]. split; [exact H6|].
        assert (Hmp : maps_of (t_edges r) = map (fun n => emap (edge_named (legs_of t1) n)) free1 ++ map (fun n => emap (edge_named (legs_of t2) n)) free2).
        { rewrite H7. unfold maps_of. rewrite map_app, !map_map. reflexivity. }
        split; [|split; [|split; [|split; [congruence|split; [congruence|]]]]].
        * exists (t_edges r). split; [exact Hmp|]. symmetry. apply (wf_prune_id (t_core r)); [apply H2|reflexivity].
        * rewrite <- Hmp. rewrite <- (shape_keys (t_blocks r)). f_equal. apply (wf_shape (t_core r)). apply H2.
        * intro pt. unfold valid_pt. change (c_edges (t_core r)) with (t_edges r). rewrite H7. unfold maps_of. rewrite map_app, !map_map. reflexivity.
        * intros pos pt Ha Hv. rewrite (bose_sum Nf). now apply (H8 pos pt).
    - apply not_true_is_false in Ns.
      destruct (contract_edges_at Ns EA HN E I t1 t2 [(a, b)]) as [r H]; auto.
      + inversion HI as [|? ? _ X]. inversion X as [|? ? Y _]. subst. intro Q. apply Y. rewrite Q. now left.
      + intros x [<-|[]]. exact Ia.
      + intros x [<-|[]]. exact Ib.
      + constructor; [intros []|constructor].
      + constructor; [intros []|constructor].
      + intros a' b' [Q|[]]. injection Q as <- <-. split; auto.
      + intro F. destruct (HG F) as [G1 G2]. repeat (match goal with |- _ /\ _ => split end); auto; right; left; reflexivity.
      + exists r. exact H.
  Qed.
End Pair.
