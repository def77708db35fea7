(** The two factors of qr and svd: a two-legged tensor one of whose legs is split. *)
From Coq Require Import String List Bool Arith Lia Sorted Permutation.
From Verif Require Import Base.Outcome Base.SMap Model.Symmetry Model.Edge Model.Core Model.Transpose Model.EdgeOperator Model.Contract
  Spec.Blocks Spec.Fuse Spec.Sign Spec.Relabel Spec.Contract Spec.FermiContract Proof.SymmetryFacts Proof.LoopFacts Proof.CoreFacts Proof.ConstructFacts Proof.ElemFacts Proof.OffsetFacts
  Proof.CopyLoopFacts Proof.GroupFacts Proof.MergeFacts Proof.TableFacts Proof.SumFacts Proof.MatrixFacts Proof.SignFacts Proof.ExchangeFacts Proof.TransposeFacts Proof.TransposeTensor Proof.TransposeNames Proof.EdgeOperatorFacts Proof.NamedOperator Proof.LegFacts Proof.MergeSplit
  Proof.SplitMerged Proof.SplitAll Proof.SplitSome Proof.SplitLeg Proof.RegroupFacts Proof.TwoLegs Proof.ContractPlain Proof.ContractSym Proof.FactorFacts.
Import ListNotations.
Local Notation tlegs t := (combine (t_names t) (t_edges t)).

Section Side.
  Context {S R : Type} {SS : Sym S} {SL : SymLaws S} {RR : Scalar R}.
  Notation entry := (S * nat)%type.
  Variables (E : @env R) (t : tensor S R) (g h : list nat) (A c : nat) (eA ec : edge S) (b : list (list S * list R)) (right : bool) (a : @eo_args S) (right' : bool)
    (K : S -> nat) (D : S -> list R).
  Hypothesis W : wf_tensor t.
  Hypothesis HP : Permutation (t_names t) (g ++ h).
  Let p := mkTensor (if right then [A; c] else [c; A]) (mkCore (if right then [eA; ec] else [ec; eA]) b).
  Definition parts (l : list nat) : list (nat * edge S) := map (fun n => (n, mkEdge false (emap (edge_named (tlegs t) n)))) l.
  Hypothesis Wp : wf_tensor p.
  Hypothesis HAc : A <> c.
  Hypothesis Hc : ~ In c g.
  Hypothesis HeA : forall s, mfind s (emap eA) = if present (mp t g) s && present (mp t h) (sneg s) then Some (merged_dim (mp t g) s) else None.
  Hypothesis Hec : forall s, mfind s (emap ec) = if present (mp t g) (sneg s) && present (mp t h) s then Some (K s) else None.
  Hypothesis HD : forall s, present (mp t g) (sneg s) = true -> present (mp t h) s = true -> mfind (if right then [sneg s; s] else [s; sneg s]) b = Some (D s).
  Hypothesis Hren : a_rename a = [].
  Hypothesis Hsplit : a_split a = [(A, parts g)].
  Hypothesis Hmerge : a_merge a = [].
  Hypothesis Hnew : a_new_names a = if right' then g ++ [c] else c :: g.
  Hypothesis Hcut : a_cut a = [] \/ exists cm, a_cut a = [(c, cm)].
  Hypothesis Hpar : a_apply_parity a = false.
  Hypothesis Hx1 : a_ex_split a = [].
  Hypothesis Hx2 : forall n, In n (a_ex_rev a) -> n = c.
  Hypothesis Hx3 : a_ex_rev_merge a = [].
  Hypothesis Hx4 : a_ex_merge a = [].
  Hypothesis Harr : is_fermi = true -> forall n, In n g -> arrow_valid (edge_named (tlegs t) n) = true -> xorb (mem_name n (a_reversed a)) (earrow eA) = earrow (edge_named (tlegs t) n).

  Lemma parts_names : forall l, map fst (parts l) = l.
  Proof. intro l. unfold parts. rewrite map_map. apply map_id. Qed.
  Lemma parts_maps : forall l, lmaps (parts l) = mp t l.
  Proof. intro l. unfold lmaps, parts, mp. rewrite map_map. reflexivity. Qed.
  Lemma sd_incl : incl g (t_names t) /\ incl h (t_names t).
  Proof. split; intros n Hn; eapply Permutation_in; [apply Permutation_sym; exact HP|apply in_or_app; auto|apply Permutation_sym; exact HP|apply in_or_app; auto]. Qed.
  Lemma sd_nodup : NoDup (g ++ [c]).
  Proof.
    assert (NoDup g) by (assert (X : NoDup (g ++ h)) by (eapply Permutation_NoDup; [exact HP|apply W]); now apply NoDup_app_inv in X).
    apply MergeNames.NoDup_app_intro; [assumption|repeat constructor; intros []|]. intros x Hx [<-|[]]. contradiction.
  Qed.
  Lemma sd_named : forall n, In n g -> edge_named (parts g) n = mkEdge false (emap (edge_named (tlegs t) n)).
  Proof.
    intros n Hn. unfold edge_named at 1. rewrite (In_mfind_nodup (parts g) n (mkEdge false (emap (edge_named (tlegs t) n)))); [reflexivity| |].
    - rewrite parts_names. pose proof sd_nodup as N. now apply NoDup_app_inv in N.
    - unfold parts. apply in_map_iff. eauto.
  Qed.
  Lemma sd_split : exists r, edge_operator E p a = Ok r /\ wf_tensor r /\ t_names r = a_new_names a /\
    t_edges r = prune_from (t_blocks r) 0 (map (leg_r c eA ec (parts g) a) (a_new_names a)) /\
    map fst (t_blocks r) = map fst (block_list (map (fun n => emap (leg_r c eA ec (parts g) a n)) (a_new_names a))) /\
    (forall pt, valid_pt (t_core r) pt <-> in_range (map (fun n => emap (leg_r c eA ec (parts g) a n)) (a_new_names a)) pt /\ ssum (map fst pt) = szero) /\
    forall pos s j, (forall n, In n (a_new_names a) -> mfind n pos <> None) -> coord pos c = (s, j) -> in_range (mp t g) (map (coord pos) g) ->
      in_range [emap (ec1 c ec a)] [(s, j)] -> total (map (coord pos) g) = sneg s ->
      let i := snd (joined (tlegs t) g pos) in let v := nth (if right then i * K s + j else j * merged_dim (mp t g) (sneg s) + i) (D s) rzero in
      const_at r pos = Ok (if xorb (xorb right right') (mem_name c (a_reversed a) && mem_name c (a_ex_rev a)) && sodd s then ropp v else v).
  Proof.
    destruct sd_incl as [Ig Ih].
    assert (X1 : forall s d, mfind s (emap eA) = Some d -> d = merged_dim (lmaps (parts g)) s).
    { intros s d H. rewrite parts_maps. rewrite HeA in H. destruct (_ && _); [congruence|discriminate]. }
    assert (X2 : forall s, mmem s (emap ec) = true -> mmem (sneg s) (emap eA) = true).
    { intros s. unfold mmem. rewrite Hec, HeA, sneg_invol. destruct (_ && _); auto. }
    assert (X3 : Forall (fun x => msorted (emap (snd x))) (parts g)).
    { apply Forall_forall. intros x Hx. apply in_map_iff in Hx as [n [<- Hn]]. cbn [snd emap]. apply named_sorted; [exact W|now apply Ig]. }
    destruct (split_leg E p A c eA ec (parts g) right a right' Wp HAc eq_refl eq_refl) as [r [H1 [H2 [H3 [H4 [H5 [H6 H7]]]]]]]; auto; try (rewrite parts_names; auto); [exact sd_nodup|].
    exists r. split; [exact H1|]. split; [exact H2|]. split; [exact H3|]. split; [exact H4|]. split; [exact H5|]. split; [exact H6|].
    intros pos s j Hpos Hcs Hr Hrc Ht i v.
    destruct (H7 pos Hpos) as [w [V1 V2]].
    { now rewrite parts_names, parts_maps. } { now rewrite Hcs. } { now rewrite parts_names, Hcs. }
    rewrite V2, Hcs. cbn [fst]. assert (Q : w = v); [|now rewrite Q]. rewrite parts_names, parts_maps, Hcs in V1. cbv zeta in V1.
    assert (J : fuse (mp t g) (map (coord pos) g) = (sneg s, i)).
    { change (fuse (mp t g) (map (coord pos) g)) with (joined (tlegs t) g pos). unfold i. rewrite <- Ht. unfold joined, fuse. reflexivity. }
    rewrite J in V1.
    apply one_point in Hrc as [s' [j' [d1 [Q [Hd1 Hj]]]]]. injection Q as <- <-.
    destruct (sl_ec1 p A c eA ec (parts g) right a Wp HAc eq_refl eq_refl) as [S1 S2]. apply In_mfind in Hd1; [|exact S1]. destruct (S2 s d1 Hd1) as [d [Hd _]].
    rewrite Hec in Hd. destruct (present (mp t g) (sneg s)) eqn:P1; [|discriminate]. destruct (present (mp t h) s) eqn:P2; [|discriminate]. cbn [andb] in Hd.
    unfold v. symmetry. apply nth_error_nth. rewrite <- V1. specialize (HD s P1 P2). unfold elem, p. destruct right; cbn [c_edges c_blocks t_core map fst snd maps_of dims_of]; rewrite Hec, HeA, ?sneg_invol, P1, P2; cbn [andb]; rewrite HD; reflexivity.
  Qed.

  (** the key that the charges of g make with the opposite total on c *)
  Lemma side_key : forall maps kg s (dg : list nat), maps = (if right' then mp t g ++ [emap ec] else emap ec :: mp t g) ->
    dims_of (mp t g) kg = Some dg -> ssum kg = sneg s -> mmem s (emap ec) = true -> msorted (emap ec) ->
    In (if right' then kg ++ [s] else s :: kg) (map fst (block_list maps)).
  Proof.
    intros maps kg s dg -> Hd Hs Hm Hso. unfold mmem in Hm. destruct (mfind s (emap ec)) as [d|] eqn:Q; [|discriminate].
    pose proof (mp_sorted t W g (proj1 sd_incl)) as Sg. pose proof (dims_of_length _ _ _ Hd) as [L1 L2].
    apply in_map_iff. exists (if right' then kg ++ [s] else s :: kg, prod (if right' then dg ++ [d] else d :: dg)). split; [reflexivity|].
    destruct right'; apply in_block_list; split.
    - apply dims_of_choice; [apply Forall_app; split; [exact Sg|constructor; [exact Hso|constructor]]|]. exists (dg ++ [d]). split; [|reflexivity].
      rewrite dims_of_app by congruence. rewrite Hd. cbn [dims_of]. now rewrite Q.
    - rewrite ssum_app, ssum_one, Hs. apply sadd_neg_l.
    - apply dims_of_choice; [constructor; [exact Hso|exact Sg]|]. exists (d :: dg). split; [|reflexivity]. cbn [dims_of]. now rewrite Q, Hd.
    - rewrite ssum_cons, Hs. apply sadd_neg_r.
  Qed.

  Hypothesis Huncut : a_cut a = [] \/ a_cut a = [(c, [])].
  Lemma cut_map_nil : forall m : list entry, cut_map [] m = m.
  Proof. clear. intro m. unfold cut_map. rewrite (flat_map_ext _ (fun sd => [sd])); [|intros [x y]; reflexivity]. induction m as [|x m IH]; [reflexivity|]. cbn [flat_map app]. now rewrite IH. Qed.
  Lemma sd_ec1 : ec1 c ec a = ec.
  Proof.
    unfold ec1, cut_edge. destruct Huncut as [-> | ->]; [reflexivity|]. cbn [mfind]. rewrite eqb_refl, cut_map_nil. now destruct ec.
  Qed.
  Lemma sd_leg_c : leg_r c eA ec (parts g) a c = mkEdge (xorb (is_fermi && mem_name c (a_reversed a)) (earrow ec)) (emap ec).
  Proof. unfold leg_r. now rewrite Nat.eqb_refl, sd_ec1. Qed.
  Lemma sd_leg_g : forall n, In n g -> leg_r c eA ec (parts g) a n = mkEdge (xorb (is_fermi && mem_name n (a_reversed a)) (earrow eA)) (emap (edge_named (tlegs t) n)).
  Proof. intros n Hn. unfold leg_r. destruct (Nat.eqb_spec n c) as [->|_]; [contradiction|]. now rewrite sd_named. Qed.
  Lemma sd_maps : map (fun n => emap (leg_r c eA ec (parts g) a n)) (a_new_names a) = if right' then mp t g ++ [emap ec] else emap ec :: mp t g.
  Proof.
    assert (Q : map (fun n => emap (leg_r c eA ec (parts g) a n)) g = mp t g) by (apply map_ext_in; intros n Hn; now rewrite sd_leg_g).
    rewrite Hnew. destruct right'; [rewrite map_app|]; cbn [map]; rewrite Q, sd_leg_c; reflexivity.
  Qed.
  Lemma edge_named_map : forall (f : nat -> edge S) l n, NoDup l -> In n l -> edge_named (combine l (map f l)) n = f n.
  Proof.
    intros f l n Hnd Hn. unfold edge_named. rewrite (In_mfind_nodup _ n (f n)); [reflexivity| |].
    - rewrite combine_map_fst by (now rewrite map_length). exact Hnd.
    - apply In_nth_error in Hn as [i Hi]. revert i Hi. clear. induction l as [|x l IH]; intros [|i] Hi; cbn in *; try discriminate; [injection Hi as ->; now left|right; eapply IH; eauto].
  Qed.
  Lemma nth_error_combine : forall (A B : Type) (l1 : list A) (l2 : list B) i x y, nth_error (combine l1 l2) i = Some (x, y) -> nth_error l1 i = Some x /\ nth_error l2 i = Some y.
  Proof. clear. induction l1 as [|u l1 IH]; intros [|v l2] [|i] x y H; cbn in *; try discriminate; [injection H as -> ->; auto|now apply IH]. Qed.
  Theorem side_factor : exists X, edge_operator E p a = Ok X /\
    factor t X g h c right' (xorb (mem_name c (a_reversed a)) (earrow ec)) (xorb (xorb right right') (mem_name c (a_reversed a) && mem_name c (a_ex_rev a))) K
      (fun s i j => nth (if right then i * K s + j else j * merged_dim (mp t g) (sneg s) + i) (D s) rzero).
  Proof.
    destruct sd_split as [r [H1 [H2 [H3 [H4 [H5 [H6 H7]]]]]]]. destruct sd_incl as [Ig Ih]. exists r. split; [exact H1|].
    assert (Sc : msorted (emap ec)).
    { pose proof (wf_maps _ (wf_tcore _ Wp)) as M. unfold p in M. cbn [t_core c_edges] in M. unfold sorted_maps, maps_of in M. destruct right; inversion M as [|? ? M1 M2]; [inversion M2; assumption|assumption]. }
    rewrite sd_maps in H5, H6.
    assert (ND : NoDup (a_new_names a)) by (rewrite <- H3; apply H2).
    assert (He : t_edges r = map (leg_r c eA ec (parts g) a) (a_new_names a)).
    { rewrite H4. apply prune_id. intros i e s Hi Hs. cbn [Nat.add]. apply used_in_true. rewrite H5. rewrite nth_error_map in Hi. destruct (nth_error (a_new_names a) i) as [n|] eqn:Hn; [|discriminate]. injection Hi as <-.
      assert (Hin : In n g \/ n = c) by (apply nth_error_In in Hn; rewrite Hnew in Hn; destruct right'; [apply in_app_or in Hn as [Hn|[<-|[]]]|destruct Hn as [<-|Hn]]; auto).
      assert (Kc : exists kg dg sc, dims_of (mp t g) kg = Some dg /\ ssum kg = sneg sc /\ mmem sc (emap ec) = true /\ nth_error (if right' then kg ++ [sc] else sc :: kg) i = Some s).
      { destruct Hin as [Hin| ->].
        - rewrite sd_leg_g in Hs by exact Hin. cbn [emap] in Hs. destruct (leg_of_name t n W (Ig n Hin)) as [e He]. rewrite (leg_named t n e W He) in Hs.
          apply In_nth_error in He as [k Hk]. apply nth_error_combine in Hk as [K1 K2]. destruct (wf_pruned _ (wf_tcore _ W) k e s K2 Hs) as [key [K3 K4]].
          destruct (key_present t key W K3) as [kc [C1 [C2 [C3 C4]]]].
          assert (Z : ssum (map kc g) = sneg (ssum (map kc h))).
          { assert (Z : sadd (ssum (map kc g)) (ssum (map kc h)) = szero) by (rewrite <- ssum_app, <- map_app, <- C2; apply ssum_perm, Permutation_map, Permutation_sym, HP). apply sadd_eq_0 in Z. now rewrite Z, sneg_invol. }
          pose (f := fun n => if Nat.eqb n c then ssum (map kc h) else kc n).
          assert (Ug : map f g = map kc g).
          { apply map_ext_in. intros m Hm. unfold f. destruct (Nat.eqb_spec m c) as [->|_]; [contradiction|reflexivity]. }
          assert (Dg : exists dg, dims_of (mp t g) (map kc g) = Some dg).
          { clear - C3 Ig. induction g as [|x l IH]; [exists []; reflexivity|]. destruct (C3 x (Ig x (or_introl eq_refl))) as [d Hx]. destruct IH as [dc Hdc]; [intros y Hy; apply Ig; now right|].
            exists (d :: dc). unfold mp in *. cbn [map dims_of]. now rewrite Hx, Hdc. }
          destruct Dg as [dg Dg]. exists (map kc g), dg, (ssum (map kc h)). split; [exact Dg|]. split; [exact Z|]. split.
          + unfold mmem. rewrite Hec, <- Z, (C4 g Ig), (C4 h Ih). reflexivity.
          + replace (if right' then map kc g ++ [ssum (map kc h)] else ssum (map kc h) :: map kc g) with (map f (a_new_names a)).
            * rewrite nth_error_map, Hn. cbn [option_map]. f_equal. unfold f. destruct (Nat.eqb_spec n c) as [->|_]; [contradiction|]. rewrite <- C1, nth_error_map, K1 in K4. now injection K4.
            * rewrite Hnew. assert (Fc : f c = ssum (map kc h)) by (unfold f; now rewrite Nat.eqb_refl). destruct right'; [rewrite map_app|]; cbn [map]; now rewrite Ug, Fc.
        - rewrite sd_leg_c in Hs. cbn [emap] in Hs. apply mfind_Some_In in Hs as [d Hd].
          assert (M : mmem s (emap ec) = true) by (unfold mmem; now rewrite Hd).
          rewrite Hec in Hd. destruct (present (mp t g) (sneg s)) eqn:P1; [|discriminate].
          apply (present_iff _ _ (mp_sorted t W g Ig)) in P1 as [kg [dg [D1 D2]]].
          pose proof (dims_of_length _ _ _ D1) as [L1 L2]. unfold mp in L1, L2. rewrite map_length in L1, L2.
          exists kg, dg, s. split; [exact D1|]. split; [exact D2|]. split; [exact M|].
          rewrite Hnew in Hn. destruct right'.
          + destruct (Nat.lt_ge_cases i (length g)) as [Hl|Hl]; [rewrite nth_error_app1 in Hn by exact Hl; apply nth_error_In in Hn; contradiction|].
            rewrite nth_error_app2 in Hn |- * by lia. rewrite L2. destruct (i - length g) as [|[|?]]; [reflexivity|discriminate|discriminate].
          + destruct i as [|i]; [reflexivity|]. cbn [nth_error] in Hn. apply nth_error_In in Hn. contradiction. }
      destruct Kc as [kg [dg [sc [Q1 [Q2 [Q3 Q4]]]]]]. eexists. split; [|exact Q4]. eapply side_key; eauto. }
    assert (Hl : forall n, In n (a_new_names a) -> edge_named (tlegs r) n = leg_r c eA ec (parts g) a n).
    { intros n Hn. rewrite He, H3. now apply edge_named_map. }
    assert (Ic : In c (a_new_names a)) by (rewrite Hnew; destruct right'; [apply in_or_app; right; now left|now left]).
    assert (Ign : forall n, In n g -> In n (a_new_names a)) by (intros n Hn; rewrite Hnew; destruct right'; [apply in_or_app; now left|now right]).
    constructor.
    - exact H2.
    - now rewrite H3.
    - intros n Hn. rewrite (Hl n (Ign n Hn)), sd_leg_g by exact Hn. reflexivity.
    - intros F n Hn V. rewrite (Hl n (Ign n Hn)), sd_leg_g by exact Hn. cbn [earrow]. rewrite F. cbn [andb]. now apply Harr.
    - intro s. rewrite (Hl c Ic), sd_leg_c. cbn [emap]. apply Hec.
    - intros F. rewrite (Hl c Ic), sd_leg_c. cbn [earrow]. now rewrite F.
    - intros pos s j Hpos Hcs Hr Ht P2 Hj. rewrite H3 in Hpos. assert (P1 : present (mp t g) (sneg s) = true).
      { rewrite <- Ht. apply (present_point _ _ (mp_sorted t W g Ig) Hr). }
      apply (H7 pos s j Hpos Hcs Hr); [|exact Ht]. rewrite sd_ec1. specialize (Hec s). rewrite P1, P2 in Hec. cbn [andb] in Hec. apply mfind_In in Hec.
      econstructor; [exact Hec|exact Hj|constructor].
  Qed.
End Side.
