(** split_edge of any tensor, by names. *)
From Coq Require Import String List Bool Arith Lia Sorted Permutation.
From Verif Require Import Base.Outcome Base.SMap Model.Symmetry Model.Edge Model.Core Model.Transpose Model.EdgeOperator
  Spec.Blocks Spec.Fuse Spec.Strided Spec.Sign Spec.Relabel Proof.SymmetryFacts Proof.LoopFacts Proof.CoreFacts Proof.ConstructFacts Proof.ElemFacts Proof.OffsetFacts
  Proof.KernelFacts Proof.TransposeFacts Proof.GroupFacts Proof.CopyLoopFacts Proof.TableFacts Proof.EdgeOperatorFacts Proof.EdgeOperatorMain Proof.SignFacts
  Proof.TransposeTensor Proof.TransposeNames Proof.NamedOperator Proof.MergeNames Proof.MergeFacts Proof.MergeSplit Proof.SplitMerged Proof.SplitFacts.
Import ListNotations.

Section SplitAny.
  Context {S R : Type} {SS : Sym S} {SL : SymLaws S} {RR : Scalar R}.
  Notation entry := (S * nat)%type.
  Notation tlegs t := (combine (t_names t) (t_edges t)).

  (** what split_edge needs: the names of the result are distinct, the segments of the parts are sorted maps, every total
      charge present on the leg has room for its tuples; a leg split into one part must have all its charges, a leg split
      into nothing must have charge zero *)
  Record splittable (t : tensor S R) (split : list (nat * list (nat * edge S))) : Prop := {
    sp_sorted : forall n ps, In n (t_names t) -> mfind n split = Some ps -> Forall (fun p => msorted (emap (snd p))) ps;
    sp_zero : forall n e, In (n, e) (tlegs t) -> mfind n split = Some [] -> mmem szero (emap e) = true;
    sp_room : forall n e ps s, In (n, e) (tlegs t) -> mfind n split = Some ps ->
      existsb (fun x => eqb (total x) s) (tuples (map (fun p => emap (snd p)) ps)) = true ->
      (length ps = 1 \/ mmem s (emap e) = true) ->
      exists d, mfind s (emap e) = Some d /\ merged_dim (map (fun p => emap (snd p)) ps) s <= d;
    sp_names : NoDup (map fst (split_legs split (tlegs t))) }.

  Variables (E : @env R) (t : tensor S R) (split : list (nat * list (nat * edge S))) (ap : bool) (ex : list nat).
  Hypothesis W : wf_tensor t.
  Hypothesis Hs : splittable t split.
  Definition esplit := filter (fun np => mem_name (fst np) (t_names t)) split.
  Definition snames := map fst (split_legs split (tlegs t)).
  Definition wargs : @eo_args S := mkArgs [] esplit [] [] snames ap ex [] [] [] [].

  Lemma esplit_find : forall n, In n (t_names t) -> mfind n esplit = mfind n split.
  Proof.
    intros n Hn. unfold esplit. clear Hs. induction split as [|[k ps] sp IH]; [reflexivity|]. cbn [filter fst].
    destruct (mem_name k (t_names t)) eqn:Ek; cbn [mfind].
    - destruct (eqb n k); auto.
    - rewrite IH. destruct (eqb n k) eqn:E1; [|reflexivity]. apply eqb_eq in E1. subst k. apply mem_name_In in Hn. congruence.
  Qed.
  Lemma esplit_only : forall n ps, mfind n esplit = Some ps -> In n (t_names t) /\ mfind n split = Some ps.
  Proof.
    intros n ps H. pose proof H as H2. apply mfind_In in H2. unfold esplit in H2. apply filter_In in H2 as [_ H2]. cbn [fst] in H2.
    apply mem_name_In in H2. split; [exact H2|]. now rewrite <- (esplit_find n H2).
  Qed.
  Lemma wparts : forall ne, In ne (tlegs t) -> parts wargs ne = leg_parts split ne.
  Proof.
    intros [n e] H. unfold parts, leg_parts. cbn [fst snd wargs a_split]. rewrite esplit_find; [reflexivity|]. now apply in_combine_l in H.
  Qed.
  Lemma wnames1 : names1 t wargs = t_names t.
  Proof. now apply named_names1. Qed.
  Lemma wedges1 : edges1 t wargs = t_edges t.
  Proof. now apply plain_edges1. Qed.
  Lemma wlegs : legs t wargs = split_legs split (tlegs t).
  Proof.
    unfold legs, sgroups, split_legs. rewrite wnames1, wedges1, flat_map_concat_map. f_equal. apply map_ext_in. exact wparts.
  Qed.
  Lemma wnames2 : names2 t wargs = snames.
  Proof. unfold names2. fold (legs t wargs). now rewrite wlegs. Qed.
  Lemma wgroups : concat (groups wargs) = snames.
  Proof. rewrite (nil_groups wargs eq_refl). apply singles_concat. Qed.
  Lemma snames_flat : snames = flat_map (part_names split) (t_names t).
  Proof.
    unfold snames, split_legs. rewrite flat_map_concat_map, concat_map, map_map, flat_map_concat_map. f_equal.
    transitivity (map (fun ne : nat * edge S => part_names split (fst ne)) (tlegs t)).
    - apply map_ext. intros [n e]. unfold leg_parts, part_names. cbn [fst snd]. destruct (mfind n split); [|reflexivity]. now rewrite map_map.
    - rewrite <- (map_map fst (part_names split)). now rewrite combine_map_fst by apply W.
  Qed.
  Lemma split_any_eq : split_edge E t split ap ex = edge_operator E t wargs.
  Proof.
    unfold split_edge. fold esplit. unfold wargs. do 2 f_equal. rewrite snames_flat. rewrite !flat_map_concat_map. f_equal. apply map_ext_in.
    intros n Hn. unfold part_names. now rewrite esplit_find.
  Qed.
  Lemma wpre : eo_pre E t wargs.
  Proof.
    constructor.
    - exact W.
    - intros n ps H. apply esplit_only in H as [H1 H2]. exact (sp_sorted _ _ Hs n ps H1 H2).
    - apply fits_keys; [exact W|]. intros n e e0 ps HI Hps. rewrite wnames1, wedges1 in HI.
      assert (He : In (n, e) (tlegs t) /\ e0 = e).
      { clear - HI. revert HI. generalize (t_edges t). generalize (t_names t) as l. induction l as [|x l IH]; intros [|y es] H; try contradiction.
        destruct H as [H|H]; [injection H as -> -> ->; split; [now left|reflexivity]|]. destruct (IH es H). split; [now right|auto]. }
      destruct He as [He ->]. pose proof Hps as Hps2. apply esplit_only in Hps2 as [Hn Hps2].
      intros s Hk Hex. cbn [fst snd] in *. apply (sp_room _ _ Hs n e ps s He Hps2 Hex). unfold keep in Hk. cbn [fst snd] in Hk. rewrite Hps in Hk.
      destruct (Nat.leb_spec (length ps) 1) as [L|L]; auto. destruct ps as [|? [|? ?]]; [|now left|simpl in L; lia].
      right. cbn [map tuples existsb] in Hex. rewrite orb_false_r in Hex. apply eqb_eq in Hex. subst s. exact (sp_zero _ _ Hs n e He Hps2).
    - rewrite wnames2. apply Hs.
    - rewrite wnames2, wgroups. reflexivity.
    - apply Hs.
    - intros _ H. now elim H.
    - intros _. rewrite wedges1. apply Forall2_same. auto.
  Qed.

  Lemma kept_totals : forall pos p, assigns pos snames p -> in_range (maps_of (map snd (split_legs split (tlegs t)))) p -> 
    kept t wargs (map fst p) = totals_present split (tlegs t) pos.
  Proof.
    intros pos p Ha Hr. rewrite (kept_named t wargs pos p) by (rewrite wnames2; exact Ha). rewrite wnames1, wedges1. unfold totals_present.
    assert (HF : forall ne, In ne (tlegs t) -> keep wargs ne (ssum (map (fun x => fst (coord pos (fst x))) (parts wargs ne))) =
       mmem (ssum (map (fun n => fst (coord pos n)) (part_names split (fst ne)))) (emap (snd ne))).
    { intros [n e] He. rewrite (wparts _ He). cbn [fst snd].
      assert (Hp : map (fun x => fst (coord pos (fst x))) (leg_parts split (n, e)) = map (fun m => fst (coord pos m)) (part_names split n)).
      { unfold leg_parts, part_names. cbn [fst snd]. destruct (mfind n split); [|reflexivity]. now rewrite !map_map. }
      rewrite Hp. unfold keep. cbn [fst snd wargs a_split].
      assert (Hleg : forall m em, In (m, em) (leg_parts split (n, e)) -> mmem (fst (coord pos m)) (emap em) = true).
      { intros m em Hme. assert (Hin : In (m, em) (split_legs split (tlegs t))) by (unfold split_legs; apply in_flat_map; exists (n, e); auto).
        rewrite (assigns_coord pos _ p Ha) in Hr. unfold snames, maps_of in Hr. rewrite !map_map in Hr.
        assert (Hse : forall x, In x (split_legs split (tlegs t)) -> msorted (emap (snd x))).
        { intros [a b] Hx. unfold split_legs in Hx. apply in_flat_map in Hx as [[n0 e0] [Hx1 Hx2]]. unfold leg_parts in Hx2. cbn [fst snd] in Hx2.
          destruct (mfind n0 split) as [ps|] eqn:E0.
          - apply in_map_iff in Hx2 as [q [Eq Hq]]. injection Eq as <- <-. cbn [snd emap].
            pose proof (sp_sorted _ _ Hs n0 ps (in_combine_l _ _ _ _ Hx1) E0) as HS. rewrite Forall_forall in HS. now apply HS.
          - destruct Hx2 as [Hx2|[]]. injection Hx2 as <- <-. cbn [snd]. apply in_combine_r in Hx1.
            pose proof (wf_maps _ (wf_tcore _ W)) as Wm. unfold sorted_maps, maps_of in Wm. rewrite Forall_map, Forall_forall in Wm. now apply Wm. }
        assert (HH : forall x, In x (split_legs split (tlegs t)) -> exists d, In (fst (coord pos (fst x)), d) (emap (snd x))).
        { clear - Hr. induction (split_legs split (tlegs t)) as [|x l IH]; intros y Hy; [contradiction|]. cbn [map] in Hr. inversion Hr as [|ma ms s i d pt Hin Hi Hrest]; subst.
          destruct Hy as [->|Hy]; [|now apply IH]. match goal with HH : (_, _) = coord pos _ |- _ => rewrite <- HH end. eauto. }
        destruct (HH _ Hin) as [d Hd]. pose proof (In_mfind _ _ _ (Hse _ Hin) Hd) as Hf. cbn [fst snd] in Hf. unfold mmem. now rewrite Hf. }
      destruct (mfind n esplit) as [ps|] eqn:E1.
      - destruct (Nat.leb_spec (length ps) 1) as [L|L]; [|reflexivity].
        apply esplit_only in E1 as [E0 E1]. destruct ps as [|[m em] [|? ?]]; [|clear L|simpl in L; lia].
        { symmetry. unfold part_names. rewrite E1. exact (sp_zero _ _ Hs n e He E1). }
        symmetry.
        unfold part_names. rewrite E1. cbn [map fst]. rewrite ssum_one.
        specialize (Hleg m (mkEdge (earrow e) (emap em))). unfold leg_parts in Hleg. cbn [fst snd] in Hleg. rewrite E1 in Hleg.
        specialize (Hleg (or_introl eq_refl)). cbn [emap] in Hleg. unfold mmem in Hleg. destruct (mfind (fst (coord pos m)) (emap em)) as [d|] eqn:Ed; [|discriminate].
        destruct (sp_room _ _ Hs n e _ (fst (coord pos m)) He E1) as [d' [Hd' _]].
        + apply existsb_exists. exists [(fst (coord pos m), d)]. split.
          * cbn [map snd]. rewrite tuples_one. apply in_map_iff. eexists. split; [reflexivity|]. now apply mfind_In.
          * unfold total. cbn [map fst]. rewrite ssum_one. apply eqb_refl.
        + now left.
        + unfold mmem. now rewrite Hd'.
      - rewrite esplit_find in E1 by (now apply in_combine_l in He). unfold part_names. rewrite E1. cbn [map]. rewrite ssum_one. symmetry.
        apply Hleg. unfold leg_parts. cbn [fst]. rewrite E1. now left. }
    clear Hr. induction (tlegs t) as [|ne l IH]; [reflexivity|]. cbn [forallb]. rewrite (HF ne (or_introl eq_refl)). f_equal. apply IH. intros; apply HF. now right.
  Qed.

  Theorem split_named : exists r, split_edge E t split ap ex = Ok r /\ wf_tensor r /\ t_names r = snames /\
    forall pos p, assigns pos snames p -> in_range (maps_of (map snd (split_legs split (tlegs t)))) p -> ssum (map fst p) = szero ->
      let image := map (fun n => (n, unsplit_coord split (tlegs t) pos n)) (t_names t) in
      valid_pt (t_core r) p /\
      (totals_present split (tlegs t) pos = true -> exists v, const_at t image = Ok v /\
         const_at r pos = Ok (signed ropp (pairs_in (leg_odd pos) (applied ap ex) (map (fun n => (n, part_names split n)) (t_names t))) v)) /\
      (totals_present split (tlegs t) pos = false -> is_nosym = false -> const_at r pos = Ok rzero).
  Proof.
    destruct (is_nil esplit) eqn:En.
    - assert (Hnil : esplit = []) by (destruct esplit; [reflexivity|discriminate]).
      assert (Hno : forall n, In n (t_names t) -> mfind n split = None) by (intros n Hn; rewrite <- esplit_find by auto; now rewrite Hnil).
      assert (Hl : split_legs split (tlegs t) = tlegs t).
      { unfold split_legs. rewrite flat_map_concat_map. rewrite <- (singles_concat _ (tlegs t)) at 2. f_equal. apply map_ext_in. intros [n e] He.
        unfold leg_parts. cbn [fst]. rewrite Hno; [reflexivity|]. now apply in_combine_l in He. }
      assert (Hn : snames = t_names t) by (unfold snames; rewrite Hl; apply combine_map_fst; apply W).
      exists t. split; [|split; [exact W|split; [auto|]]].
      + rewrite split_any_eq. unfold edge_operator. cbn [wargs a_rename a_split a_reversed a_merge a_cut a_new_names is_nil]. rewrite En.
        assert (Hid : map (rename_one []) (t_names t) = t_names t) by apply map_id. rewrite Hid, Hn, is_same_vector_refl. cbn [andb]. now destruct t.
      + rewrite Hn, Hl. rewrite combine_map_snd by apply W. intros pos p Ha Hr Hz image.
        assert (Hv : valid_pt (t_core t) p) by (split; auto). split; [exact Hv|].
        destruct (const_at_elem t pos p W Ha Hv) as [v [E1 E2]].
        assert (Htp : totals_present split (tlegs t) pos = true).
        { unfold totals_present. apply forallb_forall. intros [n e] He. cbn [fst snd]. unfold part_names. rewrite Hno by (now apply in_combine_l in He).
          cbn [map]. rewrite ssum_one.
          rewrite (assigns_coord pos _ p Ha) in Hr.
          assert (HL := wf_rank _ W). pose proof (wf_maps _ (wf_tcore _ W)) as Wm. unfold sorted_maps, maps_of in Wm. fold (t_edges t) in Wm.
          clear - Hr He HL Wm SL. revert Hr He HL Wm. generalize (t_edges t). induction (t_names t) as [|m ns IH]; intros [|f es] Hr He HL Wm; try contradiction.
          cbn [map maps_of] in Hr. inversion Hr as [|ma ms s i d pt Hin Hi Hrest]; subst. inversion Wm; subst. destruct He as [He|He].
          - injection He as -> ->. match goal with HH : (_, _) = coord pos _ |- _ => rewrite <- HH end. cbn [fst]. unfold mmem. rewrite (In_mfind (emap e) s d); [reflexivity|assumption|exact Hin].
          - apply (IH es); auto. }
        split; [|congruence]. intros _. exists v.
        assert (Him : image = map (fun n => (n, coord pos n)) (t_names t)).
        { unfold image. apply map_ext_in. intros n Hn'. unfold unsplit_coord. now rewrite Hno. }
        split.
        * rewrite Him. destruct (const_at_elem t (map (fun n => (n, coord pos n)) (t_names t)) p W) as [w [F1 F2]]; [|exact Hv|].
          -- rewrite (assigns_coord pos _ p Ha). rewrite <- combine_map_r. apply assigns_combine; [apply W|now rewrite map_length].
          -- rewrite E1 in F1. injection F1 as <-. exact F2.
        * replace (map (fun n => (n, part_names split n)) (t_names t)) with (map (fun n => (n, [n])) (t_names t)).
          -- rewrite pairs_in_singles. exact E2.
          -- apply map_ext_in. intros n Hn'. unfold part_names. now rewrite Hno.
    - destruct (edge_operator_named E t wargs wpre eq_refl) as [r [re [H1 [H2 [H3 [H4 [H5 [H6 [H7 [H8 H9]]]]]]]]]].
      { cbn [wargs a_split]. rewrite En. now rewrite andb_false_r. }
      exists r. split; [now rewrite split_any_eq|]. split; [exact H2|]. split; [exact H3|]. intros pos p Ha Hr Hz image.
      rewrite wnames2 in H7. unfold edges2 in H7. fold (legs t wargs) in H7. rewrite wlegs in H7.
      destruct (H7 pos p Ha Hr Hz) as [V1 [V2 V3]]. rewrite (kept_totals pos p Ha Hr) in V2, V3.
      assert (Hid : map (merged_coord (split_legs split (tlegs t)) (a_merge wargs) pos) (a_new_names wargs) = p) by (symmetry; now apply (assigns_coord pos snames)).
      rewrite Hid in V1, V2, V3. split; [exact V1|].
      destruct (const_at_elem r pos p H2) as [w [F1 F2]]; [rewrite H3; exact Ha|exact V1|].
      split.
      + intro Hk. destruct (V2 Hk) as [v [X1 [X2 X3]]]. exists v.
        assert (Hsrc : map (src_coord t wargs pos) (t_names t) = map (unsplit_coord split (tlegs t) pos) (t_names t)).
        { apply map_ext_in. intros n Hn. unfold src_coord, unsplit_coord. cbn [wargs a_split]. rewrite esplit_find by exact Hn. fold wargs. now rewrite wlegs. }
        rewrite Hsrc in X1, X2. split.
        * assert (Him : image = combine (t_names t) (map (unsplit_coord split (tlegs t) pos) (t_names t))) by (unfold image; now rewrite combine_map_r).
          destruct (const_at_elem t image (map (unsplit_coord split (tlegs t) pos) (t_names t)) W) as [u [U1 U2]]; [|exact X2|].
          -- rewrite Him. apply assigns_combine; [apply W|now rewrite map_length].
          -- rewrite X1 in U1. injection U1 as <-. exact U2.
        * rewrite X3 in F1. injection F1 as <-. rewrite F2. f_equal. apply signed_odd. unfold sign_number.
          rewrite wnames2, wgroups, exchanged_same by apply Hs.
          cbn [wargs a_reversed a_apply_parity a_ex_split]. rewrite count_zero by reflexivity. fold wargs.
          rewrite (count_zero _ (fun n => fixed_leg t wargs n && _ && _)).
          -- replace (merge_groups_named wargs) with (map (fun n => (n, [n])) snames).
             ++ rewrite pairs_in_singles. rewrite !Nat.add_0_l, !Nat.add_0_r. do 2 f_equal. unfold split_groups. apply map_ext_in. intros n Hn. f_equal.
                unfold part_names. cbn [wargs a_split]. now rewrite esplit_find.
             ++ unfold merge_groups_named. rewrite (nil_groups wargs eq_refl). cbn [wargs a_new_names]. now rewrite combine_map_r.
          -- intro n. replace (fixed_leg t wargs n) with false; [reflexivity|]. symmetry. unfold fixed_leg. rewrite (nil_groups wargs eq_refl). apply turned_singles.
      + intros Hk Hns. rewrite (V3 Hk Hns) in F1. injection F1 as <-. exact F2.
  Qed.
End SplitAny.
