(** split_edge after merge_edge, reverse_edge, split_edge of any tensor. *)
From Coq Require Import String List Bool Arith Lia Sorted Permutation.
From Verif Require Import Base.Outcome Base.SMap Model.Symmetry Model.Edge Model.Core Model.Transpose Model.EdgeOperator
  Spec.Blocks Spec.Fuse Spec.Strided Spec.Sign Spec.Relabel Proof.SymmetryFacts Proof.LoopFacts Proof.CoreFacts Proof.ConstructFacts Proof.ElemFacts Proof.OffsetFacts
  Proof.KernelFacts Proof.TransposeFacts Proof.GroupFacts Proof.CopyLoopFacts Proof.TableFacts Proof.EdgeOperatorFacts Proof.EdgeOperatorMain Proof.SignFacts
  Proof.TransposeTensor Proof.TransposeNames Proof.NamedOperator Proof.MergeNames Proof.MergeFacts Proof.MergeSplit Proof.SplitMerged.
Import ListNotations.

Section Split.
  Context {S R : Type} {SS : Sym S} {SL : SymLaws S} {RR : Scalar R}.
  Notation entry := (S * nat)%type.
  Notation tlegs t := (combine (t_names t) (t_edges t)).

  Lemma valid_length : forall (t : tensor S R) p, wf_tensor t -> valid_pt (t_core t) p -> length (t_names t) = length p.
  Proof.
    intros t p W [H _]. rewrite (wf_rank _ W). apply in_range_length in H. rewrite H. unfold maps_of, t_edges. now rewrite map_length.
  Qed.
  Lemma split_nil_id : forall (E : @env R) (t : tensor S R) ap ex, split_edge E t [] ap ex = Ok t.
  Proof.
    intros. unfold split_edge. cbn [filter mfind]. rewrite flat_map_single.
    unfold edge_operator. cbn [a_rename a_split a_reversed a_merge a_cut a_new_names is_nil].
    assert (Hid : map (rename_one []) (t_names t) = t_names t) by apply map_id. rewrite Hid, is_same_vector_refl. now destruct t.
  Qed.

  (** ** splitting what was merged *)
  Theorem split_merge_named : forall (E E' : @env R) (t : tensor S R) merge ap exm exr,
    (forall v : R, ropp (ropp v) = v) -> wf_tensor t -> mergeable E t merge ->
    (t_blocks t <> [] \/ forall k l, In (k, l) (effective (t_names t) merge) -> l <> []) ->
    let legs := tlegs t in
    let M := effective (t_names t) merge in
    let target := merged_names (t_names t) M in
    let names' := flat_map (group_of M) target in
    exists r r2, merge_edge E t merge ap exm exr = Ok r /\ split_edge E' r (split_of legs M) ap exm = Ok r2 /\
      wf_tensor r2 /\ t_names r2 = names' /\ Permutation (t_names t) names' /\
      map emap (t_edges r2) = map (fun n => emap (edge_named legs n)) names' /\
      (forall n e, In (n, e) (combine names' (t_edges r2)) -> exists k ek, In (k, ek) (combine target (t_edges r)) /\ In n (group_of M k) /\ earrow e = earrow ek) /\
      (forall pos pt, assigns pos (t_names t) pt -> valid_pt (t_core t) pt -> exists v, const_at t pos = Ok v /\
         valid_pt (t_core r2) (map (coord pos) names') /\
         const_at r2 pos = Ok (signed ropp (exchanged_odd (leg_odd pos) (t_names t) names' +
            count (fun n => turned legs (map (group_of M) target) n && applied ap exr n && leg_odd pos n) (t_names t)) v)).
  Proof.
    intros E E' t merge ap exm exr Hopp W Hm Hb legs M target names'.
    destruct merge as [|kl merge'].
    - assert (HM : M = []) by reflexivity. assert (HT : target = t_names t) by apply merged_names_nil.
      assert (HN : names' = t_names t) by (unfold names'; rewrite HT, HM; apply flat_map_single).
      exists t, t. split; [apply merge_nil_id|]. split; [apply split_nil_id|]. split; [exact W|]. split; [now symmetry|]. rewrite HN. split; [reflexivity|].
      split; [|split].
      + pose proof (legs0_edges E t [] ap exm exr W Hm) as HL. unfold mlegs in HL. fold legs in HL. rewrite <- HL at 1. now rewrite map_map.
      + intros n e He. exists n, e. rewrite HT, HM. split; [exact He|]. split; [now left|reflexivity].
      + intros pos pt Ha Hv. destruct (const_at_elem t pos pt W Ha Hv) as [v [E1 E2]]. exists v. split; [exact E2|].
        rewrite <- (assigns_coord _ _ _ Ha). split; [exact Hv|]. rewrite E2. f_equal. unfold signed.
        rewrite exchanged_same by apply W. rewrite count_zero; [reflexivity|]. intro n. rewrite HT, HM.
        replace (map (group_of []) (t_names t)) with (map (fun n => [n]) (t_names t)) by reflexivity. now rewrite turned_singles.
    - destruct (merge_raw E t (kl :: merge') ap exm exr W Hm) as [r [re [H1 [H2 [H3 [H4 [H5 [H6 [H7 [H8 H9]]]]]]]]]]; [discriminate|].
      destruct (split_raw E E' t (kl :: merge') ap exm exr W Hm Hb) with (r := r) (re := re) as [r2 [X1 [X2 [X3 [X4 [X5 X6]]]]]]; auto; [discriminate|].
      exists r, r2. split; [exact H1|]. split; [exact X1|]. split; [exact X2|]. split; [exact X3|].
      split; [exact (flat_perm E t (kl :: merge') ap exm exr W Hm)|]. split; [exact X4|]. split; [exact X5|].
      intros pos pt Ha Hv. assert (Hf : assigns pos names' (map (coord pos) names')).
      { eapply (assigns_perm pos (t_names t)); [exact Ha|]. intros n Hn. eapply Permutation_in; [apply Permutation_sym; apply (flat_perm E t (kl :: merge') ap exm exr W Hm)|exact Hn]. }
      destruct (X6 pos _ pt Hf Ha Hv) as [V1 [v [V2 V3]]]. exists v.
      destruct (const_at_elem t pos pt W Ha Hv) as [v' [E1 E2]]. rewrite V2 in E1. injection E1 as <-. split; [exact E2|]. split; [exact V1|].
      destruct (const_at_elem r2 pos (map (coord pos) names') X2) as [w [F1 F2]]; [rewrite X3; exact Hf|exact V1|]. rewrite V3 in F1. injection F1 as <-. exact F2.
  Qed.

  (** the arrows inside every merged group agree, and are the arrow the merged edge gets *)
  Definition arrows_agree (t : tensor S R) (M : list (nat * list nat)) : Prop :=
    forall k l, In (k, l) M -> length l <> 1 -> exists b, (is_fermi = false -> b = false) /\
      (is_fermi = true -> l = [] \/ exists n, In n l /\ arrow_valid (edge_named (tlegs t) n) = true) /\
      forall n, In n l -> earrow (edge_named (tlegs t) n) = b.

  Lemma agree_first : forall (es : list (edge S)) b, (forall e, In e es -> earrow e = b) ->
    (exists e, In e es /\ arrow_valid e = true) -> first_arrow es = Some b.
  Proof.
    intros es b H [e [H1 H2]]. unfold first_arrow. destruct (find arrow_valid es) as [x|] eqn:E1.
    - apply find_some in E1 as [E1 _]. now rewrite (H x E1).
    - apply find_none with (x := e) in E1; auto. congruence.
  Qed.
  Lemma agree_against : forall (es : list (edge S)) b e, (forall e, In e es -> earrow e = b) -> In e es -> against es e = false.
  Proof.
    intros es b e H He. unfold against, first_arrow. destruct (find arrow_valid es) as [x|] eqn:E1; [|reflexivity].
    apply find_some in E1 as [E1 _]. rewrite (H x E1), (H e He), Bool.eqb_reflx. apply andb_false_r.
  Qed.

  Theorem split_merge_transpose : forall (E E' E'' : @env R) (t : tensor S R) merge ap exm exr,
    (forall v : R, ropp (ropp v) = v) -> wf_tensor t -> mergeable E t merge ->
    (t_blocks t <> [] \/ forall k l, In (k, l) (effective (t_names t) merge) -> l <> []) ->
    arrows_agree t (effective (t_names t) merge) ->
    let M := effective (t_names t) merge in
    let names' := flat_map (group_of M) (merged_names (t_names t) M) in
    exists r2, bind (merge_edge E t merge ap exm exr) (fun r => split_edge E' r (split_of (tlegs t) M) ap exm) = Ok r2 /\
      transpose E'' t names' = Ok r2 /\ Permutation (t_names t) names' /\
      bind (transpose E'' r2 (t_names t)) (fun t' => Ok t') = Ok t.
  Proof.
    intros E E' E'' t merge ap exm exr Hopp W Hm Hb Hag M names'.
    destruct (split_merge_named E E' t merge ap exm exr Hopp W Hm Hb) as [r [r2 [H1 [H2 [H3 [H4 [H5 [H6 [H7 H8]]]]]]]]].
    fold M in H2, H4, H5, H6, H7, H8. fold names' in H4, H5, H6, H7, H8.
    exists r2. split; [now rewrite H1|].
    destruct (transpose_ok E'' t names' W H5) as [rt [d2s [HT Ht]]].
    pose proof Ht as [Hpl [Hpn [Wt [Tn [Te _]]]]].
    destruct (merge_named E t merge ap exm exr W Hm) as [r' [M1 [_ [_ [M4 _]]]]]. rewrite H1 in M1. injection M1 as <-. fold M in M4.
    set (target := merged_names (t_names t) M) in *.
    assert (Hturn : forall n, turned (tlegs t) (map (group_of M) target) n = false).
    { intro n. unfold turned. apply existsb_false. intros l Hl. apply in_map_iff in Hl as [k [<- Hk]].
      destruct (member n (group_of M k)) eqn:Em; [|reflexivity]. apply member_In in Em. cbn [andb].
      destruct (target_cases (t_names t) M (mkeys E t merge Hm) (mg_groups _ _ _ Hm) (mincl t merge) k Hk) as [[l [Hl Eg]]|[_ [_ [_ Eg]]]].
      - rewrite Eg in *. destruct (Nat.eq_dec (length l) 1) as [L|L].
        + destruct l as [|m [|? ?]]; try discriminate. destruct Em as [->|[]]. cbn [map]. apply against_single.
        + destruct (Hag k l Hl L) as [b [_ [_ Hb3]]]. apply agree_against with (b := b).
          * intros e He. apply in_map_iff in He as [m [<- Hmm]]. auto.
          * now apply in_map.
      - rewrite Eg in *. destruct Em as [->|[]]. cbn [map]. apply against_single. }
    assert (Hleg : map (edge_named (tlegs t)) (t_names t) = t_edges t) by (exact (legs0_edges E t merge ap exm exr W Hm)).
    assert (Hedges : t_edges r2 = map (edge_named (tlegs t)) names').
    { assert (HL : length names' = length (t_edges r2)) by (rewrite <- H4; apply H3).
      clear H8. assert (HF : Forall2 (fun n e => e = edge_named (tlegs t) n) names' (t_edges r2)).
      - apply Forall2_in_combine; [exact HL|]. intros n e He.
        assert (Hmap : emap e = emap (edge_named (tlegs t) n)).
        { clear - H6 He HL. revert He H6 HL. generalize (t_edges r2). generalize names' as l. intro l.
          induction l as [|m l IH]; intros [|e0 es] He H6 HL; try contradiction; try discriminate.
          cbn [map] in H6. injection H6 as A B. destruct He as [He|He]; [injection He as -> ->; exact A|]. apply (IH es); auto. }
        destruct (H7 n e He) as [k [ek [K1 [K2 K3]]]]. specialize (M4 k ek K1). destruct M4 as [_ B1 B2 B3].
        assert (Harr : earrow e = earrow (edge_named (tlegs t) n)).
        { rewrite K3. destruct (target_cases (t_names t) M (mkeys E t merge Hm) (mg_groups _ _ _ Hm) (mincl t merge) k (in_combine_l _ _ _ _ K1)) as [[l [Hl Eg]]|[_ [_ [_ Eg]]]].
          - rewrite Eg in *. destruct (Nat.eq_dec (length l) 1) as [L|L].
            + destruct l as [|m [|? ?]]; try discriminate. destruct K2 as [->|[]]. now apply B1.
            + destruct (Hag k l Hl L) as [b [Hb1 [Hb2 Hb3]]]. rewrite (Hb3 n K2). destruct is_fermi eqn:F.
              * specialize (B3 L eq_refl). rewrite (agree_first _ b) in B3; [now injection B3| |].
                -- intros x Hx. apply in_map_iff in Hx as [m [<- Hmm]]. auto.
                -- destruct (Hb2 eq_refl) as [->|[m [Hm1 Hm2]]]; [contradiction|]. exists (edge_named (tlegs t) m). split; auto. now apply in_map.
              * rewrite (Hb1 eq_refl). now apply B2.
          - rewrite Eg in *. destruct K2 as [->|[]]. now apply B1. }
        destruct e as [x m], (edge_named (tlegs t) n) as [x' m']. simpl in *. congruence.
      - clear - HF. induction HF; [reflexivity|]. cbn [map]. congruence. }
    assert (Heq : r2 = rt).
    { apply tensor_ext; auto.
      - congruence.
      - rewrite Hedges, Te. rewrite <- Hleg at 2. rewrite Hpn. unfold permuted. rewrite map_map. apply map_ext_in. intros j Hj.
        pose proof (plan_in_bound _ _ _ Hpl j Hj) as Hbd. rewrite (nth_indep _ dflt_edge (edge_named (tlegs t) 0)) by (now rewrite map_length).
        symmetry. apply map_nth.
      - intros p Hp.
        assert (Hp2 : valid_pt (t_core rt) p).
        { destruct Hp as [Hp Hz]. split; [|exact Hz]. fold (t_edges rt). fold (t_edges r2) in Hp. 
          replace (t_edges rt) with (t_edges r2); [exact Hp|]. rewrite Hedges, Te. rewrite <- Hleg at 2. rewrite Hpn. unfold permuted. rewrite map_map. apply map_ext_in. intros j Hj.
          pose proof (plan_in_bound _ _ _ Hpl j Hj) as Hbd. rewrite (nth_indep _ dflt_edge (edge_named (tlegs t) 0)) by (now rewrite map_length).
          symmetry. apply map_nth. }
        destruct (valid_permuted_inv t rt names' d2s W Ht p Hp2) as [pt [Hpt Ept]].
        set (pos := combine (t_names t) pt).
        assert (Ha : assigns pos (t_names t) pt) by (apply assigns_combine; [apply W|now apply valid_length]).
        destruct (transposed_named t rt names' d2s pos pt W Ht Ha Hpt) as [v [V1 [V2 [V3 V4]]]]. rewrite <- Ept in V3, V4.
        rewrite V4. destruct (H8 pos pt Ha Hpt) as [v' [U1 [U2 U3]]].
        destruct (const_at_elem t pos pt W Ha Hpt) as [w [E1 E2]]. rewrite V1 in E1. injection E1 as <-. rewrite U1 in E2. injection E2 as ->.
        rewrite <- (assigns_coord _ _ _ V3) in U2.
        destruct (const_at_elem r2 pos p H3) as [w [F1 F2]]; [rewrite H4; exact V3|exact U2|]. rewrite F1. rewrite U3 in F2. injection F2 as <-. f_equal.
        rewrite count_zero; [now rewrite Nat.add_0_r|]. intro n. now rewrite Hturn. }
    subst rt. split; [exact HT|]. split; [exact H5|].
    pose proof (transpose_back E'' E'' t names' Hopp W H5) as HB. rewrite HT in HB. cbn [bind] in HB. now rewrite HB.
  Qed.

  (** ** reverse_edge *)
  Section Reverse.
    Variables (E : @env R) (t : tensor S R) (rev : list nat) (ap : bool) (ex : list nat).
    Hypothesis W : wf_tensor t.
    Definition vargs : @eo_args S := mkArgs [] [] rev [] (t_names t) ap [] ex [] [] [].
    Definition reversed_edges : list (edge S) :=
      map (fun ne => if is_fermi && member (fst ne) rev then flip (snd ne) else snd ne) (tlegs t).
    Lemma vgroups : concat (groups vargs) = t_names t.
    Proof. rewrite (nil_groups vargs eq_refl). apply singles_concat. Qed.
    Lemma vnames2 : names2 t vargs = t_names t.
    Proof. now apply plain_names2. Qed.
    Lemma vpre : eo_pre E t vargs.
    Proof.
      constructor.
      - exact W.
      - intros n ps H. discriminate.
      - apply fits_keys; [exact W|]. intros n e e0 ps _ H. discriminate.
      - rewrite vnames2. apply W.
      - rewrite vnames2, vgroups. reflexivity.
      - apply W.
      - intros _ H. now elim H.
      - intros _. rewrite plain_edges1; auto. apply Forall2_same. auto.
    Qed.
    Lemma vlegs : legs t vargs = tlegs t.
    Proof. unfold legs. rewrite (plain_sgroups t vargs W eq_refl eq_refl eq_refl). apply singles_concat. Qed.
    Lemma vedges3 : edges3 t vargs = reversed_edges.
    Proof.
      unfold edges3, rev2. rewrite vnames2. rewrite plain_edges2 by auto. unfold reversed_edges. cbn [vargs a_reversed].
      pose proof (wf_rank _ W) as HL. revert HL. generalize (t_edges t). induction (t_names t) as [|n ns IH]; intros [|e es] HL; try discriminate; [reflexivity|].
      cbn [map combine fst snd]. f_equal. apply IH. simpl in HL. lia.
    Qed.
    Lemma reversed_maps : maps_of reversed_edges = maps_of (t_edges t).
    Proof.
      unfold reversed_edges, maps_of. rewrite map_map. transitivity (map (fun ne : nat * edge S => emap (snd ne)) (tlegs t)).
      - apply map_ext. intros [n e]. cbn [fst snd]. destruct (is_fermi && member n rev); reflexivity.
      - rewrite <- (map_map snd emap). now rewrite combine_map_snd by apply W.
    Qed.
    Theorem reverse_named : exists r, reverse_edge E t rev ap ex = Ok r /\ wf_tensor r /\ t_names r = t_names t /\ t_edges r = reversed_edges /\
      forall pos pt, assigns pos (t_names t) pt -> valid_pt (t_core t) pt -> exists v, const_at t pos = Ok v /\ valid_pt (t_core r) pt /\
        const_at r pos = Ok (signed ropp (count (fun n => member n rev && applied ap ex n && leg_odd pos n) (t_names t)) v).
    Proof.
      destruct (is_nil rev) eqn:En.
      - assert (rev = []) by (destruct rev; [reflexivity|discriminate]).
        exists t. split; [|split; [exact W|split; [reflexivity|split]]].
        + unfold reverse_edge, edge_operator. cbn [a_rename a_split a_reversed a_merge a_cut a_new_names is_nil]. rewrite En.
          assert (Hid : map (rename_one []) (t_names t) = t_names t) by apply map_id. rewrite Hid, is_same_vector_refl. now destruct t.
        + unfold reversed_edges. rewrite H. cbn [member existsb]. rewrite andb_false_r. symmetry. rewrite (map_ext _ snd) by reflexivity. apply combine_map_snd. apply W.
        + intros pos pt Ha Hv. destruct (const_at_elem t pos pt W Ha Hv) as [v [E1 E2]]. exists v. split; [exact E2|]. split; [exact Hv|].
          rewrite E2, H. rewrite count_zero by reflexivity. reflexivity.
      - destruct (edge_operator_named E t vargs vpre eq_refl) as [r [re [H1 [H2 [H3 [H4 [H5 [H6 [H7 [H8 H9]]]]]]]]]].
        { cbn [vargs a_reversed]. rewrite En. now rewrite andb_false_r. }
        rewrite (nil_groups vargs eq_refl) in H4. apply Forall2_map_l_inv in H4. cbn [vargs a_new_names] in H4. fold vargs in H4.
        assert (Hre : re = reversed_edges).
        { rewrite <- vedges3. rewrite <- (legs3_edges E t vargs vpre). rewrite vnames2. clear - H4. induction H4 as [|n e l es G H4 IH]; [reflexivity|]. cbn [map].
          f_equal; [|exact IH]. exact (ge_one _ _ _ _ _ G n eq_refl). }
        assert (Hpr : t_edges r = reversed_edges).
        { rewrite H5, Hre. apply (prune_maps _ (t_edges t)); [now rewrite reversed_maps|]. apply wf_prune_id; [apply W|].
          rewrite H6, Hre, reversed_maps. rewrite <- shape_keys. now rewrite (wf_shape _ (wf_tcore _ W)). }
        exists r. split; [exact H1|]. split; [exact H2|]. split; [exact H3|]. split; [exact Hpr|].
        intros pos pt Ha [Hr Hz]. rewrite vnames2 in H7. rewrite plain_edges2 in H7 by auto. destruct (H7 pos pt Ha Hr Hz) as [V1 [V2 _]].
        assert (Hid : map (merged_coord (legs t vargs) (a_merge vargs) pos) (a_new_names vargs) = pt) by (symmetry; now apply (assigns_coord pos (t_names t))).
        assert (Hsrc : map (src_coord t vargs pos) (t_names t) = pt) by (symmetry; now apply (assigns_coord pos (t_names t))).
        rewrite Hid in V1, V2. rewrite Hsrc in V2. destruct (V2 (plain_kept t vargs eq_refl _)) as [v [X1 [X2 X3]]]. exists v.
        destruct (const_at_elem t pos pt W Ha X2) as [v' [E1 E2]]. rewrite X1 in E1. injection E1 as <-. split; [exact E2|]. split; [exact V1|].
        destruct (const_at_elem r pos pt H2) as [w [F1 F2]]; [rewrite H3; exact Ha|exact V1|]. rewrite X3 in F1. injection F1 as <-. rewrite F2. f_equal.
        apply signed_odd. unfold sign_number. rewrite vnames2, vgroups, exchanged_same by apply W.
        rewrite (count_zero _ (fun n => fixed_leg t vargs n && _ && _)).
        + replace (merge_groups_named vargs) with (map (fun n => (n, [n])) (t_names t)).
          * replace (split_groups t vargs) with (map (fun n => (n, [n])) (t_names t)) by reflexivity. rewrite !pairs_in_singles.
            rewrite !Nat.add_0_r. reflexivity.
          * unfold merge_groups_named. rewrite (nil_groups vargs eq_refl). now rewrite combine_map_r.
        + intro n. replace (fixed_leg t vargs n) with false; [reflexivity|]. symmetry. unfold fixed_leg. rewrite (nil_groups vargs eq_refl). apply turned_singles.
    Qed.
  End Reverse.

  Theorem reverse_twice : forall (E E' : @env R) (t : tensor S R) rev ap ex, (forall v : R, ropp (ropp v) = v) -> wf_tensor t ->
    bind (reverse_edge E t rev ap ex) (fun r => reverse_edge E' r rev ap ex) = Ok t.
  Proof.
    intros E E' t rev ap ex Hopp W.
    destruct (reverse_named E t rev ap ex W) as [r [H1 [H2 [H3 [H4 H5]]]]].
    destruct (reverse_named E' r rev ap ex H2) as [r2 [K1 [K2 [K3 [K4 K5]]]]].
    rewrite H1. cbn [bind]. rewrite K1. f_equal.
    assert (He : t_edges r2 = t_edges t).
    { rewrite K4. unfold reversed_edges. rewrite H4, H3. unfold reversed_edges. pose proof (wf_rank _ W) as HL. revert HL. clear. generalize (t_edges t).
      induction (t_names t) as [|n ns IH]; intros [|e es] HL; try discriminate; [reflexivity|].
      cbn [map combine fst snd]. f_equal; [|apply IH; simpl in HL; lia].
      destruct (is_fermi && member n rev); [|reflexivity]. destruct e as [x m]. unfold flip. cbn. now rewrite negb_involutive. }
    apply tensor_ext; auto; [congruence|]. intros p Hp.
    assert (Hv : valid_pt (t_core t) p).
    { destruct Hp as [Hp Hz]. split; [|exact Hz]. fold (t_edges t). rewrite <- He. exact Hp. }
    set (pos := combine (t_names t) p). assert (Ha : assigns pos (t_names t) p) by (apply assigns_combine; [apply W|now apply valid_length]).
    destruct (H5 pos p Ha Hv) as [v [V1 [V2 V3]]].
    destruct (K5 pos p) as [w [U1 [U2 U3]]]; [now rewrite H3|exact V2|]. rewrite V3 in U1. injection U1 as <-.
    destruct (const_at_elem t pos p W Ha Hv) as [x [E1 E2]]. rewrite V1 in E2. injection E2 as <-.
    destruct (const_at_elem r2 pos p K2) as [y [F1 F2]]; [rewrite K3, H3; exact Ha|exact U2|]. rewrite U3 in F2. injection F2 as <-.
    rewrite F1, E1. f_equal. rewrite H3. rewrite (signed_signed Hopp). unfold signed. rewrite Nat.odd_add, xorb_nilpotent. reflexivity.
  Qed.
End Split.
