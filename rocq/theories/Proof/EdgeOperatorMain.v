(** edge_operator on general arguments: the main statement. *)
From Coq Require Import String List Bool Arith Lia Sorted Permutation.
From Verif Require Import Base.Outcome Base.SMap Model.Symmetry Model.Edge Model.Core Model.Transpose Model.EdgeOperator
  Spec.Blocks Spec.Fuse Spec.Strided Proof.SymmetryFacts Proof.LoopFacts Proof.CoreFacts Proof.ElemFacts Proof.OffsetFacts
  Proof.KernelFacts Proof.TransposeFacts Proof.GroupFacts Proof.CopyLoopFacts Proof.TableFacts Proof.EdgeOperatorFacts.
Import ListNotations.

Section Main.
  Context {S R : Type} {SS : Sym S} {SL : SymLaws S} {RR : Scalar R}.
  Notation entry := (S * nat)%type.
  Notation mres := (list (list (edge S) * list bool * edge S * @offset_map S)).
  Variable E : @env R.

  Definition src_pt (t : tensor S R) (a : @eo_args S) (p : list entry) : list entry :=
    fuses (gms t a) (group_by (gms t a) p).
  Definition dst_pt (t : tensor S R) (a : @eo_args S) (d2s : list nat) (p : list entry) : list entry :=
    fuses (gmd t a d2s) (group_by (gmd t a d2s) (permuted (szero, 0) d2s p)).
  Definition kept (t : tensor S R) (a : @eo_args S) (key : list S) : bool :=
    all_kept (mks t a) (group_by (gms t a) key).

  Definition eo_parity (t : tensor S R) (a : @eo_args S) (d2s : list nat) (mr : mres) (before after : list S) : bool :=
    if is_fermi then
      xorb (get_transpose_parity before (invert_plan d2s))
      (xorb (get_reverse_parity before (rev2 t a) (mark (a_apply_parity a) (a_ex_rev a) (names2 t a)))
      (xorb (get_split_merge_parity before (flags_from 0 (sgroups t a)) (mark (a_apply_parity a) (a_ex_split a) (names1 t a)))
      (xorb (get_reverse_parity after (concat (map (fun x => snd (fst (fst x))) mr))
                                (mark (a_apply_parity a) (a_ex_rev_merge a) (concat (groups a))))
            (get_split_merge_parity after (flags_from 0 (groups a)) (mark (a_apply_parity a) (a_ex_merge a) (a_new_names a))))))
    else false.

  Definition result_edges (mr : mres) : list (edge S) := map (fun x => snd (fst x)) mr.

  Lemma look_combine_fst : forall (a : list S) (b : list nat), length a = length b -> map fst (combine a b) = a.
  Proof. intros. now apply combine_map_fst. Qed.

  Lemma offsets_singles : forall (ms : list (list entry)) (k : list S), length k = length ms ->
    offsets (map (fun m => [m]) ms) (map (fun s => [s]) k) = repeat 0 (length ms).
  Proof.
    unfold offsets. induction ms as [|m ms IH]; intros [|s k] H; simpl in *; try discriminate; auto.
    rewrite merged_offset_one. f_equal. apply IH. lia.
  Qed.
  Lemma group_singles : forall A B (ms : list B) (l : list A), length l = length ms ->
    group_by (map (fun m => [m]) ms) l = map (fun x => [x]) l.
  Proof. induction ms as [|m ms IH]; intros [|x l] H; simpl in *; try discriminate; auto. f_equal. apply IH. lia. Qed.
  Lemma map_ssum_singles : forall k : list S, map ssum (map (fun s => [s]) k) = k.
  Proof. intro k. rewrite map_map. rewrite <- map_id. apply map_ext. exact ssum_one. Qed.
  Lemma dims_of_keys : forall (m1 m2 : list (list entry)) k, Forall2 (fun a b => map fst a = map fst b) m1 m2 ->
    (exists d, dims_of m1 k = Some d) -> exists d, dims_of m2 k = Some d.
  Proof.
    intros m1 m2 k H. revert k. induction H as [|a b m1 m2 Hab H IH]; intros [|s k] [d Hd]; simpl in *; try discriminate; eauto.
    destruct (mfind s a) as [x|] eqn:Ea; [|discriminate]. destruct (dims_of m1 k) eqn:E1; [|discriminate].
    apply mfind_In_key in Ea. rewrite Hab in Ea. apply mfind_Some_In in Ea as [y ->].
    destruct (IH k) as [z ->]; eauto.
  Qed.
  Lemma singles_of : forall (ns : list name) (es : list (edge S)), length ns = length es ->
    map (fun ne : name * edge S => [emap (snd ne)]) (combine ns es) = map (fun m => [m]) (maps_of es).
  Proof.
    induction ns as [|n ns IH]; intros [|e es] H; simpl in *; try discriminate; auto. f_equal. apply IH. lia.
  Qed.
  Lemma prune_keys : forall es i (b1 b2 : list (list S * list R)), map fst b1 = map fst b2 ->
    prune_from b1 i es = prune_from b2 i es.
  Proof.
    intros es. induction es as [|e es IH]; intros i b1 b2 Hb; [reflexivity|]. cbn [prune_from]. f_equal; [|now apply IH]. f_equal.
    apply filter_ext. intros [s d]. cbn [fst].
    destruct (used_in b1 i s) eqn:U1; destruct (used_in b2 i s) eqn:U2; auto.
    - apply used_in_true in U1. rewrite Hb in U1. apply used_in_true in U1. congruence.
    - apply used_in_true in U2. rewrite <- Hb in U2. apply used_in_true in U2. congruence.
  Qed.
  Lemma find_keys : forall V (m : list (list S * V)) k, existsb (fun kb => eqb k (fst kb)) m = true -> exists v, In (k, v) m.
  Proof. intros V m k H. apply existsb_key in H. apply in_map_iff in H as [[k' v] [<- H]]. eauto. Qed.
  Lemma elem_shape_zero : forall (c : core S R) x (f : list S -> list R -> list R), 
    elem (mkCore (c_edges c) (map (fun kb => (fst kb, map (fun _ => rzero) (snd kb))) (c_blocks c))) x =
    match elem c x with Some _ => Some rzero | None => None end.
  Proof.
    intros c x _. unfold elem. cbn [c_edges c_blocks]. destruct (dims_of (maps_of (c_edges c)) (map fst x)); [|reflexivity].
    assert (G : mfind (map fst x) (map (fun kb : list S * list R => (fst kb, map (fun _ => rzero) (snd kb))) (c_blocks c)) =
      match mfind (map fst x) (c_blocks c) with Some b => Some (map (fun _ => rzero) b) | None => None end).
    { induction (c_blocks c) as [|[k b] bl IH]; [reflexivity|]. cbn [map mfind fst snd]. destruct (eqb (map fst x) k); auto. }
    rewrite G. destruct (mfind (map fst x) (c_blocks c)) as [b|]; [|reflexivity]. rewrite nth_error_map.
    destruct (nth_error b (row_major l (map snd x))); reflexivity.
  Qed.

  Theorem edge_operator_ok : forall (t : tensor S R) (a : @eo_args S), eo_pre E t a ->
    is_same_vector (names1 t a) (a_new_names a) && is_nil (a_split a) && is_nil (a_reversed a)
       && is_nil (a_merge a) && is_nil (a_cut a) = false ->
    exists r d2s mr,
      edge_operator E t a = Ok r /\
      inverse_plans (length (names2 t a)) (invert_plan d2s) d2s /\
      concat (groups a) = permuted 0 d2s (names2 t a) /\
      merge_stage E t a d2s = Ok mr /\
      Forall2 (fun maps x => merged_map maps (emap (snd (fst x)))) (gmd t a d2s) mr /\
      wf_tensor r /\ t_names r = a_new_names a /\
      t_edges r = prune_from (t_blocks r) 0 (result_edges mr) /\
      map fst (t_blocks r) = map fst (block_list (maps_of (result_edges mr))) /\
      (forall p, in_range (concat (gms t a)) p -> ssum (map fst p) = szero -> valid_pt (t_core r) (dst_pt t a d2s p)) /\
      (forall x, valid_pt (t_core r) x -> exists p, in_range (concat (gms t a)) p /\ ssum (map fst p) = szero /\ x = dst_pt t a d2s p) /\
      (forall p, in_range (concat (gms t a)) p -> ssum (map fst p) = szero -> kept t a (map fst p) = true ->
         exists v, elem (t_core t) (src_pt t a p) = Some v /\ valid_pt (t_core t) (src_pt t a p) /\
           elem (t_core r) (dst_pt t a d2s p) =
             Some (sgn (eo_parity t a d2s mr (map fst p) (permuted szero d2s (map fst p))) v)) /\
      (forall p, in_range (concat (gms t a)) p -> ssum (map fst p) = szero -> kept t a (map fst p) = false -> is_nosym = false ->
         elem (t_core r) (dst_pt t a d2s p) = Some rzero).
  Proof.
    intros t a Hpre Hslow.
    pose proof (pre_wf _ _ _ Hpre) as Hwf.
    destruct (plan_of_names (names2 t a) (concat (groups a)) (pre_names _ _ _ Hpre) (pre_perm _ _ _ Hpre)) as [d2s [Hd2s [Hplans Hnames]]].
    destruct (split_ok E t a Hpre) as [sr [Hsr [Hsg Htab]]].
    destruct (merge_stage_ok E t a Hpre d2s Hplans Hnames) as [mr [Hmr [Hmaps [Hmm [Hmtab Hmlen]]]]].
    set (re := result_edges mr).
    assert (Hmm2 : Forall2 merged_map (gmd t a d2s) (maps_of re)).
    { unfold re, result_edges, maps_of. rewrite map_map. apply Forall2_map_r. exact Hmm. }
    assert (Hres : sorted_maps (maps_of re)).
    { unfold sorted_maps. clear - Hmm2. induction Hmm2; constructor; auto. apply H. }
    pose proof (make_core_eq (env_junk E) re false Hres) as Hcore. rewrite andb_false_r in Hcore. cbv zeta in Hcore.
    destruct (make_core_wf (env_junk E) re false Hres) as [rcore [Hrc Hrwf]]. rewrite Hcore in Hrc. injection Hrc as Hrc.
    set (jb := junk_blocks (env_junk E) (block_list (maps_of re))) in *.
    assert (Hre : c_edges rcore = prune_from jb 0 re) by (now rewrite <- Hrc).
    assert (Hrb : c_blocks rcore = jb) by (now rewrite <- Hrc).
    pose proof (gms_sorted E t a Hpre) as Sgms. pose proof (gmd_sorted E t a Hpre d2s) as Sgmd.
    pose proof (concat_gmd E t a Hpre d2s Hplans) as Cgmd.
    pose proof (len_names2 t a) as Lnm.
    assert (Lgr : length (group_by (groups a) (edges4 t a d2s)) = length (gmd t a d2s)) by (unfold gmd; now rewrite !group_by_length).
    assert (Lnew : length (a_new_names a) = length re).
    { unfold re, result_edges. rewrite map_length, Hmlen. unfold gmd. rewrite group_by_length. unfold groups, merge_groups. now rewrite map_length. }
    assert (Hnn : check_valid_name (a_new_names a) (length (c_edges rcore)) = Ok tt).
    { unfold check_valid_name. rewrite Hre, prune_length, Lnew, Nat.eqb_refl. cbn [negb].
      rewrite has_dup_NoDup; [reflexivity|apply Hpre]. }
    (* keys of the result *)
    assert (Hkeyd : forall key ds, dims_of (concat (gms t a)) key = Some ds -> ssum key = szero ->
      let akey := permuted szero d2s key in
      dims_of (concat (gmd t a d2s)) akey = Some (permuted 0 d2s ds) /\ ssum akey = szero /\ length akey = length (concat (gmd t a d2s)) /\
      (exists dd, dims_of (maps_of re) (map ssum (group_by (gmd t a d2s) akey)) = Some dd /\
                  dims_of (maps_of (c_edges rcore)) (map ssum (group_by (gmd t a d2s) akey)) = Some dd)).
    { intros key ds Hd Hz akey.
      assert (Hb : forall j, In j d2s -> j < length (concat (gms t a))).
      { intros j Hj. rewrite <- Lnm. apply (In_nth _ _ 0) in Hj as [i [Hi <-]]. destruct Hplans as [_ [L [_ H]]]. apply H. lia. }
      pose proof (dims_of_permuted _ _ _ d2s Hd Hb) as Ha. rewrite <- Cgmd in Ha. fold akey in Ha.
      pose proof (dims_of_length _ _ _ Ha) as [La1 La2].
      assert (Hz2 : ssum akey = szero).
      { rewrite <- Hz. apply ssum_perm. unfold akey. eapply permuted_Permutation; eauto.
        apply dims_of_length in Hd as [_ ->]. congruence. }
      split; auto. split; auto. split; auto.
      destruct (fit_dims (map keep_all (gmd t a d2s)) (maps_of re) (group_by (gmd t a d2s) akey)) as [dd Hdd].
      - apply Forall2_map_l. eapply Forall2_imp; [|exact Hmm2]. exact merged_map_fit.
      - apply Forall2_map_l. cbn [keep_all fst]. eapply dims_groups; eauto.
      - apply all_kept_all.
      - exists dd. split; auto. rewrite Hre. rewrite prune_dims_block; auto.
        unfold jb. rewrite junk_keys.
        assert (HI : In (map ssum (group_by (gmd t a d2s) akey), prod dd) (block_list (maps_of re))).
        { apply in_block_list. split; [apply dims_of_choice; auto; eauto|]. rewrite ssum_concat, concat_group_by; auto. }
        apply (in_map fst) in HI. exact HI. }
    assert (Hdrange : forall p, in_range (concat (gms t a)) p -> ssum (map fst p) = szero -> in_range (maps_of (c_edges rcore)) (dst_pt t a d2s p)).
    { intros p Hp Hz. pose proof Hp as Hp2. apply in_range_dims in Hp2; [|apply Forall_concat; exact Sgms]. destruct Hp2 as [ds [Hd _]].
      destruct (Hkeyd _ _ Hd Hz) as [Ha [Hz2 [La [dd [Hdd1 Hdd2]]]]].
      assert (Hap : in_range (concat (gmd t a d2s)) (permuted (szero, 0) d2s p)).
      { rewrite Cgmd. apply in_range_permuted; auto. intros j Hj. rewrite <- Lnm.
        apply (In_nth _ _ 0) in Hj as [i [Hi <-]]. destruct Hplans as [_ [L [_ H]]]. apply H. lia. }
      assert (Hk : map fst (permuted (szero, 0) d2s p) = permuted szero d2s (map fst p)).
      { symmetry. apply (permuted_map _ _ fst (szero, 0)). }
      rewrite Hre. apply prune_range; auto.
      - unfold dst_pt. rewrite fuses_fst by apply group_by_length. rewrite <- map_group_by, Hk.
        unfold jb. rewrite junk_keys.
        assert (HI : In (map ssum (group_by (gmd t a d2s) (permuted szero d2s (map fst p))), prod dd) (block_list (maps_of re))).
        { apply in_block_list. split; [apply dims_of_choice; auto; eauto|]. rewrite ssum_concat, concat_group_by; auto. }
        apply (in_map fst) in HI. exact HI.
      - unfold dst_pt. rewrite <- (map_fst_keep_all (gmd t a d2s)) at 1. apply fit_range.
        + apply Forall2_map_l. eapply Forall2_imp; [|exact Hmm2]. exact merged_map_fit.
        + rewrite map_fst_keep_all. exact Sgmd.
        + rewrite map_fst_keep_all. apply in_range_concat; auto. rewrite Cgmd in *. now apply in_range_length.
        + apply all_kept_all. }
    (* the two tables *)
    set (to_src_r := (if negb (is_nil (a_split a)) || (is_fermi && negb (is_nil (a_reversed a)))
          then bind (initialize_block_symmetries (map emap (edges2 t a))) (fun keys =>
               Ok (lookup_table (map snd sr) (flags_from 0 (sgroups t a)) keys))
          else Ok (identity_table (length (t_names t)) (t_blocks t)))).
    set (ebm := concat (map (fun x => fst (fst (fst x))) mr)).
    assert (Hebm : maps_of ebm = concat (gmd t a d2s)).
    { rewrite <- Hmaps. unfold ebm, maps_of. rewrite concat_map, map_map. reflexivity. }
    set (to_dst_r := (if negb (is_nil (a_merge a))
          then bind (initialize_block_symmetries (map emap ebm)) (fun keys =>
               Ok (lookup_table (map snd mr) (flags_from 0 (groups a)) keys))
          else Ok (identity_table (length (a_new_names a)) (c_blocks rcore)))).
    assert (Hlen_s : map (@length (list entry)) (gms t a) = map (@length (name * edge S)) (sgroups t a)).
    { rewrite gms_eq, map_map. apply map_ext. intro l. apply map_length. }
    assert (Hlen_d : map (@length (list entry)) (gmd t a d2s) = map (@length name) (groups a)).
    { apply (gmd_lengths E); auto. }
    pose proof (pre_fit _ _ _ Hpre) as Hfit. unfold t_edges in Hfit.
    assert (Hsrc : exists to_src, to_src_r = Ok to_src /\ msorted to_src /\
      (forall e, In e to_src -> entry_ok (gms t a) (t_core t) e /\ kept t a (fst e) = true) /\
      (forall p, in_range (concat (gms t a)) p -> ssum (map fst p) = szero -> kept t a (map fst p) = true -> In (map fst p) (map fst to_src))).
    { assert (Hent : forall key, (exists ds, dims_of (concat (gms t a)) key = Some ds) -> ssum key = szero -> kept t a key = true ->
         entry_ok (gms t a) (t_core t) (key, (map ssum (group_by (gms t a) key), offsets (gms t a) (group_by (gms t a) key)))).
      { intros key [ds Hd] Hz Hk. constructor; cbn [fst snd]; eauto.
        - apply (key_fit_dims (mks t a)); [|exact (Hfit key ds Hd Hz Hk)]. rewrite group_by_length. unfold gms. apply map_length.
        - intros p [Hp1 Hp2]. unfold Sr. change (gms t a) with (map fst (mks t a)) at 1. apply key_fit_range; auto.
          + rewrite <- map_group_by. rewrite Hp2. exact (Hfit key ds Hd Hz Hk).
          + change (map fst (mks t a)) with (gms t a). apply in_range_concat; auto. now apply in_range_length. }
      assert (Hlook : forall key ds, dims_of (concat (gms t a)) key = Some ds ->
        group_lookup 0 (map snd sr) (flags_from 0 (sgroups t a)) key =
        if kept t a key then Some (combine (map ssum (group_by (gms t a) key)) (offsets (gms t a) (group_by (gms t a) key))) else None).
      { intros key ds Hd. pose proof (dims_of_length _ _ _ Hd) as [L1 L2].
        rewrite group_lookup_look.
        - rewrite <- (group_by_lengths _ _ _ (gms t a) (sgroups t a)) by exact Hlen_s.
          rewrite (look_ok (mks t a)); auto.
          pose proof (dims_groups _ _ _ Hd) as G. unfold gms in G at 1.
          clear - G. remember (group_by (gms t a) key) as l. clear Heql. revert G. generalize l. induction (mks t a) as [|mk m IH]; intros l0 G; inversion G; subst; constructor; auto.
        - rewrite <- Hsg. now rewrite !map_length.
        - rewrite L2. apply length_concat_eq. exact Hlen_s. }
      unfold to_src_r. destruct (negb (is_nil (a_split a)) || (is_fermi && negb (is_nil (a_reversed a)))) eqn:Etab.
      - rewrite initialize_block_symmetries_eq. cbn [bind]. eexists. split; [reflexivity|]. split; [apply lookup_table_sorted|].
        fold (maps_of (edges2 t a)). rewrite <- flat_maps.
        split.
        + intros [key v] HI. apply (In_mfind _ _ _ (lookup_table_sorted _ _ _)) in HI. rewrite lookup_table_find in HI.
          destruct (existsb (fun ks => eqb key (fst ks)) (block_list (concat (gms t a)))) eqn:Ek; [|discriminate].
          apply find_keys in Ek as [n Hn]. apply in_block_list in Hn as [Hc Hz].
          apply dims_of_choice in Hc; [|apply Forall_concat; exact Sgms]. destruct Hc as [ds [Hd _]].
          rewrite (Hlook key ds Hd) in HI. destruct (kept t a key) eqn:Hk; [|discriminate]. injection HI as <-.
          rewrite combine_map_fst, combine_map_snd by (rewrite map_length, offsets_length; rewrite group_by_length; auto).
          cbn [fst]. split; auto. apply Hent; eauto.
        + intros p Hp Hz Hk. pose proof Hp as Hp2. apply in_range_dims in Hp2; [|apply Forall_concat; exact Sgms]. destruct Hp2 as [ds [Hd _]].
          eapply mfind_In_key. rewrite lookup_table_find.
          replace (existsb (fun ks => eqb (map fst p) (fst ks)) (block_list (concat (gms t a)))) with true.
          * rewrite (Hlook _ _ Hd), Hk. reflexivity.
          * symmetry. apply existsb_key. assert (HI : In (map fst p, prod ds) (block_list (concat (gms t a)))).
            { apply in_block_list. split; auto. apply dims_of_choice; [apply Forall_concat; exact Sgms|]. eauto. }
            apply (in_map fst) in HI. exact HI.
      - assert (Hnt : no_table a = true) by (unfold no_table; now rewrite Etab).
        pose proof (pre_cut _ _ _ Hpre Hnt) as Hcut.
        apply orb_false_iff in Etab as [Esp _]. apply negb_false_iff in Esp.
        assert (Hsp : a_split a = []) by (destruct (a_split a); [reflexivity|discriminate]).
        assert (Hg1 : gms t a = map (fun m => [m]) (maps_of (edges1 t a))).
        { rewrite gms_eq. unfold sgroups. rewrite map_map. unfold parts. rewrite Hsp. cbn [mfind]. cbn [map].
          pose proof (len1 E t a Hpre) as L1. rewrite <- (len2 E t a Hpre) in L1. exact (singles_of _ _ L1). }
        assert (Hg2 : concat (gms t a) = maps_of (edges1 t a)) by (rewrite Hg1; apply singles_concat).
        assert (Hkeys : forall key, (exists ds, dims_of (concat (gms t a)) key = Some ds) <-> exists ds, dims_of (maps_of (t_edges t)) key = Some ds).
        { intro key. rewrite Hg2. split; apply dims_of_keys.
          - unfold maps_of. apply Forall2_map_l, Forall2_map_r. exact Hcut.
          - unfold maps_of. apply Forall2_map_l, Forall2_map_r. clear - Hcut. induction Hcut; constructor; auto. }
        assert (Hkept : forall key, kept t a key = true).
        { intro key. unfold kept, all_kept. apply forallb_forall. intros [mk k] HI. apply in_combine_l in HI.
          unfold mks in HI. apply in_map_iff in HI as [ne [<- _]]. cbn [fst snd]. unfold keep. rewrite Hsp. reflexivity. }
        eexists. split; [reflexivity|]. split; [apply identity_table_sorted|].
        assert (Hbk : forall key, In key (map fst (t_blocks t)) <-> (exists ds, dims_of (maps_of (t_edges t)) key = Some ds) /\ ssum key = szero).
        { intro key. unfold t_blocks. rewrite <- shape_keys. rewrite (wf_shape _ (wf_tcore _ Hwf)).
          rewrite in_map_iff. split.
          - intros [[k n] [<- HI]]. apply in_block_list in HI as [Hc Hz]. apply dims_of_choice in Hc; [|apply Hwf]. destruct Hc as [ds [Hd _]]. cbn [fst]. split; eauto.
          - intros [[ds Hd] Hz]. exists (key, prod ds). split; auto. apply in_block_list. split; auto. apply dims_of_choice; [apply Hwf|eauto]. }
        split.
        + intros [key v] HI. apply (In_mfind _ _ _ (identity_table_sorted _ _)) in HI. rewrite identity_table_find in HI.
          destruct (existsb (fun kb => eqb key (fst kb)) (t_blocks t)) eqn:Ek; [|discriminate]. injection HI as <-.
          apply existsb_key in Ek. apply Hbk in Ek as [Hd Hz]. apply Hkeys in Hd. cbn [fst]. split; auto.
          assert (Lk : length key = length (maps_of (edges1 t a))).
          { destruct Hd as [ds Hd]. apply dims_of_length in Hd as [_ ->]. now rewrite Hg2. }
          assert (Eo : (key, repeat 0 (length (t_names t))) =
             (map ssum (group_by (gms t a) key), offsets (gms t a) (group_by (gms t a) key))).
          { rewrite Hg1, group_singles by auto. rewrite map_ssum_singles, offsets_singles by auto. unfold maps_of.
            rewrite map_length, (len2 E t a Hpre), (wf_rank _ Hwf). reflexivity. }
          rewrite Eo. apply Hent; auto.
        + intros p Hp Hz _. eapply mfind_In_key. rewrite identity_table_find.
          replace (existsb (fun kb => eqb (map fst p) (fst kb)) (t_blocks t)) with true; [reflexivity|]. symmetry. apply existsb_key.
          apply Hbk. split; auto. apply Hkeys. apply in_range_dims in Hp; [|apply Forall_concat; exact Sgms].
          destruct Hp as [ds [Hd _]]. eauto. }
    destruct Hsrc as [to_src [Hts [Hts1 [Hts2 Hts3]]]].
    assert (Hdst : exists to_dst, to_dst_r = Ok to_dst /\
      forall key ds, dims_of (concat (gms t a)) key = Some ds -> ssum key = szero ->
        let k := group_by (gmd t a d2s) (permuted szero d2s key) in
        mfind (permuted szero d2s key) to_dst = Some (map ssum k, offsets (gmd t a d2s) k)).
    { unfold to_dst_r. destruct (is_nil (a_merge a)) eqn:En; cbn [negb].
      - eexists. split; [reflexivity|]. intros key ds Hd Hz. destruct (Hkeyd key ds Hd Hz) as [Ha [Hz2 [La [dd [Hdd1 Hdd2]]]]].
        assert (Hnil : a_merge a = []) by (destruct (a_merge a); [reflexivity|discriminate]).
        assert (Eg : gmd t a d2s = map (fun m => [m]) (concat (gmd t a d2s))).
        { assert (G : forall (l : list (list (list entry))), Forall (fun g => length g = 1) l -> l = map (fun m => [m]) (concat l)).
          { induction 1 as [|g l Hg H IH]; [reflexivity|]. destruct g as [|x [|? ?]]; try discriminate. simpl. now rewrite <- IH. }
          apply G. assert (HL : Forall (fun n => n = 1) (map (@length (list entry)) (gmd t a d2s))).
          { rewrite Hlen_d, (nil_groups a Hnil), map_map. apply Forall_map. apply Forall_forall. reflexivity. }
          rewrite Forall_map in HL. exact HL. }
        cbv zeta. set (akey := permuted szero d2s key) in *. remember (concat (gmd t a d2s)) as cm eqn:Ecm.
        rewrite Eg in Hdd1, Hdd2 |- *.
        rewrite group_singles in Hdd1, Hdd2 |- * by auto. rewrite map_ssum_singles in Hdd1, Hdd2 |- *. rewrite offsets_singles by auto.
        rewrite identity_table_find.
        replace (existsb (fun kb => eqb akey (fst kb)) (c_blocks rcore)) with true.
        + do 3 f_equal. rewrite Lnew. unfold re, result_edges. rewrite map_length, Hmlen, Eg. now rewrite map_length.
        + symmetry. apply existsb_key. rewrite Hrb. unfold jb. rewrite junk_keys.
          assert (HI : In (akey, prod dd) (block_list (maps_of re))).
          { apply in_block_list. split; auto. apply dims_of_choice; eauto. }
          apply (in_map fst) in HI. exact HI.
      - fold (maps_of ebm). rewrite initialize_block_symmetries_eq, Hebm. cbn [bind]. eexists. split; [reflexivity|].
        intros key ds Hd Hz. destruct (Hkeyd key ds Hd Hz) as [Ha [Hz2 [La _]]]. cbv zeta. set (akey := permuted szero d2s key) in *.
        rewrite lookup_table_find.
        replace (existsb (fun ks => eqb akey (fst ks)) (block_list (concat (gmd t a d2s)))) with true.
        + rewrite group_lookup_look.
          * rewrite <- (group_by_lengths _ _ _ (gmd t a d2s) (groups a)) by exact Hlen_d.
            rewrite (look_ok (map keep_all (gmd t a d2s))).
            -- rewrite all_kept_all, map_fst_keep_all.
               rewrite combine_map_fst, combine_map_snd by (rewrite map_length, offsets_length; rewrite group_by_length; auto). reflexivity.
            -- apply Hmtab. now apply is_nil_false.
            -- apply Forall2_map_l. cbn [keep_all fst]. eapply dims_groups; eauto.
          * rewrite map_length, Hmlen. unfold gmd. apply group_by_length.
          * rewrite La. apply length_concat_eq. exact Hlen_d.
        + symmetry. apply existsb_key. assert (HI : In (akey, prod (permuted 0 d2s ds)) (block_list (concat (gmd t a d2s)))).
          { apply in_block_list. split; auto. apply dims_of_choice; [apply Forall_concat; exact Sgmd|]. eauto. }
          apply (in_map fst) in HI. exact HI. }
    destruct Hdst as [to_dst [Htd Htd1]].
    (* the plan *)
    set (P := mkPlan (edges3 t a) (t_edges t) (c_edges rcore) (flags_from 0 (sgroups t a)) (flags_from 0 (groups a))
                  (invert_plan d2s) d2s to_src to_dst
                  (rev2 t a) (mark (a_apply_parity a) (a_ex_rev a) (names2 t a))
                  (mark (a_apply_parity a) (a_ex_split a) (names1 t a))
                  (concat (map (fun x => snd (fst (fst x))) mr)) (mark (a_apply_parity a) (a_ex_rev_merge a) (concat (groups a)))
                  (mark (a_apply_parity a) (a_ex_merge a) (a_new_names a))).
    set (blocks0 := if is_nosym then c_blocks rcore
                   else map (fun kb => (fst kb, map (fun _ => rzero) (snd kb))) (c_blocks rcore)).
    assert (Hsh0 : shape blocks0 = shape (c_blocks rcore)).
    { unfold blocks0. destruct is_nosym; auto. unfold shape. rewrite map_map. apply map_ext. intros [k b]. simpl. now rewrite map_length. }
    destruct (copy_all_spec E P (gms t a) (gmd t a d2s) (length (names2 t a)) (t_core t)) with (es := to_src) (bl0 := blocks0)
      as [bl [Hfold [Hshape [Hset Hkeep]]]]; auto.
    { unfold P. cbn [p_edge_before_transpose]. rewrite edges3_maps. symmetry. apply flat_maps. }
    { unfold P. cbn [p_split_flag]. symmetry. apply flags_from_lengths. exact Hlen_s. }
    { unfold P. cbn [p_merge_flag]. symmetry. apply flags_from_lengths. exact Hlen_d. }
    { apply Hwf. }
    { apply Hrwf. }
    { intros key ds Hd Hz. cbv zeta. unfold P. cbn [p_d2s p_to_dst p_edge_dst]. split; [exact (Htd1 key ds Hd Hz)|].
      destruct (Hkeyd key ds Hd Hz) as [_ [_ [_ [dd [_ Hdd]]]]]. eauto. }
    { intros e He. now apply Hts2. }
    { now apply msorted_nodup. }
    { unfold dst_shape, P. cbn [p_edge_dst]. rewrite Hsh0. apply Hrwf. }
    exists (mkTensor (a_new_names a) (mkCore (c_edges rcore) bl)), d2s, mr.
    (* the run *)
    assert (Hrun : edge_operator E t a = Ok (mkTensor (a_new_names a) (mkCore (c_edges rcore) bl))).
    { unfold edge_operator. fold (names1 t a). rewrite Hslow. fold (edges1 t a). rewrite Hsr. cbn [bind]. rewrite Hsg.
      fold (names2 t a). fold (edges2 t a). fold (rev2 t a). fold (edges3 t a). fold (groups a).
      rewrite (rank_ok E t a Hpre), Nat.eqb_refl. cbn [negb]. rewrite Hd2s. cbn [bind].
      fold (edges4 t a d2s). match goal with |- bind ?X _ = _ => replace X with (Ok mr) by (symmetry; exact Hmr) end. cbn [bind].
      rewrite Hrc in Hcore.
      match goal with |- bind ?X _ = _ => replace X with (@Ok (core S R) rcore) by (symmetry; exact Hcore) end. cbn [bind].
      match goal with |- bind ?X _ = _ => replace X with (Ok tt) by (symmetry; exact Hnn) end. cbn [bind].
      match goal with |- bind ?X _ = _ => replace X with (Ok to_src) by (symmetry; exact Hts) end. cbn [bind].
      match goal with |- bind ?X _ = _ => replace X with (Ok to_dst) by (symmetry; exact Htd) end. cbn [bind].
      match goal with |- bind ?X _ = _ => replace X with (Ok bl) by (symmetry; exact Hfold) end. reflexivity. }
    assert (Hwfr : wf_core (mkCore (c_edges rcore) bl)).
    { apply (shape_wf rcore); auto. cbn [c_blocks]. congruence. }
    split; [exact Hrun|]. split; [exact Hplans|]. split; [exact Hnames|]. split; [exact Hmr|]. split; [exact Hmm|].
    split.
    { constructor; auto; cbn [t_names t_edges t_core c_edges]; [apply Hpre|]. unfold t_edges. cbn [t_core c_edges]. now rewrite Hre, prune_length. }
    split; [reflexivity|].
    assert (Hbk : map fst bl = map fst (block_list (maps_of re))).
    { rewrite <- shape_keys, Hshape, Hsh0, Hrb. unfold jb. now rewrite shape_junk. }
    split.
    { unfold t_edges, t_blocks. cbn [t_core c_edges c_blocks]. rewrite Hre. fold re.
      apply prune_keys. rewrite Hbk. unfold jb. now rewrite junk_keys. }
    split; [exact Hbk|].
    assert (Hval : forall p, in_range (concat (gms t a)) p -> ssum (map fst p) = szero ->
       valid_pt (mkCore (c_edges rcore) bl) (dst_pt t a d2s p)).
    { intros p Hp Hz. split; [now apply Hdrange|]. unfold dst_pt. rewrite fuses_fst by apply group_by_length.
      rewrite ssum_concat, <- map_group_by, concat_group_by.
      - transitivity (ssum (map fst p)); [|exact Hz]. apply ssum_perm. rewrite <- (permuted_map _ _ fst (szero, 0)). eapply permuted_Permutation; eauto.
        rewrite map_length. rewrite Lnm. now apply in_range_length.
      - rewrite map_length, permuted_length, Cgmd, permuted_length. reflexivity. }
    split; [exact Hval|]. split.
    { intros x [Hx Hz]. cbn [t_core c_edges] in Hx. rewrite Hre in Hx. apply prune_range_inv in Hx.
      destruct (fuses_surj _ _ _ Hmm2 Sgmd Hx) as [gp [G1 G2]].
      assert (Lgp : map (@length entry) gp = map (@length (list entry)) (gmd t a d2s)).
      { clear - G1. induction G1; simpl; auto. f_equal; auto. now apply in_range_length. }
      assert (Hc : in_range (concat (gmd t a d2s)) (concat gp)).
      { apply in_range_concat; [now apply length_concat_eq|]. rewrite <- (group_by_lengths _ _ _ gp) by exact Lgp. now rewrite group_by_concat. }
      exists (permuted (szero, 0) (invert_plan d2s) (concat gp)).
      assert (Lc : length (concat gp) = length (names2 t a)).
      { apply in_range_length in Hc. rewrite Hc, Cgmd, permuted_length. apply Hplans. }
      assert (Hinv : permuted (szero, 0) d2s (permuted (szero, 0) (invert_plan d2s) (concat gp)) = concat gp).
      { eapply permuted_inverse; eauto. }
      split; [|split].
      - assert (Eg : concat (gms t a) = permuted [] (invert_plan d2s) (concat (gmd t a d2s))).
        { rewrite Cgmd. symmetry. eapply permuted_inverse; [|symmetry; exact Lnm]. now apply inverse_plans_sym. }
        rewrite Eg. apply in_range_permuted; auto. intros j Hj. rewrite Cgmd, permuted_length.
        destruct Hplans as [P1 [P2 [P3 _]]]. rewrite P2. apply (In_nth _ _ 0) in Hj as [i [Hi <-]]. apply P3. lia.
      - transitivity (ssum (map fst x)); [|exact Hz]. rewrite <- G2. rewrite fuses_fst by (symmetry; eapply Forall2_len; eauto).
        rewrite ssum_concat. rewrite <- concat_map. apply ssum_perm. apply Permutation_map.
        eapply permuted_Permutation; [apply inverse_plans_sym; exact Hplans|exact Lc].
      - unfold dst_pt. rewrite Hinv. rewrite <- (group_by_lengths _ _ _ gp) by exact Lgp. rewrite group_by_concat. now rewrite G2. }
    assert (Hpar : forall b af, block_parity P b af = eo_parity t a d2s mr b af) by reflexivity.
    split.
    { intros p Hp Hz Hk. destruct (Hset p Hp (Hts3 p Hp Hz Hk)) as [v [V1 V2]]. exists v. split; [exact V1|]. split.
      - destruct (Hts2 (map fst p, (map ssum (group_by (gms t a) (map fst p)), offsets (gms t a) (group_by (gms t a) (map fst p))))) as [He _].
        + pose proof (Hts3 p Hp Hz Hk) as HI. apply in_map_iff in HI as [[k v2] [Ek HI]]. cbn [fst] in Ek. subst k.
          destruct (Hts2 _ HI) as [He2 _]. pose proof (eo_val _ _ _ He2) as Ev. cbn [fst snd] in Ev. now rewrite <- Ev.
        + split.
          * apply (eo_range _ _ _ He). split; auto.
          * unfold src_pt. rewrite fuses_fst by apply group_by_length. rewrite ssum_concat, <- map_group_by, concat_group_by; auto.
            rewrite map_length. now apply in_range_length.
      - rewrite after_fst, Hpar in V2. exact V2. }
    { intros p Hp Hz Hk Hns. 
      assert (Hx : elem (mkCore (c_edges rcore) bl) (dst_pt t a d2s p) = elem (mkCore (c_edges rcore) blocks0) (dst_pt t a d2s p)).
      { apply (Hkeep (dst_pt t a d2s p)).
        - intros q Hq HI Eq. change (dst_pt t a d2s p) with (De P (gmd t a d2s) p) in Eq.
          apply in_map_iff in HI as [e [Ee HI]]. destruct (Hts2 e HI) as [_ Hke]. rewrite Ee in Hke.
          apply (De_inj P (gms t a) (gmd t a d2s) (length (names2 t a))) in Eq; auto. subst q. congruence.
        - now apply Hdrange. }
      cbn [t_core]. rewrite Hx. unfold blocks0. rewrite Hns. rewrite (elem_shape_zero rcore _ (fun _ b => b)).
      destruct (valid_elem rcore (dst_pt t a d2s p) Hrwf) as [_ [_ [v [_ [_ [_ [_ [_ Hv]]]]]]]].
      - apply (Hval p Hp Hz).
      - now rewrite Hv. }
  Qed.
End Main.
