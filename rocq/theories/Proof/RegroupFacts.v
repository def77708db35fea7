(** edge_operator calls that only bring all edges into groups (no renaming, splitting, cutting), and their meaning for plain tensors. *)
From Coq Require Import String List Bool Arith Lia Sorted Permutation.
From Verif Require Import Base.Outcome Base.SMap Model.Symmetry Model.Edge Model.Core Model.Transpose Model.EdgeOperator
  Spec.Blocks Spec.Fuse Spec.Strided Spec.Sign Spec.Relabel Proof.SymmetryFacts Proof.LoopFacts Proof.CoreFacts Proof.ConstructFacts Proof.ElemFacts Proof.OffsetFacts
  Proof.KernelFacts Proof.TransposeFacts Proof.GroupFacts Proof.CopyLoopFacts Proof.TableFacts Proof.EdgeOperatorFacts Proof.EdgeOperatorMain Proof.SignFacts
  Proof.TransposeTensor Proof.TransposeNames Proof.NamedOperator Proof.LegFacts.
Import ListNotations.

Local Notation tlegs t := (combine (t_names t) (t_edges t)).
Section Regroup.
  Context {S R : Type} {SS : Sym S} {SL : SymLaws S} {RR : Scalar R}.
  Notation entry := (S * nat)%type.

  Variables (E : @env R) (t : tensor S R) (a : @eo_args S).
  Hypothesis Hwf : wf_tensor t.
  Hypothesis Hren : a_rename a = [].
  Hypothesis Hsplit : a_split a = [].
  Hypothesis Hcut : a_cut a = [].
  Hypothesis Hne : a_merge a <> [].
  Hypothesis Hnew : NoDup (a_new_names a).
  Hypothesis Hperm : Permutation (t_names t) (concat (groups a)).
  Hypothesis Harrow : is_fermi = true -> env_arrow E <> None \/
      forall l, In l (groups a) -> length l = 1 \/ exists n e, In n l /\ In (n, e) (tlegs t) /\ arrow_valid e = true.

  Lemma rg_names2 : names2 t a = t_names t.
  Proof. now apply plain_names2. Qed.
  Lemma rg_legs : legs t a = tlegs t.
  Proof. unfold legs. now apply plain_concat_sgroups. Qed.
  Lemma rg_edges2 : edges2 t a = t_edges t.
  Proof. now apply plain_edges2. Qed.
  Lemma regroup_pre : eo_pre E t a.
  Proof.
    constructor.
    - exact Hwf.
    - rewrite Hsplit. cbn [mfind]. discriminate.
    - apply fits_keys; [exact Hwf|]. rewrite Hsplit. cbn [mfind]. discriminate.
    - rewrite rg_names2. apply Hwf.
    - rewrite rg_names2. exact Hperm.
    - exact Hnew.
    - intros F _. destruct (Harrow F) as [H|H]; [now left|right]. intros l Hl. destruct (H l Hl) as [H2|[n [e [A [B C]]]]]; [now left|right].
      exists n, e. split; auto. split; auto. fold (legs t a). rewrite rg_legs. exact B.
    - intros _. rewrite (plain_edges1 t a Hwf Hcut). apply Forall2_same. auto.
  Qed.

  Lemma regroup : exists r re,
    edge_operator E t a = Ok r /\ wf_tensor r /\ t_names r = a_new_names a /\
    Forall2 (group_edge E t a) (groups a) re /\
    t_edges r = prune_from (t_blocks r) 0 re /\
    map fst (t_blocks r) = map fst (block_list (maps_of re)) /\
    (forall pos pt, assigns pos (t_names t) pt -> valid_pt (t_core t) pt ->
      let x := map (merged_coord (tlegs t) (a_merge a) pos) (a_new_names a) in
      valid_pt (t_core r) x /\ exists v, elem (t_core t) pt = Some v /\
        elem (t_core r) x = Some (signed ropp (sign_number t a pos) v)) /\
    (forall x, valid_pt (t_core r) x -> exists pos pt, assigns pos (t_names t) pt /\ valid_pt (t_core t) pt /\
       x = map (merged_coord (tlegs t) (a_merge a) pos) (a_new_names a)).
  Proof.
    destruct (edge_operator_named E t a regroup_pre Hren) as [r [re [H1 [H2 [H3 [H4 [H5 [H6 [H7 [H8 H9]]]]]]]]]].
    { destruct (a_merge a); [congruence|]. cbn [is_nil]. now rewrite andb_false_r. }
    rewrite rg_names2, rg_edges2, rg_legs in *.
    exists r, re. do 6 (split; [assumption|]). split.
    - intros pos pt Ha [Hr Hz]. destruct (H7 pos pt Ha Hr Hz) as [A [B _]]. split; [exact A|].
      destruct (B (plain_kept t a Hsplit _)) as [v [V1 [_ V2]]].
      assert (Es : map (src_coord t a pos) (t_names t) = pt).
      { rewrite (assigns_coord pos _ pt Ha). apply map_ext. intro n. unfold src_coord. now rewrite Hsplit. }
      rewrite Es in V1. exists v. split; [exact V1|exact V2].
    - intros x Hx. destruct (H8 x Hx) as [pos [p [A [B [C D]]]]]. exists pos, p. split; auto. split; [split; auto|exact D].
  Qed.
End Regroup.

(** ** plain tensors: every edge is one segment, the tensor is one row-major array *)
Section Plain.
  Context {S R : Type} {SS : Sym S} {SL : SymLaws S} {RR : Scalar R}.
  Notation entry := (S * nat)%type.
  Hypothesis Ns : @is_nosym S SS = true.

  Definition dim_of (t : tensor S R) (n : nat) : nat :=
    match emap (edge_named (tlegs t) n) with sd :: _ => snd sd | [] => 0 end.

  Lemma plain_charge : forall s : S, s = szero.
  Proof. exact (nosym_unit Ns). Qed.
  Lemma plain_point : forall ds (p : list entry), in_range (map (fun d => [(szero, d)]) ds) p <->
    exists idx, p = map (fun i => (szero, i)) idx /\ Forall2 lt idx ds.
  Proof.
    induction ds as [|d ds IH]; intro p; cbn [map].
    - split.
      + intro H. inversion H. exists []. split; [reflexivity|constructor].
      + intros [idx [-> H]]. inversion H. constructor.
    - split.
      + intro H. inversion H as [|m ms s i d' q H1 H2 H3]; subst. destruct H1 as [H1|[]]. injection H1 as <- <-.
        apply IH in H3 as [idx [-> H3]]. exists (i :: idx). split; [reflexivity|now constructor].
      + intros [idx [-> H]]. inversion H as [|i d' is ds' H1 H2]; subst. cbn [map]. econstructor; [now left|exact H1|]. apply IH. eauto.
  Qed.

  Section One.
  Variable t : tensor S R.
  Hypothesis W : wf_tensor t.
  Hypothesis B : t_blocks t <> [].

  Lemma plain_block : exists key data, t_blocks t = [(key, data)].
  Proof.
    destruct (t_blocks t) as [|[key data] bl] eqn:Eb; [congruence|]. exists key, data.
    rewrite <- Eb. apply (nosym_blocks_one Ns (t_core t) key data (wf_tcore _ W)). change (c_blocks (t_core t)) with (t_blocks t). rewrite Eb.
    apply In_mfind; [|now left]. rewrite <- Eb. apply (wf_blocks_sorted _ (wf_tcore _ W)).
  Qed.
  Lemma plain_leg : forall n, In n (t_names t) -> emap (edge_named (tlegs t) n) = [(szero, dim_of t n)].
  Proof.
    intros n Hn. destruct (leg_of_name t n W Hn) as [e He]. unfold dim_of. rewrite (leg_named t n e W He).
    assert (Hs : msorted (emap e)) by exact (leg_sorted t n e W He).
    destruct plain_block as [key [data Eb]].
    assert (Hf : mfind key (c_blocks (t_core t)) = Some data).
    { change (c_blocks (t_core t)) with (t_blocks t). rewrite Eb. cbn [mfind]. now rewrite eqb_refl. }
    destruct (wf_find_block _ _ _ (wf_tcore _ W) Hf) as [_ [ds [Hd _]]].
    assert (Hm : exists sd, In sd (emap e)).
    { apply in_combine_r in He. clear - SL Hd He. change (c_edges (t_core t)) with (t_edges t) in Hd.
      revert key ds Hd. unfold maps_of. induction (t_edges t) as [|e0 es IH]; intros key ds Hd; [destruct He|]. destruct key as [|s key]; [discriminate|].
      cbn [map dims_of] in Hd. destruct He as [->|He].
      - destruct (mfind s (emap e)) as [d|] eqn:Em; [|discriminate]. exists (s, d). now apply mfind_In.
      - destruct (mfind s (emap e0)); [|discriminate]. destruct (dims_of (map emap es) key) eqn:Ed; [|discriminate]. eauto. }
    destruct Hm as [[s d] Hsd]. rewrite (nosym_map_one Ns _ s d Hs Hsd). cbn [snd]. now rewrite (plain_charge s).
  Qed.
  Lemma plain_maps : maps_of (t_edges t) = map (fun d => [(szero, d)]) (map (dim_of t) (t_names t)).
  Proof.
    rewrite map_map. rewrite <- (legs_to_edges t W). unfold maps_of. rewrite map_map. apply map_ext_in. exact plain_leg.
  Qed.
  Lemma plain_dims : forall ds (key : list S), length key = length ds -> dims_of (map (fun d => [(szero, d)]) ds) key = Some ds.
  Proof.
    clear W B. induction ds as [|d ds IH]; intros [|s key] H; simpl in H; try discriminate; [reflexivity|]. cbn [map dims_of mfind].
    rewrite (plain_charge s), eqb_refl. rewrite IH by lia. reflexivity.
  Qed.
  Lemma plain_data : forall key data, t_blocks t = [(key, data)] -> length data = prod (map (dim_of t) (t_names t)) /\
    forall pos idx, assigns pos (t_names t) (map (fun i => (szero, i)) idx) -> Forall2 lt idx (map (dim_of t) (t_names t)) ->
      exists v, nth_error data (row_major (map (dim_of t) (t_names t)) idx) = Some v /\ const_at t pos = Ok v /\
        elem (t_core t) (map (fun i => (szero, i)) idx) = Some v.
  Proof.
    intros key data Eb.
    assert (Hf : mfind key (c_blocks (t_core t)) = Some data).
    { change (c_blocks (t_core t)) with (t_blocks t). rewrite Eb. cbn [mfind]. now rewrite eqb_refl. }
    destruct (wf_find_block _ _ _ (wf_tcore _ W) Hf) as [_ [ds [Hd HL]]].
    change (c_edges (t_core t)) with (t_edges t) in Hd. rewrite plain_maps in Hd.
    pose proof (dims_of_length _ _ _ Hd) as [_ HLk]. rewrite map_length in HLk.
    rewrite plain_dims in Hd by exact HLk. injection Hd as <-. split; [exact HL|].
    intros pos idx Ha Hlt.
    assert (Hv : valid_pt (t_core t) (map (fun i => (szero, i)) idx)).
    { split; [|apply plain_charge]. change (c_edges (t_core t)) with (t_edges t). rewrite plain_maps. apply plain_point. eauto. }
    destruct (const_at_elem t pos _ W Ha Hv) as [v [V1 V2]]. exists v. split; [|auto].
    unfold elem in V1. change (c_edges (t_core t)) with (t_edges t) in V1. rewrite plain_maps in V1.
    assert (HLi : length idx = length (t_names t)) by (apply Forall2_len in Hlt; rewrite map_length in Hlt; exact Hlt).
    rewrite plain_dims in V1 by (now rewrite !map_length).
    change (c_blocks (t_core t)) with (t_blocks t) in V1. rewrite Eb in V1. cbn [mfind] in V1.
    rewrite (nosym_keys_eq Ns _ key) in V1 by (rewrite HLk, !map_length; exact HLi). rewrite eqb_refl in V1.
    rewrite !map_map in V1. cbn [snd] in V1. now rewrite map_id in V1.
  Qed.

  (** the merged coordinate of a group *)
  Lemma plain_merged_offset : forall ds (key : list S), length key = length ds -> merged_offset (map (fun d => [(szero, d)]) ds) key = 0.
  Proof.
    clear W B. intros ds key HL. unfold merged_offset.
    assert (Ht : tuples (map (fun d => [(@szero S SS, d)]) ds) = [map (fun d => (szero, d)) ds]).
    { clear. induction ds as [|d ds IH]; [reflexivity|]. cbn [map tuples flat_map]. rewrite IH. reflexivity. }
    rewrite Ht. cbn [filter].
    rewrite (nosym_keys_eq Ns (map fst (map (fun d => (szero, d)) ds)) key) by (rewrite !map_length; auto).
    unfold ltb. rewrite cmp_refl, andb_false_r. reflexivity.
  Qed.
  Lemma plain_fuse : forall ds idx, length idx = length ds ->
    fuse (map (fun d => [(szero, d)]) ds) (map (fun i => (szero, i)) idx) = (szero, row_major ds idx).
  Proof.
    clear W B. intros ds idx HL. unfold fuse. f_equal; [apply plain_charge|]. rewrite !map_map. cbn [fst snd]. rewrite map_id.
    rewrite plain_merged_offset by (now rewrite map_length). cbn [plus]. unfold flat_index, row_major. f_equal. f_equal.
    unfold dims_in. revert idx HL. induction ds as [|d ds IH]; intros [|i idx] HL; simpl in HL; try discriminate; [reflexivity|].
    cbn [map combine fst snd mfind]. rewrite eqb_refl. f_equal. apply IH. lia.
  Qed.
  Lemma plain_merged_dim : forall ds s, merged_dim (map (fun d => [(szero, d)]) ds) s = prod ds.
  Proof.
    clear W B. intros ds s. unfold merged_dim.
    assert (Ht : tuples (map (fun d => [(@szero S SS, d)]) ds) = [map (fun d => (szero, d)) ds]).
    { clear. induction ds as [|d ds IH]; [reflexivity|]. cbn [map tuples flat_map]. rewrite IH. reflexivity. }
    rewrite Ht. cbn [filter]. rewrite (plain_charge (total _)), (plain_charge s), eqb_refl. cbn [map list_sum fold_right].
    rewrite Nat.add_0_r. unfold volume, prod. rewrite map_map. cbn [snd]. now rewrite map_id.
  Qed.
  Lemma plain_merged_map : forall ds m, merged_map (map (fun d => [(szero, d)]) ds) m -> m = [(szero, prod ds)].
  Proof.
    clear W B. intros ds m [Hs Hm]. specialize (Hm szero). rewrite plain_merged_dim in Hm.
    assert (Ht : tuples (map (fun d => [(@szero S SS, d)]) ds) = [map (fun d => (szero, d)) ds]).
    { clear. induction ds as [|d ds IH]; [reflexivity|]. cbn [map tuples flat_map]. rewrite IH. reflexivity. }
    rewrite Ht in Hm. cbn [existsb] in Hm. rewrite (plain_charge (total _)), eqb_refl in Hm. cbn [orb] in Hm.
    apply mfind_In in Hm. exact (nosym_map_one Ns m _ _ Hs Hm).
  Qed.
  Lemma plain_joined : forall l pos, incl l (t_names t) -> joined (tlegs t) l pos = (szero, row_major (map (dim_of t) l) (map (fun n => snd (coord pos n)) l)).
  Proof.
    intros l pos Hl. unfold joined.
    rewrite <- (plain_fuse (map (dim_of t) l) (map (fun n => snd (coord pos n)) l)) by (now rewrite !map_length). rewrite !map_map. f_equal.
    - apply map_ext_in. intros n Hn. apply plain_leg. now apply Hl.
    - apply map_ext. intro n. destruct (coord pos n) as [s i]. cbn [snd]. now rewrite (plain_charge s).
  Qed.
  End One.

  (** plain tensors regrouped *)
  Lemma plain_regroup : forall (E : @env R) (t : tensor S R) (a : @eo_args S), @is_fermi S SS = false -> wf_tensor t -> t_blocks t <> [] ->
    a_rename a = [] -> a_split a = [] -> a_cut a = [] -> a_merge a <> [] -> NoDup (a_new_names a) ->
    (forall n, In n (a_new_names a) -> exists l, mfind n (a_merge a) = Some l) ->
    Permutation (t_names t) (concat (groups a)) ->
    exists r key data, edge_operator E t a = Ok r /\ t_blocks r = [(key, data)] /\
      maps_of (t_edges r) = map (fun g => [(szero, prod (map (dim_of t) g))]) (groups a) /\
      sorted_maps (maps_of (t_edges r)) /\
      length data = prod (map (fun g => prod (map (dim_of t) g)) (groups a)) /\
      forall pos, (forall n, In n (t_names t) -> exists i, mfind n pos = Some (szero, i) /\ i < dim_of t n) ->
        exists v, const_at t pos = Ok v /\
          nth_error data (row_major (map (fun g => prod (map (dim_of t) g)) (groups a))
                                    (map (fun g => row_major (map (dim_of t) g) (map (fun n => snd (coord pos n)) g)) (groups a))) = Some v.
  Proof.
    intros E t a F W B Hren Hsplit Hcut Hne Hnew Hall Hperm.
    destruct (regroup E t a W Hren Hsplit Hcut Hne Hnew Hperm) as [r [re [H1 [H2 [H3 [H4 [H5 [H6 [H7 H8]]]]]]]]].
    { intro F'. rewrite F in F'. discriminate. }
    assert (Hincl : forall g, In g (groups a) -> incl g (t_names t)).
    { intros g Hg n Hn. eapply Permutation_in; [apply Permutation_sym; exact Hperm|]. apply in_concat. eauto. }
    assert (Hre : maps_of re = map (fun g => [(szero, prod (map (dim_of t) g))]) (groups a)).
    { clear - H4 Hincl Hren Hsplit Hcut Ns W B SL. unfold maps_of. induction H4 as [|g e gs es Hg H IH]; [reflexivity|]. cbn [map]. f_equal.
      - pose proof (ge_map _ _ _ _ _ Hg) as HM. rewrite (rg_legs t a W Hren Hsplit Hcut) in HM. apply plain_merged_map.
        rewrite map_map. erewrite map_ext_in; [exact HM|]. intros n Hn. cbv beta. symmetry. apply (plain_leg t W B). apply (Hincl g); [now left|exact Hn].
      - apply IH. intros g' Hg'. apply Hincl. now right. }
    assert (Hre2 : maps_of re = map (fun d => [(szero, d)]) (map (fun g => prod (map (dim_of t) g)) (groups a))) by (rewrite Hre, map_map; reflexivity).
    assert (Hblk : t_blocks r <> []).
    { intro Hc. rewrite Hc in H6. cbn [map] in H6. symmetry in H6. apply map_eq_nil in H6.
      assert (HI : In (map (fun _ => szero) (groups a), prod (map (fun g => prod (map (dim_of t) g)) (groups a))) (block_list (maps_of re))).
      { apply in_block_list. split; [|apply plain_charge]. apply dims_of_choice.
        - rewrite Hre2. unfold sorted_maps. rewrite Forall_map. apply Forall_forall. intros d _. repeat constructor.
        - rewrite Hre2. rewrite plain_dims by (now rewrite !map_length). eauto. }
      rewrite H6 in HI. destruct HI. }
    destruct (plain_block r H2 Hblk) as [key [data Eb]].
    pose proof (plain_maps r H2 Hblk) as PM.
    assert (Hedges : maps_of (t_edges r) = map (fun g => [(szero, prod (map (dim_of t) g))]) (groups a)).
    { (* pruning keeps everything: there is one block *)
      rewrite <- Hre. rewrite PM. rewrite Hre2.
      assert (HL : length re = length (t_names r)).
      { rewrite (wf_rank _ H2), H5, prune_length. reflexivity. }
      apply nth_error_ext. intro i. rewrite !nth_error_map.
      destruct (nth_error (t_edges r) i) as [e|] eqn:Ee.
      - destruct (nth_error re i) as [e0|] eqn:Ee0.
        + pose proof Ee as Ee'. rewrite H5 in Ee'. rewrite (prune_nth _ _ _ _ _ Ee0) in Ee'. injection Ee' as Ee'.
          assert (Ha : nth_error (maps_of (t_edges r)) i = Some (emap e)) by (unfold maps_of; rewrite nth_error_map, Ee; reflexivity).
          assert (Hb : nth_error (maps_of re) i = Some (emap e0)) by (unfold maps_of; rewrite nth_error_map, Ee0; reflexivity).
          rewrite PM, !nth_error_map in Ha. rewrite Hre2, !nth_error_map in Hb.
          destruct (nth_error (t_names r) i) as [n|]; [|discriminate]. cbn [option_map] in Ha |- *. injection Ha as Ha.
          destruct (nth_error (groups a) i) as [g|]; [|discriminate]. cbn [option_map] in Hb |- *. injection Hb as Hb.
          rewrite <- Ee' in Ha. cbn [emap] in Ha. rewrite <- Hb in Ha. cbn [filter] in Ha. destruct (used_in (t_blocks r) i (fst (szero, prod (map (dim_of t) g)))); [|discriminate].
          now rewrite Ha.
        + exfalso. apply nth_error_None in Ee0. assert (Hi : nth_error (t_edges r) i <> None) by congruence. apply nth_error_Some in Hi. clear Ee. rename Hi into Ee. rewrite <- (wf_rank _ H2) in Ee. lia.
      - apply nth_error_None in Ee. 
        assert (nth_error (t_names r) i = None) as -> by (apply nth_error_None; rewrite (wf_rank _ H2); exact Ee).
        assert (nth_error (groups a) i = None) as ->.
        { apply nth_error_None. rewrite (Forall2_len _ _ _ _ _ H4), HL, (wf_rank _ H2). exact Ee. }
        reflexivity. }
    assert (Hdr : map (dim_of r) (t_names r) = map (fun g => prod (map (dim_of t) g)) (groups a)).
    { rewrite PM in Hedges. clear - Hedges. revert Hedges. generalize (groups a) as gs. induction (map (dim_of r) (t_names r)) as [|d ds IH]; intros [|g gs] H; cbn [map] in *; try discriminate; auto.
      injection H as H1 H2. f_equal; auto. }
    destruct (plain_data r H2 Hblk key data Eb) as [HLd Hdat]. rewrite Hdr in HLd, Hdat.
    exists r, key, data. split; [exact H1|]. split; [exact Eb|]. split; [exact Hedges|]. split; [apply H2|]. split; [exact HLd|].
    intros pos Hpos.
    assert (Ha : assigns pos (t_names t) (map (fun i => (szero, i)) (map (fun n => snd (coord pos n)) (t_names t)))).
    { unfold assigns. rewrite !map_map. apply map_ext_in. intros n Hn. destruct (Hpos n Hn) as [i [Hi _]]. unfold coord. now rewrite Hi. }
    assert (Hlt : forall l, incl l (t_names t) -> Forall2 lt (map (fun n => snd (coord pos n)) l) (map (dim_of t) l)).
    { intros l Hl. apply Forall2_map_l, Forall2_map_r. apply Forall2_same. intros n Hn. destruct (Hpos n (Hl n Hn)) as [i [Hi Hd]].
      unfold coord. rewrite Hi. exact Hd. }
    destruct (plain_block t W B) as [k0 [d0 E0]]. destruct (plain_data t W B k0 d0 E0) as [_ Hsrc].
    destruct (Hsrc pos _ Ha (Hlt _ (incl_refl _))) as [v [_ [V2 V3]]].
    assert (Hv : valid_pt (t_core t) (map (fun i => (szero, i)) (map (fun n => snd (coord pos n)) (t_names t)))).
    { split; [|apply plain_charge]. change (c_edges (t_core t)) with (t_edges t). rewrite (plain_maps t W B). apply plain_point. eexists. split; [reflexivity|]. apply Hlt, incl_refl. }
    destruct (H7 pos _ Ha Hv) as [X1 [w [X2 X3]]]. rewrite V3 in X2. injection X2 as <-.
    exists v. split; [exact V2|].
    assert (Ex : map (merged_coord (tlegs t) (a_merge a) pos) (a_new_names a) =
                 map (fun i => (szero, i)) (map (fun g => row_major (map (dim_of t) g) (map (fun n => snd (coord pos n)) g)) (groups a))).
    { unfold groups, merge_groups. rewrite !map_map. apply map_ext_in. intros n Hn. destruct (Hall n Hn) as [l Hl]. unfold merged_coord. rewrite Hl.
      apply (plain_joined t W B). apply Hincl. unfold groups, merge_groups. apply in_map_iff. exists n. rewrite Hl. auto. }
    rewrite Ex in X1, X3. rewrite (sign_bose t a pos F) in X3. unfold signed in X3. cbn [Nat.odd Nat.even negb] in X3.
    set (idx := map (fun g => row_major (map (dim_of t) g) (map (fun n => snd (coord pos n)) g)) (groups a)) in *.
    assert (Hidx : Forall2 lt idx (map (fun g => prod (map (dim_of t) g)) (groups a))).
    { unfold idx. apply Forall2_map_l, Forall2_map_r. apply Forall2_same. intros g Hg. apply row_major_lt. apply Hlt. now apply Hincl. }
    assert (Har : assigns (combine (t_names r) (map (fun i => (szero, i)) idx)) (t_names r) (map (fun i => (szero, i)) idx)).
    { apply assigns_combine; [apply H2|]. rewrite map_length. unfold idx. rewrite map_length, H3. unfold groups, merge_groups. now rewrite map_length. }
    destruct (Hdat _ idx Har Hidx) as [w [W1 [_ W3]]]. rewrite X3 in W3. injection W3 as <-. exact W1.
  Qed.
End Plain.
