(** The main copy loop of edge_operator, one block and all blocks. *)
From Coq Require Import String List Bool Arith Lia Sorted Permutation.
From Verif Require Import Base.Outcome Base.SMap Model.Symmetry Model.Edge Model.Core Model.Transpose Model.EdgeOperator
  Spec.Blocks Spec.Fuse Spec.Strided Proof.SymmetryFacts Proof.LoopFacts Proof.CoreFacts Proof.ElemFacts Proof.OffsetFacts
  Proof.KernelFacts Proof.TransposeFacts Proof.GroupFacts.
Import ListNotations.

(** pointwise fusing of grouped coordinates *)
Section Fuses.
  Context {S : Type} {SS : Sym S} {SL : SymLaws S}.
  Notation entry := (S * nat)%type.

  Definition fuses (gm : list (list (list entry))) (gp : list (list entry)) : list entry :=
    map (fun x => fuse (fst x) (snd x)) (combine gm gp).
  Definition offsets (gm : list (list (list entry))) (gk : list (list S)) : list nat :=
    map (fun x => merged_offset (fst x) (snd x)) (combine gm gk).

  Lemma fuses_length : forall gm gp, length gp = length gm -> length (fuses gm gp) = length gm.
  Proof. intros. unfold fuses. rewrite map_length, combine_length. lia. Qed.
  Lemma offsets_length : forall gm gk, length gk = length gm -> length (offsets gm gk) = length gm.
  Proof. intros. unfold offsets. rewrite map_length, combine_length. lia. Qed.

  Lemma fuses_fst : forall gm gp, length gp = length gm -> map fst (fuses gm gp) = map ssum (map (map fst) gp).
  Proof.
    unfold fuses. induction gm as [|m gm IH]; intros [|g gp] H; simpl in *; try discriminate; auto.
    f_equal. apply IH. lia.
  Qed.
  Lemma fuses_snd : forall gm gp, length gp = length gm ->
    map snd (fuses gm gp) =
    add2 (offsets gm (map (map fst) gp))
         (inner (map (fun x => dims_in (fst x) (snd x)) (combine gm (map (map fst) gp))) (map (map snd) gp)).
  Proof.
    unfold fuses, offsets, inner, add2. induction gm as [|m gm IH]; intros [|g gp] H; simpl in *; try discriminate; auto.
    f_equal. apply IH. lia.
  Qed.

  Lemma ssum_app : forall a b : list S, ssum (a ++ b) = sadd (ssum a) (ssum b).
  Proof. intros. unfold ssum at 1. rewrite fold_left_app. fold (ssum a). apply ssum_acc. Qed.
  Lemma ssum_cons : forall a (b : list S), ssum (a :: b) = sadd a (ssum b).
  Proof. intros. change (a :: b) with ([a] ++ b). rewrite ssum_app. f_equal. unfold ssum. simpl. apply sadd_0_l. Qed.
  Lemma ssum_concat : forall gk : list (list S), ssum (map ssum gk) = ssum (concat gk).
  Proof. induction gk as [|k gk IH]; [reflexivity|]. simpl. now rewrite ssum_cons, ssum_app, IH. Qed.
  Lemma ssum_perm : forall a b : list S, Permutation a b -> ssum a = ssum b.
  Proof.
    induction 1; auto.
    - rewrite !ssum_cons. congruence.
    - rewrite !ssum_cons, !sadd_assoc. f_equal. apply sadd_comm.
    - congruence.
  Qed.

  Lemma dims_of_app : forall (a b : list (list entry)) k1 k2, length k1 = length a ->
    dims_of (a ++ b) (k1 ++ k2) =
    match dims_of a k1, dims_of b k2 with Some x, Some y => Some (x ++ y) | _, _ => None end.
  Proof.
    induction a as [|m a IH]; intros b [|s k1] k2 H; simpl in *; try discriminate.
    - destruct (dims_of b k2); reflexivity.
    - rewrite IH by lia. destruct (mfind s m); [|reflexivity]. destruct (dims_of a k1); [|reflexivity].
      destruct (dims_of b k2); reflexivity.
  Qed.
  Lemma in_range_length : forall (maps : list (list entry)) p, in_range maps p -> length p = length maps.
  Proof. induction 1; simpl; auto. Qed.
  Lemma in_range_app : forall (a b : list (list entry)) p1 p2, length p1 = length a ->
    (in_range (a ++ b) (p1 ++ p2) <-> in_range a p1 /\ in_range b p2).
  Proof.
    induction a as [|m a IH]; intros b [|[s i] p1] p2 H; simpl in *; try discriminate.
    - split; [intro; split; [constructor|auto]|tauto].
    - split.
      + intro HR. inversion HR as [|? ? ? ? d ? H4 H5 H6]; subst. apply IH in H6; [|lia]. destruct H6. split; [econstructor; eauto|auto].
      + intros [HR1 HR2]. inversion HR1; subst. econstructor; eauto. apply IH; [lia|auto].
  Qed.
  Lemma in_range_concat : forall (gm : list (list (list entry))) p, length p = length (concat gm) ->
    (in_range (concat gm) p <-> Forall2 in_range gm (group_by gm p)).
  Proof.
    induction gm as [|m gm IH]; intros p H; simpl in *.
    - destruct p; [|discriminate]. split; constructor.
    - rewrite app_length in H.
      rewrite <- (firstn_skipn (length m) p) at 1. rewrite in_range_app by (rewrite firstn_length; lia).
      rewrite IH by (rewrite skipn_length; lia). split; [intros [A B]; constructor; auto|intro HF; inversion HF; auto].
  Qed.
  Lemma dims_concat : forall (gm : list (list (list entry))) key ds, dims_of (concat gm) key = Some ds ->
    group_by gm ds = map (fun x => dims_in (fst x) (snd x)) (combine gm (group_by gm key)).
  Proof.
    induction gm as [|m gm IH]; intros key ds H; [reflexivity|].
    simpl concat in H. apply dims_of_length in H as HL. destruct HL as [L1 L2]. rewrite app_length in *.
    rewrite <- (firstn_skipn (length m) key) in H.
    rewrite dims_of_app in H by (rewrite firstn_length; lia).
    destruct (dims_of m (firstn (length m) key)) as [d1|] eqn:E1; [|discriminate].
    destruct (dims_of (concat gm) (skipn (length m) key)) as [d2|] eqn:E2; [|discriminate]. injection H as <-.
    apply dims_of_length in E1 as HL1.
    rewrite group_by_app by lia. cbn [group_by combine map fst snd]. f_equal.
    - symmetry. now apply dims_in_dims_of.
    - apply IH. exact E2.
  Qed.

  Lemma fuses_inj : forall (gm : list (list (list entry))) g1 g2, Forall sorted_maps gm ->
    Forall2 in_range gm g1 -> Forall2 in_range gm g2 -> fuses gm g1 = fuses gm g2 -> g1 = g2.
  Proof.
    induction gm as [|m gm IH]; intros g1 g2 Hs H1 H2 E; inversion H1; subst; inversion H2; subst; auto.
    inversion Hs; subst. unfold fuses in E. simpl in E. injection E as Ea Eb Ec.
    f_equal; [|apply IH; auto]. eapply fuse_injective; eauto. unfold fuse. now rewrite Ea, Eb.
  Qed.
  Lemma group_by_inj : forall A B (gm : list (list B)) (p1 p2 : list A), length p1 = length (concat gm) ->
    length p2 = length (concat gm) -> group_by gm p1 = group_by gm p2 -> p1 = p2.
  Proof. intros. rewrite <- (concat_group_by _ _ gm p1), <- (concat_group_by _ _ gm p2); auto. congruence. Qed.

  Lemma dims_at_ok : forall (es : list (edge S)) key ds, dims_of (maps_of es) key = Some ds -> dims_at es key = Ok ds.
  Proof.
    induction es as [|e es IH]; intros [|s key] ds H; simpl in *; try discriminate.
    - now injection H as <-.
    - destruct (mfind s (emap e)); [|discriminate]. destruct (dims_of (maps_of es) key) eqn:E; [|discriminate].
      injection H as <-. simpl. now rewrite (IH _ _ E).
  Qed.

  Lemma dims_of_permuted : forall (maps : list (list entry)) key ds plan, dims_of maps key = Some ds ->
    (forall j, In j plan -> j < length maps) ->
    dims_of (permuted [] plan maps) (permuted szero plan key) = Some (permuted 0 plan ds).
  Proof.
    intros maps key ds plan H. apply dims_of_length in H as HL. destruct HL as [L1 L2].
    assert (Hn : forall j, j < length maps -> mfind (nth j key szero) (nth j maps []) = Some (nth j ds 0)).
    { clear L1 L2. revert key ds H. induction maps as [|m maps IH]; intros [|s key] ds H j Hj; simpl in *; try lia; try discriminate.
      destruct (mfind s m) eqn:Em; [|discriminate]. destruct (dims_of maps key) eqn:E; [|discriminate]. injection H as <-.
      destruct j; auto. simpl. apply IH; auto. lia. }
    induction plan as [|j plan IH]; intro Hp; [reflexivity|].
    change (permuted [] (j :: plan) maps) with (nth j maps [] :: permuted [] plan maps).
    change (permuted szero (j :: plan) key) with (nth j key szero :: permuted szero plan key).
    change (permuted 0 (j :: plan) ds) with (nth j ds 0 :: permuted 0 plan ds).
    cbn [dims_of]. rewrite Hn by (apply Hp; now left). rewrite IH by (intros; apply Hp; now right). reflexivity.
  Qed.
  Lemma in_range_permuted : forall (maps : list (list entry)) p plan, in_range maps p ->
    (forall j, In j plan -> j < length maps) -> in_range (permuted [] plan maps) (permuted (szero, 0) plan p).
  Proof.
    intros maps p plan H.
    assert (Hn : forall j, j < length maps -> exists d, In (fst (nth j p (szero, 0)), d) (nth j maps []) /\ snd (nth j p (szero,0)) < d).
    { induction H; intros j Hj; simpl in *; [lia|]. destruct j; [exists d; auto|]. apply IHin_range. lia. }
    induction plan as [|j plan IH]; intro Hp; [constructor|].
    change (permuted [] (j :: plan) maps) with (nth j maps [] :: permuted [] plan maps).
    change (permuted (szero, 0) (j :: plan) p) with (nth j p (szero, 0) :: permuted (szero, 0) plan p).
    destruct (Hn j (Hp j (or_introl eq_refl))) as [d [HI Hd]]. destruct (nth j p (szero, 0)) as [s i].
    econstructor; eauto. apply IH. intros; apply Hp; now right.
  Qed.
End Fuses.

Section CopyLoop.
  Context {S R : Type} {SS : Sym S} {SL : SymLaws S} {RR : Scalar R}.
  Notation entry := (S * nat)%type.
  Variable E : @env R.
  Variable P : @eo_plan S.
  Variables gms gmd : list (list (list entry)).
  Variable rank : nat.
  Variable src : core S R.

  Hypothesis Hgs : Forall sorted_maps gms.
  Hypothesis Hgd : Forall sorted_maps gmd.
  Hypothesis Hrank : rank = length (concat gms).
  Hypothesis Hplans : inverse_plans rank (p_s2d P) (p_d2s P).
  Hypothesis Hbefore : maps_of (p_edge_before_transpose P) = concat gms.
  Hypothesis Hafter : concat gmd = permuted [] (p_d2s P) (concat gms).
  Hypothesis Hsflag : p_split_flag P = flags_from 0 gms.
  Hypothesis Hmflag : p_merge_flag P = flags_from 0 gmd.
  Hypothesis Hsrc : p_edge_src P = c_edges src.
  Hypothesis Hswf : wf_core src.
  Hypothesis Hdsorted : sorted_maps (maps_of (p_edge_dst P)).

  Definition after (p : list entry) : list entry := permuted (szero, 0) (p_d2s P) p.
  Definition Sr (p : list entry) : list entry := fuses gms (group_by gms p).
  Definition De (p : list entry) : list entry := fuses gmd (group_by gmd (after p)).

  Definition dst_of (bl : list (list S * list R)) : core S R := mkCore (p_edge_dst P) bl.
  Definition dst_shape (bl : list (list S * list R)) : Prop := shape bl = block_list (maps_of (p_edge_dst P)).

  Definition here_pt (key : list S) (p : list entry) : Prop := in_range (concat gms) p /\ map fst p = key.

  Record entry_ok (e : list S * (list S * list nat)) : Prop := {
    eo_dims : exists ds, dims_of (concat gms) (fst e) = Some ds;
    eo_zero : ssum (fst e) = szero;
    eo_val : snd e = (map ssum (group_by gms (fst e)), offsets gms (group_by gms (fst e)));
    eo_sdims : exists sd, dims_of (maps_of (c_edges src)) (fst (snd e)) = Some sd;
    eo_range : forall p, here_pt (fst e) p -> in_range (maps_of (c_edges src)) (Sr p) }.

  Hypothesis Hdst : forall key ds, dims_of (concat gms) key = Some ds -> ssum key = szero ->
    let k := group_by gmd (permuted szero (p_d2s P) key) in
    mfind (permuted szero (p_d2s P) key) (p_to_dst P) = Some (map ssum k, offsets gmd k) /\
    (exists dd, dims_of (maps_of (p_edge_dst P)) (map ssum k) = Some dd).
  Hypothesis Hdrange : forall p, in_range (concat gms) p -> ssum (map fst p) = szero -> in_range (maps_of (p_edge_dst P)) (De p).

  Lemma rank_d : length (concat gmd) = rank.
  Proof. rewrite Hafter, permuted_length. apply Hplans. Qed.
  Lemma plan_bound : forall j, In j (p_d2s P) -> j < length (concat gms).
  Proof.
    intros j Hj. rewrite <- Hrank. apply (In_nth _ _ 0) in Hj as [i [Hi <-]]. destruct Hplans as [_ [L [_ H]]].
    apply H. lia.
  Qed.
  Lemma after_range : forall p, in_range (concat gms) p -> in_range (concat gmd) (after p).
  Proof. intros p Hp. rewrite Hafter. apply in_range_permuted; auto. exact plan_bound. Qed.
  Lemma after_fst : forall p, map fst (after p) = permuted szero (p_d2s P) (map fst p).
  Proof. intro p. unfold after. symmetry. apply (permuted_map _ _ fst (szero, 0)). Qed.
  Lemma after_snd : forall p, map snd (after p) = permuted 0 (p_d2s P) (map snd p).
  Proof. intro p. unfold after. symmetry. apply (permuted_map _ _ snd (szero, 0)). Qed.
  Lemma Sr_fst : forall p, map fst (Sr p) = map ssum (group_by gms (map fst p)).
  Proof. intro p. unfold Sr. rewrite fuses_fst by apply group_by_length. now rewrite map_group_by. Qed.
  Lemma De_fst : forall p, map fst (De p) = map ssum (group_by gmd (permuted szero (p_d2s P) (map fst p))).
  Proof. intro p. unfold De. rewrite fuses_fst by apply group_by_length. now rewrite <- after_fst, map_group_by. Qed.
  Lemma De_inj : forall p1 p2, in_range (concat gms) p1 -> in_range (concat gms) p2 -> De p1 = De p2 -> p1 = p2.
  Proof.
    intros p1 p2 H1 H2 Eq. unfold De in Eq.
    pose proof (after_range p1 H1) as A1. pose proof (after_range p2 H2) as A2.
    apply in_range_length in A1 as L1. apply in_range_length in A2 as L2.
    apply in_range_concat in A1; auto. apply in_range_concat in A2; auto.
    apply fuses_inj in Eq; auto. apply group_by_inj in Eq; auto. unfold after in Eq.
    apply in_range_length in H1. apply in_range_length in H2.
    eapply permuted_inj in Eq; eauto; congruence.
  Qed.

  Lemma grouped_address : forall (gm : list (list (list entry))) (p : list entry) ds odims,
    dims_of (concat gm) (map fst p) = Some ds -> length odims = length gm -> 
    total_offset odims (offsets gm (group_by gm (map fst p))) +
      dot (map snd p) (group_leadings (flags_from 0 gm) ds (leadings odims))
    = row_major odims (map snd (fuses gm (group_by gm p))).
  Proof.
    intros gm p ds odims Hd HL.
    apply dims_of_length in Hd as HLd. destruct HLd as [L1 L2].
    rewrite group_address; auto.
    - rewrite fuses_snd by apply group_by_length. rewrite <- !map_group_by. do 2 f_equal.
      f_equal. now apply dims_concat.
    - rewrite offsets_length; auto. apply group_by_length.
    - rewrite map_length in *. lia.
  Qed.

  Lemma here_index : forall key ds, dims_of (concat gms) key = Some ds -> forall idx, index_below idx ds ->
    here_pt key (combine key idx) /\ map snd (combine key idx) = idx.
  Proof.
    intros key ds Hd idx Hi. apply dims_of_length in Hd as HL. destruct HL as [L1 L2]. apply Forall2_len in Hi as L3.
    assert (L : length key = length idx) by lia. split; [split|].
    - apply in_range_dims.
      + apply Forall_concat. exact Hgs.
      + exists ds. rewrite combine_map_fst, combine_map_snd by auto. auto.
    - now apply combine_map_fst.
    - now apply combine_map_snd.
  Qed.
  Lemma here_below : forall key ds p, dims_of (concat gms) key = Some ds -> here_pt key p ->
    index_below (map snd p) ds /\ p = combine key (map snd p).
  Proof.
    intros key ds p Hd [Hr Hk]. apply in_range_dims in Hr; [|apply Forall_concat; exact Hgs].
    destruct Hr as [ds' [Hd' Hlt]]. rewrite Hk, Hd in Hd'. injection Hd' as <-. split; auto.
    apply pt_ext.
    - rewrite combine_map_fst; auto. rewrite <- Hk. now rewrite !map_length.
    - rewrite combine_map_snd; auto. rewrite <- Hk. now rewrite !map_length.
  Qed.

  Lemma copy_block_spec : forall e bl, entry_ok e -> dst_shape bl ->
    exists bl', copy_block E P (c_blocks src) bl e = Ok bl' /\ shape bl' = shape bl /\
      (forall p, here_pt (fst e) p -> exists v, elem src (Sr p) = Some v /\
         elem (dst_of bl') (De p) = Some (sgn (block_parity P (fst e) (permuted szero (p_d2s P) (fst e))) v)) /\
      (forall x, (forall p, here_pt (fst e) p -> x <> De p) -> in_range (maps_of (p_edge_dst P)) x ->
         elem (dst_of bl') x = elem (dst_of bl) x).
  Proof.
    intros [key [ss so]] bl HE Hsh. destruct HE as [[ds Hd] Hz Hv [sd Hsd] Hsr]. simpl fst in *. simpl snd in *.
    injection Hv as -> ->.
    pose proof (Hdst key ds Hd Hz) as HDst. cbv zeta in HDst. destruct HDst as [Hto [dd Hdd]].
    pose proof (dims_of_length _ _ _ Hd) as [Lds Lk].
    pose proof (dims_of_length _ _ _ Hsd) as [Lsd Lss]. pose proof (dims_of_length _ _ _ Hdd) as [Ldd Lds'].
    rewrite map_length, group_by_length in Lss, Lds'.
    set (akey := permuted szero (p_d2s P) key) in *.
    pose proof (dims_of_permuted _ _ _ (p_d2s P) Hd plan_bound) as Had. rewrite <- Hafter in Had. fold akey in Had.
    (* the two blocks *)
    assert (Hzs : ssum (map ssum (group_by gms key)) = szero).
    { rewrite ssum_concat, concat_group_by; auto. }
    assert (Lak : length akey = length (concat gmd)).
    { unfold akey. rewrite permuted_length, rank_d. apply Hplans. }
    assert (Hzd : ssum (map ssum (group_by gmd akey)) = szero).
    { rewrite ssum_concat, concat_group_by by auto. rewrite <- Hz. apply ssum_perm. unfold akey.
      eapply permuted_Permutation; eauto. congruence. }
    destruct (wf_block_find src _ sd Hswf Hsd Hzs) as [sb [Hsb Lsb]].
    assert (Hbs : msorted bl).
    { unfold msorted. rewrite <- shape_keys. rewrite Hsh. now apply block_list_sorted. }
    assert (Hdb : exists db, mfind (map ssum (group_by gmd akey)) bl = Some db /\ length db = prod dd).
    { assert (HI : In (map ssum (group_by gmd akey), prod dd) (shape bl)).
      { rewrite Hsh. apply in_block_list. split; auto. apply dims_of_choice; auto. exists dd. auto. }
      apply in_map_iff in HI as [[k b] [E1 HI]]. simpl in E1. injection E1 as -> Eb. exists b. split; auto.
      now apply In_mfind. }
    destruct Hdb as [db [Hdb Ldb]].
    (* unfold *)
    unfold copy_block. rewrite (dims_at_ok _ key ds) by (now rewrite Hbefore). cbn [bind].
    assert (Lds2 : length ds = rank) by lia.
    rewrite (scatter_permuted nat 0 rank _ (p_d2s P) ds) by auto.
    rewrite (scatter_permuted S szero rank _ (p_d2s P) key) by (auto; lia). fold akey.
    rewrite Hto. cbn [bind at_or_throw]. rewrite Hsb. cbn [bind at_or_throw]. rewrite Hdb. cbn [bind at_or_throw].
    rewrite (dims_at_ok _ _ sd) by (now rewrite Hsrc). cbn [bind]. rewrite (dims_at_ok _ _ dd) by auto. cbn [bind].
    rewrite Hsflag, Hmflag.
    set (ls := group_leadings (flags_from 0 gms) ds (leadings sd)).
    set (ld := group_leadings (flags_from 0 gmd) (permuted 0 (p_d2s P) ds) (leadings dd)).
    assert (Lgl : forall fl dm ot, length fl = length dm -> length (group_leadings fl dm ot) = length dm).
    { clear. induction fl as [|f fl IH]; intros [|d dm] ot H; simpl in *; try discriminate; auto.
      destruct fl, dm; try discriminate; simpl; auto. specialize (IH (n0 :: dm) ot ltac:(simpl in *; lia)).
      destruct (Nat.eqb f n); simpl; f_equal; apply IH. }
    assert (Lls : length ls = rank) by (unfold ls; rewrite Lgl; auto; rewrite flags_from_length; lia).
    assert (Lld : length ld = rank).
    { unfold ld. rewrite Lgl; rewrite permuted_length; [apply Hplans|]. rewrite flags_from_length, rank_d. symmetry. apply Hplans. }
    (* addresses *)
    assert (As : forall p, here_pt key p -> total_offset sd (offsets gms (group_by gms key)) + dot (map snd p) ls
                 = row_major sd (map snd (Sr p)) /\ Forall2 lt (map snd (Sr p)) sd).
    { intros p Hp. pose proof (Hsr p Hp) as HR. destruct Hp as [Hp <-]. split.
      - apply grouped_address; auto. rewrite <- Lss in Lsd. exact Lsd.
      - apply in_range_dims in HR; [|apply Hswf]. destruct HR as [sd' [H1 H2]]. rewrite Sr_fst, Hsd in H1. now injection H1 as <-. }
    assert (Ad : forall p, here_pt key p -> total_offset dd (offsets gmd (group_by gmd akey)) + dot (permuted 0 (p_d2s P) (map snd p)) ld
                 = row_major dd (map snd (De p)) /\ Forall2 lt (map snd (De p)) dd).
    { intros p Hp. pose proof Hp as [Hp1 Hp2]. assert (HR : in_range (maps_of (p_edge_dst P)) (De p)).
      { apply Hdrange; auto. now rewrite Hp2. }
      split.
      - rewrite <- after_snd. unfold akey. rewrite <- Hp2, <- after_fst. apply grouped_address.
        + rewrite after_fst, Hp2. exact Had.
        + rewrite <- Lds' in Ldd. exact Ldd.
      - apply in_range_dims in HR; auto. destruct HR as [sd' [H1 H2]]. rewrite De_fst, Hp2 in H1. fold akey in H1.
        rewrite Hdd in H1. now injection H1 as <-. }
    destruct (transpose_block R RR rank (p_s2d P) (p_d2s P) ds ls ld sb db
      (total_offset sd (offsets gms (group_by gms key))) (total_offset dd (offsets gmd (group_by gmd akey)))
      (block_parity P key akey) (env_oob E) (env_big E (fold_left Nat.mul ds 1))) as [db' [Et [Lt [Hset Hkeep]]]]; auto.
    { split.
      - intros idx Hi. destruct (here_index key ds Hd idx Hi) as [Hp Hpi]. rewrite <- Hpi.
        destruct (As _ Hp) as [-> B1]. destruct (Ad _ Hp) as [-> B2]. rewrite Lsb, Ldb. split; now apply row_major_lt.
      - intros i1 i2 H1 H2 Eq.
        destruct (here_index key ds Hd i1 H1) as [Hp1 Hi1]. destruct (here_index key ds Hd i2 H2) as [Hp2 Hi2].
        rewrite <- Hi1, <- Hi2. f_equal. destruct (Ad _ Hp1) as [A1 B1]. destruct (Ad _ Hp2) as [A2 B2].
        rewrite Hi1 in A1. rewrite Hi2 in A2. rewrite Eq in A1. rewrite A1 in A2. apply row_major_inj in A2; auto.
        apply De_inj; [apply Hp1|apply Hp2|]. apply pt_ext; auto. rewrite !De_fst.
        destruct Hp1 as [_ ->]. destruct Hp2 as [_ ->]. reflexivity. }
    assert (Etot : fold_left Nat.mul ds 1 = fold_right Nat.mul 1 ds).
    { apply fold_symmetric; intros; lia. }
    rewrite Lds2. rewrite Etot in *. rewrite Et. cbn [bind].
    eexists. split; [reflexivity|].
    assert (Hs2 : shape (mset (map ssum (group_by gmd akey)) db' bl) = shape bl).
    { apply (mset_shape bl _ db); auto. }
    split; [exact Hs2|]. split.
    - intros p Hp. destruct (Hset (map snd p)) as [v [Hv1 Hv2]].
      { apply (here_below key ds p Hd Hp). }
      destruct (As p Hp) as [A1 _]. destruct (Ad p Hp) as [A2 _]. rewrite A1 in Hv1. rewrite A2 in Hv2.
      exists v. split.
      + unfold elem. rewrite Sr_fst. destruct Hp as [_ ->]. rewrite Hsd, Hsb. exact Hv1.
      + unfold elem, dst_of. cbn [c_edges c_blocks]. rewrite De_fst. destruct Hp as [_ ->]. fold akey.
        rewrite Hdd, mfind_mset_same. exact Hv2.
    - intros x Hx Hxr. unfold elem, dst_of. cbn [c_edges c_blocks].
      destruct (ord_dec (map fst x) (map ssum (group_by gmd akey))) as [Ek|Ek].
      + rewrite Ek, Hdd, mfind_mset_same, Hdb. apply Hkeep. intros idx Hi.
        destruct (here_index key ds Hd idx Hi) as [Hp Hpi]. rewrite <- Hpi.
        destruct (Ad _ Hp) as [A1 B1]. rewrite A1. intro Eq.
        apply in_range_dims in Hxr; auto. destruct Hxr as [dd' [H1 H2]]. rewrite Ek, Hdd in H1. injection H1 as <-.
        apply row_major_inj in Eq; auto. apply (Hx _ Hp). apply pt_ext; auto. rewrite De_fst. destruct Hp as [_ ->]. exact Ek.
      + rewrite mfind_mset_other by auto. reflexivity.
  Qed.

  Lemma copy_all_spec : forall es bl0, (forall e, In e es -> entry_ok e) -> NoDup (map fst es) -> dst_shape bl0 ->
    exists bl, foldM (copy_block E P (c_blocks src)) es bl0 = Ok bl /\ shape bl = shape bl0 /\
      (forall p, in_range (concat gms) p -> In (map fst p) (map fst es) -> exists v, elem src (Sr p) = Some v /\
         elem (dst_of bl) (De p) = Some (sgn (block_parity P (map fst p) (map fst (after p))) v)) /\
      (forall x, (forall p, in_range (concat gms) p -> In (map fst p) (map fst es) -> x <> De p) ->
         in_range (maps_of (p_edge_dst P)) x -> elem (dst_of bl) x = elem (dst_of bl0) x).
  Proof.
    intros es bl0 Hes Hnd Hsh.
    pose (Inv := fun (dn : list (list S * (list S * list nat))) (bl : list (list S * list R)) =>
      shape bl = shape bl0 /\
      (forall p, in_range (concat gms) p -> In (map fst p) (map fst dn) -> exists v, elem src (Sr p) = Some v /\
         elem (dst_of bl) (De p) = Some (sgn (block_parity P (map fst p) (map fst (after p))) v)) /\
      (forall x, (forall p, in_range (concat gms) p -> In (map fst p) (map fst dn) -> x <> De p) ->
         in_range (maps_of (p_edge_dst P)) x -> elem (dst_of bl) x = elem (dst_of bl0) x)).
    destruct (foldM_inv _ _ (copy_block E P (c_blocks src)) Inv es [] bl0) as [bl [H1 H2]].
    - split; [reflexivity|]. split; [intros p _ []|auto].
    - intros dn e rest bl Heq [I1 [I2 I3]]. simpl in Heq. subst es.
      assert (He : entry_ok e) by (apply Hes, in_or_app; right; now left).
      assert (Hdn : dst_shape bl) by (unfold dst_shape; rewrite I1; exact Hsh).
      destruct (copy_block_spec e bl He Hdn) as [bl' [C1 [C2 [C3 C4]]]].
      exists bl'. split; auto. unfold Inv. split; [congruence|]. rewrite map_app. simpl. split.
      + intros p Hp HI. destruct (ord_dec (map fst p) (fst e)) as [Ek|Ek].
        * destruct (C3 p) as [v [V1 V2]]; [split; auto|]. exists v. split; auto. rewrite V2, after_fst. now rewrite Ek.
        * apply in_app_or in HI as [HI|[HI|[]]]; [|congruence]. destruct (I2 p Hp HI) as [v [V1 V2]]. exists v. split; auto.
          rewrite <- V2. apply C4.
          -- intros q [Hq1 Hq2] Eq. apply De_inj in Eq; auto. subst q. congruence.
          -- apply Hdrange; auto. apply in_map_iff in HI as [e' [Ee He']]. rewrite <- Ee. apply Hes. apply in_or_app. now left.
      + intros x Hx Hxr. rewrite C4; auto.
        * apply I3; auto. intros p Hp HI. apply Hx; auto. apply in_or_app. now left.
        * intros p [Hp1 Hp2]. apply Hx; auto. apply in_or_app. right. now left.
    - exists bl. split; auto.
  Qed.
End CopyLoop.
