(** Conjugation. *)
From Coq Require Import String List Bool Arith Lia Sorted Permutation.
From Verif Require Import Base.Outcome Base.SMap Model.Symmetry Model.Edge Model.Core Model.EdgeOperator Model.Elementwise Model.Misc
  Spec.Blocks Spec.Sign Spec.Relabel Spec.Values Spec.Conjugate Proof.SymmetryFacts Proof.LoopFacts Proof.CoreFacts Proof.ConstructFacts Proof.ElemFacts
  Proof.GroupFacts Proof.AddressFacts Proof.CopyLoopFacts Proof.TableFacts Proof.TransposeTensor Proof.SignFacts Proof.TransposeNames Proof.NamedOperator Proof.SplitMerged
  Proof.LegFacts Proof.ElementwiseFacts Proof.WholeFacts.
Import ListNotations.

Section Conjugate.
  Context {S R : Type} {SS : Sym S} {SL : SymLaws S} {RR : Scalar R}.
  Notation entry := (S * nat)%type.
  Notation tlegs t := (combine (t_names t) (t_edges t)).
  Definition cmap (m : list entry) : list entry := fold_left (fun m sd => mset (sneg (fst sd)) (snd sd) m) m [].

  Lemma cmap_spec : forall m, msorted m -> msorted (cmap m) /\ forall s, mfind s (cmap m) = mfind (sneg s) m.
  Proof.
    intros m Hm. unfold cmap.
    assert (G : forall m acc : list entry, msorted m -> msorted acc -> let r := fold_left (fun m sd => mset (sneg (fst sd)) (snd sd) m) m acc in
      msorted r /\ forall s, mfind s r = match mfind (sneg s) m with Some d => Some d | None => mfind s acc end).
    { clear - SL. induction m as [|[s0 d0] m IH]; intros acc Hm Ha; cbn [fold_left fst snd]; [split; auto|]. apply msorted_cons_inv in Hm as [Hm Hlt].
      destruct (IH (mset (sneg s0) d0 acc)) as [I1 I2]; auto; [now apply mset_sorted|]. split; auto. intro s. rewrite I2. cbn [mfind]. destruct (eqb (sneg s) s0) eqn:E.
      - apply eqb_eq in E. subst s0. replace (mfind (sneg s) m) with (@None nat).
        + rewrite sneg_invol. apply mfind_mset_same.
        + symmetry. apply mfind_None. intro Hi. apply Hlt in Hi. now apply lt_irrefl in Hi.
      - destruct (mfind (sneg s) m); auto. apply mfind_mset_other. intros ->. rewrite sneg_invol, eqb_refl in E. discriminate. }
    destruct (G m []) as [G1 G2]; auto; [constructor|]. split; auto. intro s. rewrite G2. now destruct (mfind (sneg s) m).
  Qed.
  Lemma cmap_invol : forall m, msorted m -> cmap (cmap m) = m.
  Proof.
    intros m Hm. destruct (cmap_spec m Hm) as [H1 H2]. destruct (cmap_spec _ H1) as [H3 H4]. apply msorted_ext; auto. intro s. now rewrite H4, H2, sneg_invol.
  Qed.
  Lemma conj_sorted : forall maps : list (list entry), sorted_maps maps -> sorted_maps (map cmap maps).
  Proof. intros maps H. unfold sorted_maps in *. apply Forall_map. revert H. apply Forall_impl. intros m Hm. now apply cmap_spec. Qed.
  Lemma conj_dims : forall (maps : list (list entry)) key, sorted_maps maps -> dims_of (map cmap maps) (map sneg key) = dims_of maps key.
  Proof.
    induction maps as [|m maps IH]; intros [|s key] H; cbn [map dims_of]; auto. inversion H; subst. destruct (cmap_spec m) as [_ E]; auto. rewrite E, sneg_invol, IH; auto.
  Qed.
  Lemma map_neg_invol : forall key : list S, map sneg (map sneg key) = key.
  Proof. intro key. rewrite map_map. rewrite <- (map_id key) at 2. apply map_ext. apply sneg_invol. Qed.
  Lemma conj_maps : forall es : list (edge S), maps_of (map conjugate_edge es) = map cmap (maps_of es).
  Proof. intro es. unfold maps_of. rewrite !map_map. reflexivity. Qed.
  Lemma conj_keys : forall (es : list (edge S)) key n, sorted_maps (maps_of es) ->
    In (key, n) (block_list (map cmap (maps_of es))) <-> In (map sneg key, n) (block_list (maps_of es)).
  Proof.
    intros es key n H. rewrite !in_block_list. rewrite !dims_of_choice by (auto; now apply conj_sorted). rewrite ssum_neg.
    assert (Hcd : dims_of (map cmap (maps_of es)) key = dims_of (maps_of es) (map sneg key)) by (rewrite <- (conj_dims (maps_of es) (map sneg key)) by auto; now rewrite map_neg_invol).
    rewrite Hcd.
    assert (Hz : ssum key = szero <-> sneg (ssum key) = szero).
    { split; intro E; [rewrite E|]; [apply sneg_0|]. apply sneg_inj. now rewrite E, sneg_0. }
    rewrite Hz. reflexivity.
  Qed.

  Lemma conj_parity : forall (pos : list (nat * entry)) names (pt : list entry), assigns pos names pt -> NoDup names ->
    get_split_merge_parity (map fst pt) (repeat 0 (length names)) [true] = Nat.odd (exchanged_odd (leg_odd pos) names (rev names)).
  Proof.
    intros pos names pt Ha Hn. rewrite rev_pairs by auto. unfold get_split_merge_parity.
    replace (repeat 0 (length names)) with (flags_from 0 [names]).
    - rewrite split_merge_parity_groups; [|cbn; rewrite app_nil_r, map_length; symmetry; now apply (assigns_length pos)|reflexivity].
      cbn [combine group_by par fold_right fst snd]. rewrite firstn_all2 by (rewrite map_length, (assigns_length _ _ _ Ha); auto). cbn [andb]. rewrite xorb_false_r.
      rewrite (assigns_coord pos names pt Ha), map_map. apply odd_pairs_map. intros n Hin. unfold leg_odd, coord.
      apply In_nth_error in Hin as [i Hi]. destruct (nth_same_length _ _ _ _ _ _ (assigns_length _ _ _ Ha) Hi) as [[s j] Hp]. now rewrite (assigns_nth _ _ _ _ _ _ Ha Hi Hp).
    - cbn. rewrite app_nil_r. clear. induction names as [|n l IH]; [reflexivity|]. cbn. now rewrite <- IH.
  Qed.

  Lemma negated_find : forall (pos : list (nat * entry)) n, mfind n (negated pos) = option_map (fun x => (sneg (fst x), snd x)) (mfind n pos).
  Proof. intros pos n. induction pos as [|[m [s i]] pos IH]; [reflexivity|]. cbn [negated map mfind fst snd]. destruct (eqb n m); auto. Qed.
  Lemma negated_assigns : forall (pos : list (nat * entry)) names pt, assigns pos names pt -> assigns (negated pos) names (map (fun x => (sneg (fst x), snd x)) pt).
  Proof.
    intros pos names pt H. unfold assigns in *. rewrite (map_ext _ _ (negated_find pos)), <- (map_map (fun n => mfind n pos)), H, !map_map. reflexivity.
  Qed.
  Lemma negated_invol : forall pos : list (nat * entry), negated (negated pos) = pos.
  Proof. intro pos. unfold negated. rewrite map_map. rewrite <- (map_id pos) at 2. apply map_ext. intros [n [s i]]. cbn. now rewrite sneg_invol. Qed.

  Definition conj_value (real : bool) (x : R) : R := if real then x else rconj x.
  Definition conj_edges (real : bool) (es : list (edge S)) : list (edge S) := if is_nosym && real then es else map conjugate_edge es.
  Lemma nosym_cmap : is_nosym = true -> forall m : list entry, msorted m -> cmap m = m.
  Proof.
    intros H m Hm. destruct (cmap_spec m Hm) as [H1 H2]. apply msorted_ext; auto. intro s. rewrite H2. f_equal. rewrite (nosym_unit H (sneg s)). symmetry. apply (nosym_unit H).
  Qed.

  Theorem conjugate_at : forall (E : @env R) real (t : tensor S R), (is_nosym = true -> is_fermi = false) -> wf_tensor t ->
    exists r, conjugate E real t = Ok r /\ wf_tensor r /\ t_names r = t_names t /\
      Forall2 (fun e e' => earrow e' = (if is_fermi then negb (earrow e) else earrow e) /\ emap e' = cmap (emap e)) (t_edges t) (t_edges r) /\
      forall pos pt, assigns pos (t_names t) pt -> valid_pt (t_core t) pt -> exists v, const_at t pos = Ok v /\
        const_at r (negated pos) = Ok (signed ropp (exchanged_odd (leg_odd pos) (t_names t) (rev (t_names t))) (conj_value real v)).
  Proof.
    intros E real t Hnf W. unfold conjugate. destruct (is_nosym && real) eqn:Enr.
    - apply andb_true_iff in Enr as [Hns ->]. exists t. split; [reflexivity|]. split; auto. split; auto. split.
      + pose proof (wf_maps _ (wf_tcore _ W)) as Hs. fold (t_edges t) in Hs. unfold sorted_maps, maps_of in Hs. rewrite Forall_map in Hs.
        clear - Hs Hns Hnf SL. induction Hs; constructor; auto. rewrite nosym_cmap by auto. rewrite (Hnf Hns). auto.
      + intros pos pt Ha Hv. destruct (const_at_elem t pos pt W Ha Hv) as [v [_ Hc]]. exists v. split; auto. rewrite bose_exchanged by auto. cbn.
        rewrite <- Hc. f_equal. unfold negated. rewrite <- (map_id pos) at 2. apply map_ext. intros [n [s i]]. cbn. do 2 f_equal. rewrite (nosym_unit Hns s). apply sneg_0.
    - pose proof (wf_maps _ (wf_tcore _ W)) as Hs. fold (t_edges t) in Hs.
      assert (Hsc : sorted_maps (maps_of (map conjugate_edge (t_edges t)))) by (rewrite conj_maps; now apply conj_sorted).
      destruct (make_tensor_ok (env_junk E) (t_names t) (map conjugate_edge (t_edges t)) false Hsc (wf_nodup _ W)) as [r0 [-> [Wr0 [Nr0 [Br0 Er0]]]]]; [rewrite map_length; apply W|].
      cbn [bind]. rewrite andb_false_r in Er0.
      assert (HkB : forall key b, In (key, b) (t_blocks t) -> In (map sneg key, length b) (block_list (map cmap (maps_of (t_edges t))))).
      { intros key b Hin. apply conj_keys; auto. rewrite map_neg_invol. pose proof (wf_shape _ (wf_tcore _ W)) as Hsh. fold (t_edges t) (t_blocks t) in Hsh. rewrite <- Hsh. now apply shape_In. }
      assert (Hed : t_edges r0 = map conjugate_edge (t_edges t)).
      { rewrite Er0. apply prune_id. intros j e s He Hin. cbn [Nat.add]. apply used_in_true. rewrite junk_keys, conj_maps.
        rewrite nth_error_map in He. destruct (nth_error (t_edges t) j) as [e0|] eqn:E0; [|discriminate]. injection He as <-.
        change (emap (conjugate_edge e0)) with (cmap (emap e0)) in Hin.
        assert (Hs0 : msorted (emap e0)). { unfold sorted_maps in Hs. rewrite Forall_forall in Hs. apply Hs. unfold maps_of. apply in_map. now apply nth_error_In in E0. }
        destruct (cmap_spec _ Hs0) as [C1 C2].
        assert (Hm : In (sneg s) (map fst (emap e0))).
        { destruct (mfind (sneg s) (emap e0)) as [d|] eqn:Em; [now apply mfind_In_key in Em|]. rewrite <- C2 in Em. apply mfind_None in Em. contradiction. }
        destruct (wf_pruned _ (wf_tcore _ W) j e0 (sneg s) E0 Hm) as [key [K1 K2]]. exists (map sneg key). split.
        - apply in_map_iff in K1 as [[k b] [K3 K1]]. cbn [fst] in K3. subst k. apply HkB in K1. apply (in_map fst) in K1. exact K1.
        - rewrite nth_error_map, K2. cbn. now rewrite sneg_invol. }
      set (f := fun key x => let y := if real then x else rconj x in
        if is_fermi && get_split_merge_parity key (repeat 0 (length (t_names t))) [true] then ropp y else y).
      match goal with |- context [foldM ?st (t_blocks t) (t_blocks r0)] =>
        destruct (foldM_blocks st (map sneg) (fun key b d => d = map (f key) b) (t_blocks t) (t_blocks r0)) as [bs [F1 [F2 [F3 [F4 F5]]]]] end.
      + intros key b blocks b0 Hin Hf HL. rewrite Hf. cbn [at_or_throw bind]. exists (map (f key) b).
        rewrite HL, Nat.ltb_irrefl. rewrite skipn_all2 by lia. rewrite app_nil_r. split; [reflexivity|]. split; [now rewrite map_length|reflexivity].
      + assert (Hnd : NoDup (map fst (t_blocks t))) by now apply wf_keys_nodup. revert Hnd. generalize (map fst (t_blocks t)). intros l Hnd.
        induction Hnd as [|k l Hni Hnd IH]; cbn [map]; constructor; auto. intro Hin. apply in_map_iff in Hin as [k' [Ek Hk]]. apply (f_equal (map sneg)) in Ek.
        rewrite !map_neg_invol in Ek. congruence.
      + apply wf_blocks_sorted. apply Wr0.
      + intros key b Hin. rewrite Br0, conj_maps. exists (repeat (env_junk E) (length b)). split; [|apply repeat_length].
        assert (Hm : mfind (map sneg key) (block_list (map cmap (maps_of (t_edges t)))) = Some (length b)).
        { apply In_mfind; [|now apply HkB]. apply block_list_sorted. now apply conj_sorted. }
        clear - Hm. induction (block_list (map cmap (maps_of (t_edges t)))) as [|[k0 n0] l IH]; [discriminate|]. cbn [mfind junk_blocks map fst snd] in *.
        destruct (eqb (map sneg key) k0); [now injection Hm as ->|auto].
      + rewrite F1. cbn [bind]. eexists. split; [reflexivity|].
        assert (Wr : wf_tensor (mkTensor (t_names r0) (mkCore (t_edges r0) bs))) by (apply reshape_wf; auto).
        split; [exact Wr|]. split; [exact Nr0|]. split.
        * unfold t_edges at 2. cbn [t_core c_edges]. rewrite Hed. clear. induction (t_edges t); constructor; auto.
        * intros pos pt Ha Hv. destruct (elem_block t pt W Hv) as [ds [b [v [H1 [H2 [H3 [H4 [H5 [H6 H7]]]]]]]]]. exists v. split; [now apply H7|].
          set (pt' := map (fun x : entry => (sneg (fst x), snd x)) pt).
          assert (Hk' : map fst pt' = map sneg (map fst pt)) by (unfold pt'; rewrite !map_map; reflexivity).
          assert (Hi' : map snd pt' = map snd pt) by (unfold pt'; rewrite map_map; reflexivity).
          assert (Hd' : dims_of (maps_of (t_edges r0)) (map fst pt') = Some ds) by (rewrite Hed, conj_maps, Hk', conj_dims; auto).
          assert (Hv' : valid_pt (t_core (mkTensor (t_names r0) (mkCore (t_edges r0) bs))) pt').
          { split; cbn [t_core c_edges].
            - apply in_range_dims; [apply (wf_maps _ (wf_tcore _ Wr0))|]. exists ds. rewrite Hi'. auto.
            - rewrite Hk', ssum_neg. rewrite (proj2 Hv). apply sneg_0. }
          destruct (elem_block _ pt' Wr Hv') as [ds' [b' [v' [K1 [K2 [K3 [K4 [K5 [K6 K7]]]]]]]]]. change (t_edges (mkTensor (t_names r0) (mkCore (t_edges r0) bs))) with (t_edges r0) in K1. rewrite Hd' in K1. injection K1 as <-.
          rewrite (K7 (negated pos)); [|cbn [t_names]; rewrite Nr0; now apply negated_assigns].
          destruct (F4 (map fst pt) b) as [d [D1 D2]]; [now apply mfind_In|]. unfold t_blocks in K3. cbn [t_core c_blocks] in K3. rewrite Hk', D1 in K3. injection K3 as <-.
          subst d. rewrite Hi', nth_error_map, H6 in K6. injection K6 as <-. f_equal. unfold f, signed, conj_value. cbv zeta.
          rewrite (conj_parity pos (t_names t) pt Ha (wf_nodup _ W)). destruct is_fermi eqn:Ef; [reflexivity|]. rewrite bose_exchanged by auto. reflexivity.
  Qed.

  Theorem conjugate_twice : forall (E E' : @env R) real (t : tensor S R), (is_nosym = true -> is_fermi = false) ->
    (forall x : R, ropp (ropp x) = x) -> (forall x : R, rconj (rconj x) = x) -> (forall x : R, rconj (ropp x) = ropp (rconj x)) -> wf_tensor t ->
    bind (conjugate E real t) (conjugate E' real) = Ok t.
  Proof.
    intros E E' real t Hnf Ho Hc Hoc W. destruct (conjugate_at E real t Hnf W) as [r [H1 [W1 [N1 [E1 V1]]]]]. rewrite H1. cbn [bind].
    destruct (conjugate_at E' real r Hnf W1) as [r2 [H2 [W2 [N2 [E2 V2]]]]]. rewrite H2. f_equal.
    assert (He : t_edges r2 = t_edges t).
    { pose proof (wf_maps _ (wf_tcore _ W)) as Hs. fold (t_edges t) in Hs. unfold sorted_maps, maps_of in Hs. rewrite Forall_map in Hs. clear - E1 E2 Hs SL. revert E2.
      generalize (t_edges r2). induction E1 as [|e e' es es' [A1 A2] E1 IH]; intros l E2; inversion E2 as [|? ? ? ? [B1 B2] B3]; subst; auto. inversion Hs; subst. f_equal; auto.
      destruct e as [ar m], e' as [ar' m'], y as [ar2 m2]. cbn in *. subst. f_equal; [|now apply cmap_invol]. destruct is_fermi; auto. apply negb_involutive. }
    symmetry. apply tensor_ext_at; auto; [congruence|]. intros pos pt Ha Hv. destruct (V1 pos pt Ha Hv) as [v [X1 X2]].
    set (pt' := map (fun x : entry => (sneg (fst x), snd x)) pt).
    assert (Ha' : assigns (negated pos) (t_names r) pt') by (rewrite N1; now apply negated_assigns).
    assert (Hv' : valid_pt (t_core r) pt').
    { split.
      - apply (leg_range r (negated pos) pt' W1 Ha'). intros n e Hl. apply In_nth_error in Hl as [i Hi]. apply combine_nth_inv in Hi as [I1 I2]. rewrite N1 in I1.
        destruct (nth_same_length _ _ _ _ _ _ (wf_rank _ W) I1) as [e0 I3].
        assert (A : emap e = cmap (emap e0)) by (apply (Forall2_nth_error _ _ _ _ _ E1 i e0 e I3 I2)).
        assert (Hl0 : In (n, e0) (tlegs t)) by (apply (nth_error_In _ i); now apply combine_nth_some).
        destruct (proj1 (leg_range t pos pt W Ha) (proj1 Hv) n e0 Hl0) as [d [D1 D2]].
        destruct (cmap_spec _ (leg_sorted t n e0 W Hl0)) as [C1 C2].
        destruct (nth_same_length _ _ _ _ _ _ (assigns_length _ _ _ Ha) I1) as [[s j] Hp]. pose proof (assigns_nth _ _ _ _ _ _ Ha I1 Hp) as Hm.
        unfold coord in *. rewrite negated_find, Hm in *. cbn [option_map fst snd] in *. exists d. split; auto. rewrite A. apply mfind_In. rewrite C2, sneg_invol.
        apply In_mfind; auto. now apply (leg_sorted t n).
      - unfold pt'. rewrite map_map. cbn [fst]. rewrite <- (map_map fst sneg). rewrite ssum_neg, (proj2 Hv). apply sneg_0. }
    destruct (V2 (negated pos) pt' Ha' Hv') as [w [Y1 Y2]]. rewrite negated_invol in Y2. rewrite X1, Y2. f_equal. rewrite X2 in Y1. injection Y1 as <-. rewrite N1.
    assert (Hodd : forall n, leg_odd (negated pos) n = leg_odd pos n).
    { intro n. unfold leg_odd. rewrite negated_find. destruct (mfind n pos) as [[s i]|]; [|reflexivity]. cbn. apply sodd_neg. }
    replace (exchanged_odd (leg_odd (negated pos)) (t_names t) (rev (t_names t))) with (exchanged_odd (leg_odd pos) (t_names t) (rev (t_names t))).
    - unfold signed, conj_value. destruct (Nat.odd (exchanged_odd (leg_odd pos) (t_names t) (rev (t_names t)))); destruct real; rewrite ?Hoc, ?Ho, ?Hc; reflexivity.
    - unfold exchanged_odd. f_equal. apply filter_ext. intros [a b]. cbn [fst snd]. now rewrite !Hodd.
  Qed.
  Theorem conjugate_legs : forall (E : @env R) real (t r : tensor S R), (is_nosym = true -> is_fermi = false) -> wf_tensor t -> conjugate E real t = Ok r ->
    t_names r = t_names t /\ Forall2 (fun e e' => (is_fermi = true -> earrow e' = negb (earrow e)) /\ forall s d, In (s, d) (emap e') <-> In (sneg s, d) (emap e)) (t_edges t) (t_edges r).
  Proof.
    intros E real t r Hnf W Hr. destruct (conjugate_at E real t Hnf W) as [r' [H1 [W1 [N1 [E1 _]]]]]. rewrite Hr in H1. injection H1 as <-. split; [exact N1|].
    pose proof (wf_maps _ (wf_tcore _ W)) as Hs. fold (t_edges t) in Hs. unfold sorted_maps, maps_of in Hs. rewrite Forall_map in Hs. clear - SL E1 Hs.
    induction E1 as [|e e' es es' [A1 A2] E1 IH]; constructor; inversion Hs; subst; auto. split; [intro Hf; now rewrite A1, Hf|].
    intros s d. rewrite A2. destruct (cmap_spec (emap e)) as [C1 C2]; auto. split; intro Hin.
    - apply In_mfind in Hin; auto. rewrite C2 in Hin. now apply mfind_In.
    - apply In_mfind in Hin; auto. rewrite <- C2 in Hin. now apply mfind_In.
  Qed.
End Conjugate.
