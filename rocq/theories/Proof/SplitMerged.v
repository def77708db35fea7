(** split_edge applied to the result of merge_edge. *)
From Coq Require Import String List Bool Arith Lia Sorted Permutation.
From Verif Require Import Base.Outcome Base.SMap Model.Symmetry Model.Edge Model.Core Model.Transpose Model.EdgeOperator
  Spec.Blocks Spec.Fuse Spec.Strided Spec.Sign Spec.Relabel Proof.SymmetryFacts Proof.LoopFacts Proof.CoreFacts Proof.ConstructFacts Proof.ElemFacts Proof.OffsetFacts
  Proof.KernelFacts Proof.TransposeFacts Proof.GroupFacts Proof.CopyLoopFacts Proof.TableFacts Proof.EdgeOperatorFacts Proof.EdgeOperatorMain Proof.SignFacts
  Proof.TransposeTensor Proof.TransposeNames Proof.NamedOperator Proof.MergeNames Proof.MergeFacts Proof.MergeSplit.
Import ListNotations.

Lemma mfind_map_val : forall A B (f : A -> B) (m : list (nat * A)) n, mfind n (map (fun kv => (fst kv, f (snd kv))) m) = option_map f (mfind n m).
Proof. induction m as [|[k v] m IH]; intro n; [reflexivity|]. cbn [map fst snd mfind]. destruct (eqb n k); auto. Qed.
Lemma filter_all : forall A (f : A -> bool) l, (forall x, In x l -> f x = true) -> filter f l = l.
Proof. induction l as [|x l IH]; intro H; [reflexivity|]. cbn [filter]. rewrite (H x (or_introl eq_refl)), IH; auto. intros; apply H; now right. Qed.
Lemma in_combine_same : forall A (l : list A) x y, In (x, y) (combine l l) -> x = y.
Proof. induction l as [|z l IH]; intros x y H; [contradiction|]. destruct H as [H|H]; [congruence|auto]. Qed.
Lemma Forall2_in_combine : forall A B (P : A -> B -> Prop) l1 l2, length l1 = length l2 ->
  (forall x y, In (x, y) (combine l1 l2) -> P x y) -> Forall2 P l1 l2.
Proof.
  induction l1 as [|x l1 IH]; intros [|y l2] HL H; try discriminate; constructor.
  - apply H. now left.
  - apply IH; [simpl in HL; lia|]. intros a b Hab. apply H. now right.
Qed.

Section SplitMerged.
  Context {S R : Type} {SS : Sym S} {SL : SymLaws S} {RR : Scalar R}.
  Notation entry := (S * nat)%type.

  Lemma prune_maps : forall (blocks : list (list S * list R)) es1 es2 i, maps_of es1 = maps_of es2 ->
    prune_from blocks i es1 = es1 -> prune_from blocks i es2 = es2.
  Proof.
    intros blocks es1. induction es1 as [|e1 es1 IH]; intros [|e2 es2] i HM H; cbn [maps_of map] in HM; try discriminate; auto.
    injection HM as H1 H2. cbn [prune_from] in *. injection H as H3 H4. f_equal.
    - rewrite <- H1. destruct e1 as [x1 m1], e2 as [x2 m2]. simpl in *. subst. injection H3 as H3. now rewrite H3.
    - now apply IH.
  Qed.
  Lemma signed_signed : forall (H : forall v : R, ropp (ropp v) = v) a b (v : R), signed ropp a (signed ropp b v) = signed ropp (a + b) v.
  Proof. intros H a b v. unfold signed. rewrite Nat.odd_add. destruct (Nat.odd a), (Nat.odd b); simpl; auto. Qed.

  (** the split that undoes the merge M of the legs *)
  Definition split_of (legs : list (nat * edge S)) (M : list (nat * list nat)) : list (nat * list (nat * edge S)) :=
    map (fun nl => (fst nl, map (fun n => (n, edge_named legs n)) (snd nl))) M.

  Variables (E E' : @env R) (t : tensor S R) (merge : list (nat * list nat)) (ap : bool) (exm exr : list nat).
  Hypothesis Hwf : wf_tensor t.
  Hypothesis Hm : mergeable E t merge.
  Hypothesis Hempty : t_blocks t <> [] \/ forall k l, In (k, l) (effective (t_names t) merge) -> l <> [].
  Hypothesis Hne : merge <> [].
  Notation M := (mM t merge).
  Notation target := (mtarget t merge).
  Notation legs0 := (mlegs t).
  Notation a1 := (margs t merge ap exm exr).
  Definition flat : list nat := flat_map (group_of M) target.
  Definition sargs : @eo_args S := mkArgs [] (split_of legs0 M) [] [] flat ap exm [] [] [] [].

  Variables (r : tensor S R) (re : list (edge S)).
  Hypothesis Wr : wf_tensor r.
  Hypothesis Rnames : t_names r = target.
  Hypothesis Rgroups : Forall2 (group_edge E t a1) (map (group_of M) target) re.
  Hypothesis Redges : t_edges r = prune_from (t_blocks r) 0 re.
  Hypothesis Rblocks : map fst (t_blocks r) = map fst (block_list (maps_of re)).

  Lemma split_find : forall n, mfind n (split_of legs0 M) = option_map (map (fun n => (n, edge_named legs0 n))) (mfind n M).
  Proof. intro n. unfold split_of. apply mfind_map_val. Qed.
  Lemma split_names : forall n, match mfind n (split_of legs0 M) with Some ps => map fst ps | None => [n] end = group_of M n.
  Proof.
    intro n. rewrite split_find. unfold group_of. destruct (mfind n M); [|reflexivity]. cbn [option_map]. rewrite map_map. apply map_id.
  Qed.
  Lemma split_edge_eq : split_edge E' r (split_of legs0 M) ap exm = edge_operator E' r sargs.
  Proof.
    unfold split_edge. rewrite filter_all.
    - rewrite Rnames. unfold sargs. do 2 f_equal. apply flat_map_ext. exact split_names.
    - intros [k ps] Hk. cbn [fst]. apply mem_name_In. rewrite Rnames. unfold split_of in Hk. apply in_map_iff in Hk as [[k' l] [Ek Hk]].
      injection Ek as <- _. apply merged_names_in.
      + exact (mg_groups _ _ _ Hm).
      + apply mincl.
      + left. apply in_map_iff. exists (k', l). auto.
  Qed.

  Lemma flat_perm : Permutation (t_names t) flat.
  Proof. unfold flat. rewrite <- (mflat t merge ap exm exr). apply (mperm E); auto. Qed.
  Lemma flat_NoDup : NoDup flat.
  Proof. eapply Permutation_NoDup; [apply flat_perm|apply Hwf]. Qed.
  Lemma pre1 : eo_pre E t a1.
  Proof. now apply merge_pre. Qed.

  (** charges of the result edges *)
  Lemma charge_kept : forall kp : nat -> S, (forall n, In n (t_names t) -> mmem (kp n) (emap (edge_named legs0 n)) = true) ->
    ssum (map kp (t_names t)) = szero ->
    Forall2 (fun n e => mmem (ssum (map kp (group_of M n))) (emap e) = true) target (t_edges r).
  Proof.
    intros kp Hk Hz.
    destruct (result_key E t a1 re (t_blocks r) pre1) with (kp := kp) as [_ H]; auto.
    - intros n Hn. rewrite mnames2 in Hn by auto. rewrite mlegs_eq by auto. auto.
    - rewrite mnames2 by auto. exact Hz.
    - rewrite <- Redges in H. rewrite mgroups_eq in H. now apply Forall2_map_l_inv in H.
  Qed.
  Lemma edge_known : forall n e, In (n, e) (combine target (t_edges r)) -> exists e0,
    group_edge E t a1 (group_of M n) e0 /\ earrow e = earrow e0 /\ (forall s d, mfind s (emap e) = Some d -> mfind s (emap e0) = Some d).
  Proof.
    intros n e He. pose proof (pruned_edges (t_blocks r) re 0) as HP. rewrite <- Redges in HP.
    pose proof (Forall2_map_l_inv _ _ _ _ _ _ _ Rgroups) as HG.
    exact (Forall2_combine_in _ _ _ _ _ _ _ (Forall2_trans_ex _ _ _ _ _ _ _ _ HG HP) He).
  Qed.
  Lemma legs0_edges : map (edge_named legs0) (t_names t) = t_edges t.
  Proof.
    rewrite <- (mlegs_eq t merge ap exm exr) by auto. rewrite <- (mnames2 t merge ap exm exr) by auto.
    rewrite (legs_edges E t a1 pre1). now apply medges2.
  Qed.
  Lemma legs0_sorted : forall n, msorted (emap (edge_named legs0 n)).
  Proof.
    intro n. unfold edge_named. destruct (mfind n legs0) as [e|] eqn:E1; [|constructor].
    apply mfind_In in E1. apply in_combine_r in E1. pose proof (wf_maps _ (wf_tcore _ Hwf)) as Wm. unfold sorted_maps, maps_of in Wm.
    rewrite Forall_map, Forall_forall in Wm. now apply Wm.
  Qed.
  (** the charges of a block of t *)
  Lemma block_charges : forall key, In key (map fst (t_blocks t)) -> exists kp, map kp (t_names t) = key /\
    (forall n, In n (t_names t) -> mmem (kp n) (emap (edge_named legs0 n)) = true) /\ ssum (map kp (t_names t)) = szero.
  Proof.
    intros key Hk. apply in_map_iff in Hk as [[k b] [Ek Hk]]. cbn [fst] in Ek. subst k.
    apply (In_mfind _ _ _ (wf_blocks_sorted _ (wf_tcore _ Hwf))) in Hk. apply (wf_find_block _ _ _ (wf_tcore _ Hwf)) in Hk as [Hz [ds [Hd _]]].
    apply dims_of_mem in Hd. unfold maps_of in Hd. fold (t_edges t) in Hd. rewrite <- legs0_edges in Hd.
    exists (fun n => match mfind n (combine (t_names t) key) with Some s => s | None => szero end).
    assert (HL : length (t_names t) = length key).
    { pose proof (Forall2_len _ _ _ _ _ Hd) as HH. now rewrite !map_length in HH. }
    assert (HM : map (fun n => match mfind n (combine (t_names t) key) with Some s => s | None => szero end) (t_names t) = key).
    { apply nth_error_ext. intro i. rewrite nth_error_map. destruct (nth_error (t_names t) i) as [n|] eqn:En.
      - cbn [option_map]. destruct (nth_error key i) as [s|] eqn:Es.
        + rewrite (In_mfind_nodup _ n s); auto.
          * rewrite combine_map_fst by exact HL. apply Hwf.
          * apply nth_error_In with (n := i). now apply nth_error_combine_some.
        + apply nth_error_None in Es. assert (i < length (t_names t)) by (apply nth_error_Some; congruence). lia.
      - cbn [option_map]. symmetry. apply nth_error_None. apply nth_error_None in En. lia. }
    split; [exact HM|]. split; [|now rewrite HM].
    rewrite <- HM in Hd. rewrite map_map in Hd. apply Forall2_map_l_inv, Forall2_map_r_inv in Hd. intros n Hn.
    exact (Forall2_self _ _ _ Hd n Hn).
  Qed.
  Lemma single_map : forall n e m, In (n, e) (combine target (t_edges r)) -> group_of M n = [m] -> In m (t_names t) ->
    emap e = emap (edge_named legs0 m).
  Proof.
    intros n e m He Hg Hmn. destruct (edge_known n e He) as [e0 [G [_ Hf]]]. rewrite Hg in G.
    assert (E0 : emap e0 = emap (edge_named legs0 m)).
    { rewrite (ge_one _ _ _ _ _ G m eq_refl). rewrite mlegs3_eq by auto. reflexivity. }
    assert (Hs : msorted (emap e)).
    { apply in_combine_r in He. pose proof (wf_maps _ (wf_tcore _ Wr)) as Wm. unfold sorted_maps, maps_of in Wm. rewrite Forall_map in Wm.
      rewrite Forall_forall in Wm. now apply Wm. }
    apply msorted_ext; [exact Hs|apply legs0_sorted|]. intro s. rewrite <- E0. destruct (mfind s (emap e)) as [d|] eqn:E1.
    - symmetry. now apply Hf.
    - destruct (mfind s (emap e0)) as [d|] eqn:E2; [|reflexivity]. exfalso.
      rewrite E0 in E2. apply mfind_In in E2. apply (in_map fst) in E2. cbn [fst] in E2.
      apply In_nth_error in Hmn as [i Hi].
      assert (Hi2 : nth_error (t_edges t) i = Some (edge_named legs0 m)) by (rewrite <- legs0_edges; now apply map_nth_error).
      destruct (wf_pruned _ (wf_tcore _ Hwf) i _ _ Hi2 E2) as [key [Hk Hn]].
      destruct (block_charges key Hk) as [kp [K1 [K2 K3]]].
      assert (Hkm : kp m = s).
      { rewrite <- K1 in Hn. rewrite (map_nth_error _ _ _ Hi) in Hn. now injection Hn. }
      pose proof (Forall2_combine_in _ _ _ _ _ _ _ (charge_kept kp K2 K3) He) as HH. cbv beta in HH. rewrite Hg in HH. cbn [map] in HH.
      rewrite ssum_one, Hkm in HH. unfold mmem in HH. now rewrite E1 in HH.
  Qed.

  Lemma snames1 : names1 r sargs = target.
  Proof. rewrite named_names1 by reflexivity. exact Rnames. Qed.
  Lemma sedges1 : edges1 r sargs = t_edges r.
  Proof. apply plain_edges1; auto. Qed.
  Lemma other_group : forall n, In n target -> mfind n M = None -> In n (t_names t) /\ group_of M n = [n].
  Proof.
    intros n Hn E1. split; [|unfold group_of; now rewrite E1].
    destruct (target_cases (t_names t) M (mkeys E t merge Hm) (mg_groups _ _ _ Hm) (mincl t merge) n Hn) as [[l [H1 _]]|[H1 _]]; auto.
    apply mfind_None in E1. exfalso. apply E1. apply in_map_iff. exists (n, l). auto.
  Qed.
  Lemma parts_maps : forall n e, In (n, e) (combine target (t_edges r)) ->
    map (fun x => (fst x, emap (snd x))) (parts sargs (n, e)) = map (fun m => (m, emap (edge_named legs0 m))) (group_of M n).
  Proof.
    intros n e He. unfold parts. cbn [fst snd sargs a_split]. rewrite split_find. destruct (mfind n M) as [l|] eqn:E1.
    - cbn [option_map]. unfold group_of. rewrite E1, !map_map. reflexivity.
    - cbn [option_map]. destruct (other_group n) as [H1 H2]; auto; [now apply in_combine_l in He|]. rewrite H2. cbn [map fst snd].
      now rewrite (single_map n e n He H2 H1).
  Qed.
  Lemma combine_target_fst : map fst (combine target (t_edges r)) = target.
  Proof. apply combine_map_fst. rewrite <- Rnames. apply Wr. Qed.
  Lemma slegs_maps : map (fun x => (fst x, emap (snd x))) (legs r sargs) = map (fun m => (m, emap (edge_named legs0 m))) flat.
  Proof.
    unfold legs, sgroups. rewrite snames1, sedges1. rewrite concat_map, map_map. unfold flat. rewrite flat_map_concat_map, concat_map, map_map.
    f_equal. transitivity (map (fun ne => map (fun m => (m, emap (edge_named legs0 m))) (group_of M (fst ne))) (combine target (t_edges r))).
    - apply map_ext_in. intros [n e] He. now apply parts_maps.
    - rewrite <- (map_map fst (fun n => map (fun m => (m, emap (edge_named legs0 m))) (group_of M n))). now rewrite combine_target_fst.
  Qed.
  Lemma snames2 : names2 r sargs = flat.
  Proof.
    unfold names2. fold (legs r sargs). pose proof slegs_maps as H. apply (f_equal (map fst)) in H. rewrite !map_map in H. cbn [fst] in H.
    rewrite map_id in H. exact H.
  Qed.
  Lemma smaps2 : maps_of (edges2 r sargs) = map (fun m => emap (edge_named legs0 m)) flat.
  Proof.
    unfold edges2, maps_of. fold (legs r sargs). pose proof slegs_maps as H. apply (f_equal (map snd)) in H. rewrite !map_map in H. cbn [snd] in H.
    rewrite map_map. exact H.
  Qed.
  Lemma slegs_emap : forall m, In m flat -> emap (edge_named (legs r sargs) m) = emap (edge_named legs0 m).
  Proof.
    intros m Hmf. unfold edge_named at 1. destruct (mfind m (legs r sargs)) as [e|] eqn:E1.
    - apply mfind_In in E1. apply (in_map (fun x => (fst x, emap (snd x)))) in E1. rewrite slegs_maps in E1. cbn [fst snd] in E1.
      apply in_map_iff in E1 as [m' [Em _]]. injection Em as -> H. now rewrite <- H.
    - apply mfind_None in E1. exfalso. apply E1. change (In m (names2 r sargs)). now rewrite snames2.
  Qed.
  Lemma sgroups_singles : groups sargs = map (fun n => [n]) flat.
  Proof. apply nil_groups. reflexivity. Qed.
  Lemma sgroups_concat : concat (groups sargs) = flat.
  Proof. rewrite sgroups_singles. apply singles_concat. Qed.

  Lemma split_pre : eo_pre E' r sargs.
  Proof.
    constructor.
    - exact Wr.
    - intros n ps H. cbn [sargs a_split] in H. rewrite split_find in H. destruct (mfind n M) as [l|]; [|discriminate]. injection H as <-.
      apply Forall_map. apply Forall_forall. intros m _. cbn [snd]. apply legs0_sorted.
    - apply fits_keys; [exact Wr|]. intros n e e0 ps HI Hps. rewrite snames1, sedges1 in HI.
      assert (He : In (n, e) (combine target (t_edges r)) /\ e0 = e).
      { clear - HI. revert HI. generalize (t_edges r). generalize target as l. induction l as [|x l IH]; intros [|y es] H; try contradiction.
        destruct H as [H|H]; [injection H as -> -> ->; split; [now left|reflexivity]|]. destruct (IH es H). split; [now right|auto]. }
      destruct He as [He ->]. pose proof Hps as Hps2. cbn [sargs a_split] in Hps2. rewrite split_find in Hps2.
      destruct (mfind n M) as [l|] eqn:El; [|discriminate]. injection Hps2 as <-.
      assert (Hg : group_of M n = l) by (unfold group_of; now rewrite El).
      intros s Hk Hex. cbn [fst snd] in *. rewrite !map_map in *. cbn [snd] in *.
      destruct (edge_known n e He) as [e1 [G [_ Hf]]]. rewrite Hg in G. destruct (ge_map _ _ _ _ _ G) as [_ Gm].
      rewrite mlegs_eq in Gm by auto.
      unfold keep in Hk. cbn [fst snd] in Hk. rewrite Hps in Hk. rewrite map_length in Hk.
      assert (Hmem : length l <> 1 -> mmem s (emap e) = true).
      { intro L. destruct (Nat.leb_spec (length l) 1) as [L1|L1]; [|exact Hk].
        assert (l = []) by (destruct l as [|? [|? ?]]; simpl in *; [reflexivity|lia|lia]). subst l.
        destruct Hempty as [Hb|Hb]; [|exfalso; apply mfind_In in El; exact (Hb n _ El H)].
        destruct (t_blocks t) as [|[key b] bs] eqn:Eb; [congruence|].
        destruct (block_charges key) as [kp [K1 [K2 K3]]]; [rewrite Eb; now left|].
        pose proof (Forall2_combine_in _ _ _ _ _ _ _ (charge_kept kp K2 K3) He) as HH. cbv beta in HH. rewrite H in HH, Hex.
        cbn [map tuples existsb] in Hex. rewrite orb_false_r in Hex. apply eqb_eq in Hex. subst s. exact HH. }
      destruct (Nat.eq_dec (length l) 1) as [L|L].
      * destruct l as [|m [|? ?]]; try discriminate.
        assert (Hin : In m (t_names t)).
        { apply (Permutation_in _ (Permutation_sym flat_perm)). unfold flat. apply in_flat_map. exists n. split; [now apply in_combine_l in He|].
          rewrite Hg. now left. }
        rewrite (single_map n e m He Hg Hin). exact (merged_map_fit _ _ (merged_map_one _ (legs0_sorted m)) s eq_refl Hex).
      * specialize (Hmem L). unfold mmem in Hmem. destruct (mfind s (emap e)) as [d|] eqn:Ed; [|discriminate]. exists d. split; [reflexivity|].
        apply Hf in Ed. rewrite Gm, Hex in Ed. injection Ed as <-. apply Nat.le_refl.
    - rewrite snames2. apply flat_NoDup.
    - rewrite snames2, sgroups_concat. reflexivity.
    - exact flat_NoDup.
    - intros _ H. now elim H.
    - intros _. rewrite sedges1. apply Forall2_same. auto.
  Qed.

  Lemma ssrc : forall pos n, In n target -> src_coord r sargs pos n = merged_coord legs0 M pos n.
  Proof.
    intros pos n Hn. unfold src_coord, merged_coord. cbn [sargs a_split]. rewrite split_find. destruct (mfind n M) as [l|] eqn:El; [|reflexivity].
    cbn [option_map]. rewrite map_map. cbn [fst]. rewrite map_id. unfold joined. f_equal. apply map_ext_in. intros m Hml. apply slegs_emap.
    unfold flat. apply in_flat_map. exists n. split; auto. unfold group_of. now rewrite El.
  Qed.
  Lemma skept : forall pos p, assigns pos flat p -> in_range (map (fun m => emap (edge_named legs0 m)) flat) p -> ssum (map fst p) = szero ->
    kept r sargs (map fst p) = true.
  Proof.
    intros pos p Ha Hr Hz. rewrite (kept_named r sargs pos p) by (rewrite snames2; exact Ha).
    rewrite snames1, sedges1. apply forallb_forall. intros [n e] He.
    assert (HK : Forall2 (fun n e => mmem (ssum (map (fun m => fst (coord pos m)) (group_of M n))) (emap e) = true) target (t_edges r)).
    { apply (charge_kept (fun m => fst (coord pos m))).
      - intros m Hmn. apply (Permutation_in _ flat_perm) in Hmn.
        rewrite (assigns_coord pos _ p Ha) in Hr. rewrite in_range_named in Hr. destruct (Hr m Hmn) as [d [Hd _]].
        unfold mmem. now rewrite (In_mfind _ _ _ (legs0_sorted m) Hd).
      - transitivity (ssum (map fst p)); [|exact Hz]. rewrite (assigns_coord pos _ p Ha), map_map. apply ssum_perm. apply Permutation_map. apply flat_perm. }
    pose proof (Forall2_combine_in _ _ _ _ _ _ _ HK He) as HH. cbv beta in HH.
    assert (Hp : map (fun x => fst (coord pos (fst x))) (parts sargs (n, e)) = map (fun m => fst (coord pos m)) (group_of M n)).
    { pose proof (parts_maps n e He) as HP. apply (f_equal (map (fun x => fst (coord pos (fst x))))) in HP. rewrite !map_map in HP. cbn [fst] in HP. exact HP. }
    rewrite Hp. unfold keep. cbn [fst snd]. destruct (mfind n (a_split sargs)); [|reflexivity]. destruct (Nat.leb _ 1); [reflexivity|exact HH].
  Qed.

  Lemma ssign : forall pos, Nat.odd (sign_number r sargs pos) = Nat.odd (pairs_in (leg_odd pos) (selected ap exm) (merge_groups_named a1)).
  Proof.
    intro pos. unfold sign_number. rewrite snames2, sgroups_concat, exchanged_same by apply flat_NoDup.
    cbn [sargs a_reversed a_apply_parity a_ex_split]. rewrite count_zero by reflexivity.
    rewrite (count_zero _ (fun n => fixed_leg r sargs n && _ && _)).
    - replace (merge_groups_named sargs) with (map (fun n => (n, [n])) flat).
      + rewrite pairs_in_singles. rewrite !Nat.add_0_l, !Nat.add_0_r. do 2 f_equal.
        unfold split_groups. rewrite Rnames. unfold merge_groups_named. rewrite mgroups_eq. cbn [a_new_names margs]. rewrite combine_map_r.
        apply map_ext. intro n. f_equal. apply split_names.
      + unfold merge_groups_named. rewrite sgroups_singles. cbn [sargs a_new_names]. now rewrite combine_map_r.
    - intro n. replace (fixed_leg r sargs n) with false; [reflexivity|]. symmetry. unfold fixed_leg. rewrite sgroups_singles. apply turned_singles.
  Qed.

  Definition turned_sign pos : nat := exchanged_odd (leg_odd pos) (t_names t) flat
    + count (fun n => turned legs0 (map (group_of M) target) n && applied ap exr n && leg_odd pos n) (t_names t).
  Lemma both_signs : forall pos, Nat.odd (sign_number r sargs pos + merge_sign legs0 (t_names t) M ap exm exr pos) = Nat.odd (turned_sign pos).
  Proof.
    intro pos. rewrite Nat.odd_add, ssign. rewrite <- (merge_sign_eq E t merge ap exm exr Hwf Hm pos). unfold sign_number at 1, turned_sign.
    rewrite mnames2 by auto. cbn [a_reversed margs a_apply_parity a_ex_split a_ex_rev_merge a_ex_merge].
    rewrite (count_zero _ (fun n => mem_name n [] && _ && _)) by reflexivity.
    replace (split_groups t a1) with (map (fun n => (n, [n])) (t_names t)) by reflexivity. rewrite pairs_in_singles. cbn [plus].
    rewrite (mflat t merge ap exm exr). fold flat. rewrite !Nat.odd_add.
    replace (Nat.odd (count (fun n => fixed_leg t a1 n && selected ap exr n && leg_odd pos n) flat))
      with (Nat.odd (count (fun n => turned legs0 (map (group_of M) target) n && applied ap exr n && leg_odd pos n) (t_names t))).
    - generalize (pairs_in (leg_odd pos) (selected ap exm) (merge_groups_named a1)). intro k.
      destruct (Nat.odd k), (Nat.odd (exchanged_odd _ _ _)), (Nat.odd (count _ _)); reflexivity.
    - f_equal. rewrite (count_perm _ _ _ _ (Permutation_sym flat_perm)). apply count_ext. intros n _. unfold fixed_leg, turned.
      rewrite mlegs3_eq by auto. reflexivity.
  Qed.

  (** elements of r, as given by merge_raw *)
  Hypothesis Relems : forall pos pt, assigns pos (t_names t) pt -> valid_pt (t_core t) pt ->
      let x := map (merged_coord legs0 M pos) target in
      valid_pt (t_core r) x /\ exists v, elem (t_core t) pt = Some v /\
        elem (t_core r) x = Some (signed ropp (merge_sign legs0 (t_names t) M ap exm exr pos) v).
  Hypothesis Hopp : forall v : R, ropp (ropp v) = v.

  Lemma assigns_perm : forall (pos : position) (l1 l2 : list nat) (p : list entry), assigns pos l1 p -> incl l2 l1 -> assigns pos l2 (map (coord pos) l2).
  Proof.
    intros pos l1 l2 p Ha Hi. unfold assigns. rewrite map_map. apply map_ext_in. intros n Hn. unfold coord.
    apply Hi in Hn. apply In_nth_error in Hn as [i Hn].
    destruct (nth_error p i) as [x|] eqn:E1.
    - now rewrite (assigns_nth _ _ _ _ _ _ Ha Hn E1).
    - apply nth_error_None in E1. apply assigns_length in Ha. assert (i < length l1) by (apply nth_error_Some; congruence). lia.
  Qed.

  Lemma sarrow : forall n e, In (n, e) (legs r sargs) -> exists k ek, In (k, ek) (combine target (t_edges r)) /\ In n (group_of M k) /\ earrow e = earrow ek.
  Proof.
    intros n e H. unfold legs, sgroups in H. rewrite snames1, sedges1 in H. apply in_concat in H as [l [H1 H2]]. apply in_map_iff in H1 as [[k ek] [<- H1]].
    exists k, ek. split; [exact H1|].
    assert (Hn : In n (group_of M k)).
    { apply (in_map (fun x => (fst x, emap (snd x)))) in H2. rewrite (parts_maps k ek H1) in H2. apply in_map_iff in H2 as [m [Em Hmm]].
      cbn [fst] in Em. injection Em as -> _. exact Hmm. }
    split; [exact Hn|]. unfold parts in H2. cbn [fst snd] in H2. destruct (mfind k (a_split sargs)).
    - apply in_map_iff in H2 as [x [Ex _]]. injection Ex as _ <-. reflexivity.
    - destruct H2 as [H2|[]]. injection H2 as _ <-. reflexivity.
  Qed.
  Lemma legs3_arrow : forall n, edge_named (legs3 r sargs) n = edge_named (legs r sargs) n.
  Proof.
    intro n. unfold legs3. f_equal.
    assert (H3 : edges3 r sargs = edges2 r sargs).
    { unfold edges3, rev2. cbn [sargs a_reversed]. pose proof (len_edges2 r sargs) as HL. revert HL. generalize (edges2 r sargs). generalize (names2 r sargs).
      induction l as [|x l IH]; intros [|e es] HL; simpl in *; try discriminate; auto. specialize (IH es ltac:(lia)).
      rewrite andb_false_r in *. f_equal. exact IH. }
    rewrite H3. unfold names2, edges2. apply combine_fst_snd.
  Qed.

  Lemma split_raw : exists r2, split_edge E' r (split_of legs0 M) ap exm = Ok r2 /\ wf_tensor r2 /\ t_names r2 = flat /\
    maps_of (t_edges r2) = map (fun m => emap (edge_named legs0 m)) flat /\
    (forall n e, In (n, e) (combine flat (t_edges r2)) -> exists k ek, In (k, ek) (combine target (t_edges r)) /\ In n (group_of M k) /\ earrow e = earrow ek) /\
    (forall pos p pt, assigns pos flat p -> assigns pos (t_names t) pt -> valid_pt (t_core t) pt ->
       valid_pt (t_core r2) p /\ exists v, elem (t_core t) pt = Some v /\ elem (t_core r2) p = Some (signed ropp (turned_sign pos) v)).
  Proof.
    destruct (edge_operator_named E' r sargs split_pre eq_refl) as [r2 [re2 [H1 [H2 [H3 [H4 [H5 [H6 [H7 [H8 H9]]]]]]]]]].
    { cbn [sargs a_split]. replace (is_nil (split_of legs0 M)) with false; [now rewrite andb_false_r|].
      unfold split_of, mM, effective. destruct merge; [congruence|reflexivity]. }
    exists r2. split; [now rewrite split_edge_eq|]. split; [exact H2|]. split; [exact H3|].
    rewrite sgroups_singles in H4. apply Forall2_map_l_inv in H4.
    assert (Hre : re2 = map (edge_named (legs r sargs)) flat).
    { clear - H4. induction H4 as [|n e l es G H4 IH]; [reflexivity|]. cbn [map]. f_equal; [|exact IH].
      rewrite (ge_one _ _ _ _ _ G n eq_refl). apply legs3_arrow. }
    assert (Hmaps : maps_of re2 = map (fun m => emap (edge_named legs0 m)) flat).
    { rewrite Hre. unfold maps_of. rewrite map_map. apply map_ext_in. intros m Hmf. now apply slegs_emap. }
    assert (Hpr : t_edges r2 = re2).
    { rewrite H5. destruct (plan_of_names (t_names t) flat (wf_nodup _ Hwf) flat_perm) as [d2s [_ [Hpl Hfl]]].
      apply (prune_maps (t_blocks r2) (permuted dflt_edge d2s (t_edges t))).
      - rewrite Hmaps. unfold maps_of. rewrite <- permuted_map. rewrite <- legs0_edges, map_map. rewrite Hfl. unfold permuted. rewrite map_map.
        apply map_ext_in. intros j Hj. pose proof (plan_in_bound _ _ _ Hpl j Hj) as Hb.
        rewrite (nth_indep _ (emap dflt_edge) (emap (edge_named legs0 0))) by (now rewrite map_length). apply (map_nth (fun m => emap (edge_named legs0 m))).
      - eapply permuted_edges_pruned with (c := t_core t); [apply Hwf|rewrite (eq_sym (wf_rank _ Hwf) : length (c_edges (t_core t)) = _); exact Hpl|reflexivity|].
        rewrite H6, Hmaps. do 2 f_equal. unfold maps_of. rewrite <- permuted_map. fold (t_edges t). rewrite <- legs0_edges, map_map. rewrite Hfl. unfold permuted. rewrite map_map.
        apply map_ext_in. intros j Hj. pose proof (plan_in_bound _ _ _ Hpl j Hj) as Hb.
        rewrite (nth_indep _ (emap dflt_edge) (emap (edge_named legs0 0))) by (now rewrite map_length). symmetry. apply (map_nth (fun m => emap (edge_named legs0 m))). }
    split; [now rewrite Hpr|]. split.
    - intros n e He. rewrite Hpr, Hre in He. rewrite combine_map_r in He. apply in_map_iff in He as [m [Em Hmf]]. injection Em as -> He.
      apply sarrow. rewrite <- He. unfold edge_named. destruct (mfind n (legs r sargs)) as [e'|] eqn:E1; [now apply mfind_In|].
      apply mfind_None in E1. exfalso. apply E1. change (In n (names2 r sargs)). now rewrite snames2.
    - intros pos p pt Ha Hat [Hv Hz].
      assert (Hp : p = map (coord pos) flat) by now apply assigns_coord.
      assert (Hpt : pt = map (coord pos) (t_names t)) by now apply assigns_coord.
      assert (Hr : in_range (map (fun m => emap (edge_named legs0 m)) flat) p).
      { rewrite Hp. apply in_range_named. intros n Hn. apply (Permutation_in _ (Permutation_sym flat_perm)) in Hn.
        change (maps_of (c_edges (t_core t))) with (maps_of (t_edges t)) in Hv.
        rewrite (assigns_in_range E t merge ap exm exr Hwf Hm pos pt Hat) in Hv. now apply Hv. }
      assert (Hz2 : ssum (map fst p) = szero).
      { transitivity (ssum (map fst pt)); [|exact Hz]. rewrite Hp, Hpt, !map_map. apply ssum_perm. apply Permutation_map. apply Permutation_sym, flat_perm. }
      assert (Hid : map (merged_coord (legs r sargs) (a_merge sargs) pos) (a_new_names sargs) = p) by (rewrite Hp; reflexivity).
      destruct (H7 pos p) as [V1 [V2 _]]; [rewrite snames2; exact Ha|rewrite smaps2; exact Hr|exact Hz2|]. rewrite Hid in V1, V2.
      split; [exact V1|]. destruct (V2 (skept pos p Ha Hr Hz2)) as [v [X1 [_ X2]]].
      destruct (Relems pos pt Hat (conj Hv Hz)) as [_ [w [Y1 Y2]]]. exists w. split; [exact Y1|].
      assert (Hsrc : map (src_coord r sargs pos) (t_names r) = map (merged_coord legs0 M pos) target).
      { rewrite Rnames. apply map_ext_in. intros n Hn. now apply ssrc. }
      rewrite Hsrc, Y2 in X1. injection X1 as <-. rewrite X2. f_equal. rewrite (signed_signed Hopp). apply signed_odd. apply both_signs.
  Qed.
End SplitMerged.
