(** edge_operator calls that split some legs, cut others, and bring all of them into a new order. *)
From Coq Require Import String List Bool Arith Lia Sorted Permutation.
From Verif Require Import Base.Outcome Base.SMap Model.Symmetry Model.Edge Model.Core Model.Transpose Model.EdgeOperator
  Spec.Blocks Spec.Fuse Spec.Sign Spec.Relabel Proof.SymmetryFacts Proof.LoopFacts Proof.CoreFacts Proof.ConstructFacts Proof.ElemFacts Proof.OffsetFacts
  Proof.GroupFacts Proof.TableFacts Proof.EdgeOperatorFacts Proof.EdgeOperatorMain Proof.NamedOperator Proof.TransposeFacts Proof.TransposeTensor Proof.TransposeNames Proof.LegFacts Proof.SignFacts Proof.ExchangeFacts Proof.SplitAll.
Import ListNotations.

Section SplitSome.
  Context {S R : Type} {SS : Sym S} {SL : SymLaws S} {RR : Scalar R}.
  Notation entry := (S * nat)%type.

  Variables (E : @env R) (p : tensor S R) (pl : list (list (nat * edge S))) (a : @eo_args S).
  Hypothesis W : wf_tensor p.
  Hypothesis Hlen : length pl = length (t_names p).
  Hypothesis Hren : a_rename a = [].
  Hypothesis Hmerge : a_merge a = [].
  Hypothesis Hne : a_split a <> [].
  Let ne1 := combine (t_names p) (edges1 p a).
  Hypothesis Hfind : forall n e ps, In ((n, e), ps) (combine ne1 pl) -> mfind n (a_split a) = Some ps \/ (mfind n (a_split a) = None /\ ps = [(n, e)]).
  Hypothesis Hperm : Permutation (map fst (concat pl)) (a_new_names a).
  Hypothesis Hnd : NoDup (map fst (concat pl)).
  Hypothesis Hsorts : forall n ps, mfind n (a_split a) = Some ps -> Forall (fun x => msorted (emap (snd x))) ps.
  Hypothesis Hfit : forall gks, Forall2 (fun l k => exists ds, dims_of (lmaps l) k = Some ds) pl gks -> ssum (concat gks) = szero ->
    (forall l e k, In ((l, e), k) (combine (combine pl (edges1 p a)) gks) -> kp l e (ssum k) = true) ->
    Forall2 (fun lk e => exists d, mfind (ssum (snd lk)) (emap e) = Some d /\ merged_dim (lmaps (fst lk)) (ssum (snd lk)) <= d) (combine pl gks) (t_edges p).

  Let le := combine pl (edges1 p a).
  Lemma ss_rank1 : length (edges1 p a) = length (t_names p).
  Proof. unfold edges1. rewrite map_length, combine_length. destruct W as [_ _ L]. rewrite L. lia. Qed.
  Lemma ss_rank : length pl = length (t_edges p).
  Proof. rewrite Hlen. apply W. Qed.
  Lemma ss_map : forall (A : Type) (f : nat * edge S -> A) (g : list (nat * edge S) * edge S -> A),
    (forall n l e, In ((n, e), l) (combine ne1 pl) -> f (n, e) = g (l, e)) -> map f ne1 = map g le.
  Proof.
    unfold le, ne1. intros A f g. pose proof Hlen as L1. pose proof ss_rank1 as L2. clear - L1 L2. revert L1 L2. generalize (t_names p) as ns. generalize (edges1 p a) as es. revert pl.
    intro pl. induction pl as [|l pl' IH]; intros [|e es] [|n ns] L1 L2 H; simpl in *; try discriminate; [reflexivity|]. f_equal; [apply H; now left|]. apply IH; auto.
  Qed.
  Lemma ss_names1 : names1 p a = t_names p.
  Proof. now apply named_names1. Qed.
  Lemma ss_sgroups : sgroups p a = map part_of le.
  Proof.
    unfold sgroups. rewrite ss_names1. apply ss_map. intros n l e H. unfold parts, part_of. cbn [fst snd]. destruct (Hfind n e l H) as [->|[-> ->]]; [reflexivity|].
    cbn [map fst snd]. now destruct e.
  Qed.
  Lemma ss_mks : mks p a = map (fun x => (lmaps (fst x), kp (fst x) (snd x))) le.
  Proof.
    unfold mks. rewrite ss_names1. apply ss_map. intros n l e H. unfold parts, keep, kp. cbn [fst snd]. destruct (Hfind n e l H) as [->|[-> ->]].
    - rewrite map_map. cbn [snd emap]. f_equal. now destruct (Nat.leb (length l) 1).
    - reflexivity.
  Qed.
  Lemma ss_fst : map fst le = pl.
  Proof. apply combine_map_fst. now rewrite ss_rank1. Qed.
  Lemma ss_gms : gms p a = map lmaps pl.
  Proof. unfold gms. rewrite ss_mks, map_map. cbn [fst]. rewrite <- ss_fst. now rewrite map_map. Qed.
  Lemma ss_names2 : names2 p a = map fst (concat pl).
  Proof.
    unfold names2. rewrite ss_sgroups. rewrite <- ss_fst. rewrite !concat_map, !map_map. f_equal. apply map_ext. intro x. unfold part_of. now rewrite map_map.
  Qed.
  Lemma ss_maps2 : maps_of (edges2 p a) = concat (map lmaps pl).
  Proof.
    unfold maps_of, edges2. rewrite ss_sgroups. rewrite <- ss_fst. rewrite !concat_map, !map_map. f_equal. apply map_ext. intro x. unfold part_of, lmaps. now rewrite !map_map.
  Qed.
  Lemma ss_groups : concat (groups a) = a_new_names a.
  Proof. rewrite (nil_groups a Hmerge). apply singles_concat. Qed.

  Lemma ss_sign : a_apply_parity a = false -> a_ex_split a = [] -> a_ex_rev_merge a = [] -> a_ex_merge a = [] ->
    forall pos, Nat.odd (sign_number p a pos) = xorb (Nat.odd (exchanged_odd (leg_odd pos) (map fst (concat pl)) (a_new_names a)))
      (par (fun n => mem_name n (a_reversed a) && mem_name n (a_ex_rev a) && leg_odd pos n) (map fst (concat pl))).
  Proof.
    intros H1 H2 H4 H5 pos. rewrite sign_plain by assumption. rewrite ss_names2, ss_groups.
    rewrite (par_false _ (fun nl => _) (combine (a_new_names a) (groups a))); [now rewrite xorb_false_r|]. intros nl _. rewrite H5. reflexivity.
  Qed.
  Lemma ss_new : NoDup (a_new_names a).
  Proof. eapply Permutation_NoDup; [exact Hperm|exact Hnd]. Qed.
  Lemma ss_sort : forall l, In l pl -> Forall (fun x => msorted (emap (snd x))) l.
  Proof.
    intros l Hl. assert (Hin : exists n e, In ((n, e), l) (combine ne1 pl)).
    { unfold ne1. pose proof Hlen as L1. pose proof ss_rank1 as L2. clear - L1 L2 Hl. revert L1 L2 Hl. generalize (t_names p) as ns. generalize (edges1 p a) as es. revert pl.
      intro pl. induction pl as [|x pl' IH]; intros [|e es] [|n ns] L1 L2 Hl; simpl in *; try discriminate; try contradiction. destruct Hl as [->|Hl]; [exists n, e; now left|].
      destruct (IH es ns) as [n' [e' H]]; auto. exists n', e'. now right. }
    destruct Hin as [n [e Hin]]. destruct (Hfind n e l Hin) as [H|[_ ->]]; [now apply (Hsorts n)|]. constructor; [|constructor]. cbn [snd].
    pose proof (edges1_rel p a W) as F. apply in_combine_l in Hin. unfold ne1 in Hin. apply in_combine_r in Hin. clear - F Hin. induction F as [|x y l l' [X _] F IH]; [destruct Hin|]. destruct Hin as [<-|Hin]; [exact X|now apply IH].
  Qed.
  Lemma ss_pre : eo_pre E p a.
  Proof.
    constructor.
    - exact W.
    - exact Hsorts.
    - intros key ds Hd Hz Hk. rewrite ss_gms in *. rewrite ss_mks in *. unfold all_kept in Hk.
      pose proof (dims_groups _ _ _ Hd) as G. apply Forall2_unmap_l in G.
      assert (HL : length key = length (concat (map lmaps pl))) by (apply dims_of_length in Hd; tauto).
      specialize (Hfit (group_by (map lmaps pl) key)). rewrite concat_group_by in Hfit by exact HL. specialize (Hfit G Hz).
      revert Hk Hfit G. generalize (group_by (map lmaps pl) key) as gks. unfold le, maps_of. pose proof ss_rank as L. assert (L2 : length pl = length (edges1 p a)) by (rewrite ss_rank1; exact Hlen).
      clear - L L2. revert L L2. generalize (t_edges p) as es. generalize (edges1 p a) as es1. revert pl.
      intro pl. induction pl as [|l pl' IH]; intros [|e1 es1] [|e es] L L2 gks Hk H G; inversion G; subst; simpl in L, L2; try discriminate; cbn [combine map] in *; [constructor|].
      cbn [forallb fst snd] in Hk. apply andb_true_iff in Hk as [K1 K2].
      assert (X : Forall2 (fun (lk : list (nat * edge S) * list S) e0 => exists d, mfind (ssum (snd lk)) (emap e0) = Some d /\ merged_dim (lmaps (fst lk)) (ssum (snd lk)) <= d)
                    ((l, y) :: combine pl' l') (e :: es)).
      { apply H. intros l0 e0 k [Hin|Hin]; [injection Hin as <- <- <-; exact K1|]. rewrite forallb_forall in K2.
        assert (Hin2 : In ((lmaps l0, kp l0 e0), k) (combine (map (fun x => (lmaps (fst x), kp (fst x) (snd x))) (combine pl' es1)) l')).
        { clear - Hin. revert Hin. generalize (combine pl' es1) as c. intro c. revert l'. induction c as [|x c IH]; intros [|y l'] H; try contradiction.
          destruct H as [H|H]; [injection H as -> ->; now left|]. right. now apply IH. }
        exact (K2 _ Hin2). }
      inversion X as [|? ? ? ? X1 X2]; subst. constructor; [exact X1|]. apply (IH es1 es); auto.
    - rewrite ss_names2. exact Hnd.
    - rewrite ss_names2, ss_groups. exact Hperm.
    - exact ss_new.
    - intros _ H. congruence.
    - intros H. unfold no_table in H. destruct (a_split a); [congruence|]. cbn in H. discriminate.
  Qed.
  (** the leg called n among the parts *)
  Lemma ss_leg : forall l e x ex, In (l, e) le -> In (x, ex) l -> edge_named (legs p a) x = mkEdge (earrow e) (emap ex).
  Proof.
    intros l e x ex H1 H2. apply (legs_in E p a ss_pre). unfold legs. rewrite ss_sgroups. apply in_concat. exists (part_of (l, e)). split; [now apply in_map|].
    unfold part_of. cbn [fst snd]. apply in_map_iff. exists (x, ex). auto.
  Qed.
  Lemma ss_leg3 : forall l e x ex, In (l, e) le -> In (x, ex) l ->
    edge_named (legs3 p a) x = mkEdge (xorb (is_fermi && mem_name x (a_reversed a)) (earrow e)) (emap ex).
  Proof.
    intros l e x ex Hle Hx.
    assert (Hin : In (x, mkEdge (earrow e) (emap ex)) (concat (sgroups p a))).
    { rewrite ss_sgroups. apply in_concat. exists (part_of (l, e)). split; [now apply in_map|]. unfold part_of. cbn [fst snd]. apply in_map_iff. exists (x, ex). auto. }
    unfold edge_named. rewrite (In_mfind_nodup (legs3 p a) x (mkEdge (xorb (is_fermi && mem_name x (a_reversed a)) (earrow e)) (emap ex))); [reflexivity| |].
    - unfold legs3. rewrite combine_map_fst; [rewrite ss_names2; exact Hnd|]. unfold edges3, rev2. rewrite map_length, combine_length, map_length. unfold names2, edges2. rewrite !map_length. lia.
    - unfold legs3, edges3, rev2, names2, edges2. revert Hin. generalize (concat (sgroups p a)) as c. clear. intros c Hin. induction c as [|[y ey] c IH]; [destruct Hin|]. cbn [map fst snd combine].
      destruct Hin as [Hin|Hin]; [left; injection Hin as -> ->|right; now apply IH]. destruct (is_fermi && mem_name x (a_reversed a)); [|now destruct (earrow e)]. now destruct (earrow e).
  Qed.
  Lemma ss_in : forall n, In n (a_new_names a) -> exists l e ex, In (l, e) le /\ In (n, ex) l.
  Proof.
    intros n Hn. apply (Permutation_in _ (Permutation_sym Hperm)) in Hn. apply in_map_iff in Hn as [[n' ex] [Hn Hin]]. cbn [fst] in Hn. subst n'.
    apply in_concat in Hin as [l [Hl Hin]]. rewrite <- ss_fst in Hl. apply in_map_iff in Hl as [[l' e] [Hl Hle]]. cbn [fst] in Hl. subst l'. exists l, e, ex. auto.
  Qed.
  Theorem split_some : exists r re, edge_operator E p a = Ok r /\ wf_tensor r /\ t_names r = a_new_names a /\
    re = map (edge_named (legs3 p a)) (a_new_names a) /\
    t_edges r = prune_from (t_blocks r) 0 re /\ map fst (t_blocks r) = map fst (block_list (maps_of re)) /\
    forall pos pt, assigns pos (map fst (concat pl)) pt -> in_range (concat (map lmaps pl)) pt -> ssum (map fst pt) = szero ->
      let kept := forallb (fun x => kp (fst x) (snd x) (total (map (coord pos) (map fst (fst x))))) le in
      let src := map (fun l => fuse (lmaps l) (map (coord pos) (map fst l))) pl in
      valid_pt (t_core r) (map (coord pos) (a_new_names a)) /\
      (kept = true -> valid_pt (t_core p) src /\ exists v, elem (t_core p) src = Some v /\ elem (t_core r) (map (coord pos) (a_new_names a)) = Some (signed ropp (sign_number p a pos) v)) /\
      (kept = false -> is_nosym = false -> elem (t_core r) (map (coord pos) (a_new_names a)) = Some rzero).
  Proof.
    destruct (edge_operator_named E p a ss_pre Hren) as [r [re [H1 [H2 [H3 [H4 [H5 [H6 [H7 [H8 H9]]]]]]]]]].
    { replace (is_nil (a_split a)) with false; [now rewrite andb_false_r|]. destruct (a_split a); [congruence|reflexivity]. }
    assert (Hre : re = map (edge_named (legs3 p a)) (a_new_names a)).
    { rewrite (nil_groups a Hmerge) in H4. clear H5 H6. revert re H4. generalize (a_new_names a) as ns. induction ns as [|n ns IH]; intros re H4; inversion H4 as [|? e ? re' G1 G2]; subst; [reflexivity|].
      cbn [map]. f_equal; [exact (ge_one _ _ _ _ _ G1 n eq_refl)|now apply IH]. }
    exists r, re. do 6 (split; [assumption|]).
    intros pos pt Ha Hr Hz kp0 src. rewrite ss_names2, ss_maps2 in H7. destruct (H7 pos pt Ha Hr Hz) as [V1 [V2 V3]].
    assert (Hdst : map (merged_coord (legs p a) (a_merge a) pos) (a_new_names a) = map (coord pos) (a_new_names a)) by (rewrite Hmerge; reflexivity).
    rewrite Hdst in V1, V2, V3.
    assert (Hk : kept p a (map fst pt) = kp0).
    { rewrite (kept_named p a pos pt) by (now rewrite ss_names2). rewrite ss_names1. unfold kp0. fold ne1.
      assert (Hfb : forall A (f : A -> bool) l, forallb f l = forallb (fun b => b) (map f l)) by (induction l as [|x l IH]; cbn [map forallb]; [reflexivity|now rewrite IH]).
      rewrite Hfb, (Hfb _ _ le). f_equal. apply ss_map. intros n l e Hin. unfold keep, parts, kp. cbn [fst snd]. destruct (Hfind n e l Hin) as [->|[-> ->]]; [|reflexivity]. rewrite !map_map. cbn [fst].
      unfold total. rewrite !map_map. now destruct (Nat.leb (length l) 1). }
    assert (Hs : map (src_coord p a pos) (t_names p) = src).
    { unfold src. transitivity (map (fun ne : nat * edge S => src_coord p a pos (fst ne)) ne1).
      { rewrite <- (map_map fst (src_coord p a pos)). unfold ne1. now rewrite combine_map_fst by (symmetry; exact ss_rank1). }
      transitivity (map (fun x : list (nat * edge S) * edge S => fuse (lmaps (fst x)) (map (coord pos) (map fst (fst x)))) le).
      2: { rewrite <- (map_map fst (fun l => fuse (lmaps l) (map (coord pos) (map fst l)))). now rewrite ss_fst. }
      apply ss_map. intros n l e Hin. cbn [fst snd]. unfold src_coord. destruct (Hfind n e l Hin) as [->|[-> ->]].
      - unfold joined. f_equal. unfold lmaps. rewrite map_map. apply map_ext_in. intros [x ex] Hx. cbn [fst snd].
        assert (Hle : In (l, e) le).
        { revert Hin. unfold ne1, le. clear. generalize (t_names p) as ns. generalize (edges1 p a) as es. revert pl. intro pl. induction pl as [|y pl' IH]; intros [|e' es] [|n' ns] H; try contradiction.
          destruct H as [H|H]; [injection H as -> -> ->; now left|]. right. eapply IH; exact H. }
        now rewrite (ss_leg l e x ex Hle Hx).
      - cbn [map fst snd lmaps]. symmetry. apply fuse_one. }
    rewrite Hk in V2, V3. rewrite Hs in V2. split; [exact V1|]. split; [|exact V3].
    intro K. destruct (V2 K) as [v [X1 [X2 X3]]]. split; [exact X2|]. exists v. split; [exact X1|].
    exact X3.
  Qed.
End SplitSome.
