(** edge_operator calls that split every leg of a bosonic tensor and do nothing else (the last step of contract and trace). *)
From Coq Require Import String List Bool Arith Lia Sorted Permutation.
From Verif Require Import Base.Outcome Base.SMap Model.Symmetry Model.Edge Model.Core Model.Transpose Model.EdgeOperator
  Spec.Blocks Spec.Fuse Spec.Sign Spec.Relabel Proof.SymmetryFacts Proof.LoopFacts Proof.CoreFacts Proof.ConstructFacts Proof.ElemFacts Proof.OffsetFacts
  Proof.GroupFacts Proof.TableFacts Proof.EdgeOperatorFacts Proof.EdgeOperatorMain Proof.NamedOperator Proof.TransposeFacts Proof.TransposeTensor Proof.TransposeNames Proof.LegFacts Proof.SignFacts Proof.ExchangeFacts.
Import ListNotations.

Lemma Forall2_unmap_l : forall A B C (P : C -> B -> Prop) (f : A -> C) l1 l2, Forall2 P (map f l1) l2 -> Forall2 (fun x y => P (f x) y) l1 l2.
Proof. induction l1 as [|x l1 IH]; intros l2 H; inversion H; subst; constructor; auto. Qed.

Section SplitAll.
  Context {S R : Type} {SS : Sym S} {SL : SymLaws S} {RR : Scalar R}.
  Notation entry := (S * nat)%type.
  Hypothesis Nf : @is_fermi S SS = false.

  Definition lmaps (l : list (nat * edge S)) : list (list entry) := map (fun x => emap (snd x)) l.
  Definition kp (l : list (nat * edge S)) (e : edge S) (s : S) : bool := if Nat.leb (length l) 1 then true else mmem s (emap e).

  Variables (E : @env R) (p : tensor S R) (pl : list (list (nat * edge S))) (a : @eo_args S).
  Hypothesis W : wf_tensor p.
  Hypothesis Hlen : length pl = length (t_names p).
  Hypothesis Hren : a_rename a = [].
  Hypothesis Hmerge : a_merge a = [].
  Hypothesis Hcut : a_cut a = [].
  Hypothesis Hne : a_split a <> [].
  Hypothesis Hfind : forall n ps, In (n, ps) (combine (t_names p) pl) -> mfind n (a_split a) = Some ps.
  Hypothesis Honly : forall n ps, mfind n (a_split a) = Some ps -> In ps pl.
  Hypothesis Hnew : a_new_names a = map fst (concat pl).
  Hypothesis Hnd : NoDup (map fst (concat pl)).
  Hypothesis Hsort : forall l, In l pl -> Forall (fun x => msorted (emap (snd x))) l.
  Hypothesis Hfit : forall gks, Forall2 (fun l k => exists ds, dims_of (lmaps l) k = Some ds) pl gks -> ssum (concat gks) = szero ->
    (forall l e k, In ((l, e), k) (combine (combine pl (t_edges p)) gks) -> kp l e (ssum k) = true) ->
    Forall2 (fun lk e => exists d, mfind (ssum (snd lk)) (emap e) = Some d /\ merged_dim (lmaps (fst lk)) (ssum (snd lk)) <= d) (combine pl gks) (t_edges p).

  Let le := combine pl (t_edges p).
  Lemma sa_rank : length pl = length (t_edges p).
  Proof. rewrite Hlen. apply W. Qed.
  Lemma sa_map : forall (A : Type) (f : nat * edge S -> A) (g : list (nat * edge S) * edge S -> A),
    (forall n l e, In (n, l) (combine (t_names p) pl) -> f (n, e) = g (l, e)) -> map f (combine (t_names p) (t_edges p)) = map g le.
  Proof.
    unfold le. intros A f g. pose proof Hlen as L1. pose proof sa_rank as L2. clear - L1 L2. revert L1 L2. generalize (t_names p) as ns. generalize (t_edges p) as es. revert pl.
    intro pl. induction pl as [|l pl' IH]; intros [|e es] [|n ns] L1 L2 H; simpl in *; try discriminate; [reflexivity|]. f_equal; [apply H; now left|]. apply IH; auto.
  Qed.
  Lemma sa_names1 : names1 p a = t_names p.
  Proof. now apply named_names1. Qed.
  Lemma sa_edges1 : edges1 p a = t_edges p.
  Proof. now apply plain_edges1. Qed.
  Definition part_of (x : list (nat * edge S) * edge S) : list (nat * edge S) := map (fun q => (fst q, mkEdge (earrow (snd x)) (emap (snd q)))) (fst x).
  Lemma sa_sgroups : sgroups p a = map part_of le.
  Proof. unfold sgroups. rewrite sa_names1, sa_edges1. apply sa_map. intros n l e H. unfold parts, part_of. cbn [fst snd]. now rewrite (Hfind n l H). Qed.
  Lemma sa_mks : mks p a = map (fun x => (lmaps (fst x), kp (fst x) (snd x))) le.
  Proof.
    unfold mks. rewrite sa_names1, sa_edges1. apply sa_map. intros n l e H. unfold parts, keep, kp. cbn [fst snd]. rewrite (Hfind n l H), map_map. cbn [snd emap].
    f_equal. now destruct (Nat.leb (length l) 1).
  Qed.
  Lemma sa_fst : map fst le = pl.
  Proof. apply combine_map_fst. apply sa_rank. Qed.
  Lemma sa_gms : gms p a = map lmaps pl.
  Proof. unfold gms. rewrite sa_mks, map_map. cbn [fst]. rewrite <- sa_fst. now rewrite map_map. Qed.
  Lemma sa_names2 : names2 p a = map fst (concat pl).
  Proof.
    unfold names2. rewrite sa_sgroups. rewrite <- sa_fst. rewrite !concat_map, !map_map. f_equal. apply map_ext. intro x. unfold part_of. now rewrite map_map.
  Qed.
  Lemma sa_maps2 : maps_of (edges2 p a) = concat (map lmaps pl).
  Proof.
    unfold maps_of, edges2. rewrite sa_sgroups. rewrite <- sa_fst. rewrite !concat_map, !map_map. f_equal. apply map_ext. intro x. unfold part_of, lmaps. now rewrite !map_map.
  Qed.
  Lemma sa_groups : concat (groups a) = map fst (concat pl).
  Proof. rewrite (nil_groups a Hmerge), Hnew. apply singles_concat. Qed.

  Lemma sa_sign : a_apply_parity a = false -> a_ex_split a = [] -> a_ex_rev a = [] -> a_ex_rev_merge a = [] -> a_ex_merge a = [] ->
    forall pos, Nat.odd (sign_number p a pos) = false.
  Proof.
    intros H1 H2 H3 H4 H5 pos. rewrite sign_plain by assumption. rewrite sa_names2, sa_groups, exchanged_self by exact Hnd.
    rewrite (par_false _ _ (map fst (concat pl))); [|intros n _; rewrite H3; cbn [mem_name existsb]; now rewrite andb_false_r].
    rewrite par_false; [reflexivity|]. intros nl _. rewrite H5. reflexivity.
  Qed.
  Lemma sa_pre : eo_pre E p a.
  Proof.
    constructor.
    - exact W.
    - intros n ps H. apply Hsort. eapply Honly; eauto.
    - intros key ds Hd Hz Hk. rewrite sa_gms in *. rewrite sa_mks in *. unfold all_kept in Hk.
      pose proof (dims_groups _ _ _ Hd) as G. apply Forall2_unmap_l in G.
      assert (HL : length key = length (concat (map lmaps pl))) by (apply dims_of_length in Hd; tauto).
      specialize (Hfit (group_by (map lmaps pl) key)). rewrite concat_group_by in Hfit by exact HL. specialize (Hfit G Hz).
      revert Hk Hfit G. generalize (group_by (map lmaps pl) key) as gks. unfold le, maps_of. pose proof sa_rank as L. clear - L. revert L. generalize (t_edges p) as es. revert pl.
      intro pl. induction pl as [|l pl' IH]; intros [|e es] L gks Hk H G; inversion G; subst; simpl in L; try discriminate; cbn [combine map] in *; [constructor|].
      cbn [forallb fst snd] in Hk. apply andb_true_iff in Hk as [K1 K2].
      assert (X : Forall2 (fun (lk : list (nat * edge S) * list S) e0 => exists d, mfind (ssum (snd lk)) (emap e0) = Some d /\ merged_dim (lmaps (fst lk)) (ssum (snd lk)) <= d)
                    ((l, y) :: combine pl' l') (e :: es)).
      { apply H. intros l0 e0 k [Hin|Hin]; [injection Hin as <- <- <-; exact K1|]. rewrite forallb_forall in K2.
        assert (Hin2 : In ((lmaps l0, kp l0 e0), k) (combine (map (fun x => (lmaps (fst x), kp (fst x) (snd x))) (combine pl' es)) l')).
        { clear - Hin. revert Hin. generalize (combine pl' es) as c. intro c. revert l'. induction c as [|x c IH]; intros [|y l'] H; try contradiction.
          destruct H as [H|H]; [injection H as -> ->; now left|]. right. now apply IH. }
        exact (K2 _ Hin2). }
      inversion X as [|? ? ? ? X1 X2]; subst. constructor; [exact X1|]. apply IH; auto.
    - rewrite sa_names2. exact Hnd.
    - rewrite sa_names2, sa_groups. reflexivity.
    - rewrite Hnew. exact Hnd.
    - intros _ H. congruence.
    - intros _. rewrite sa_edges1. apply Forall2_same. auto.
  Qed.

  Lemma sa_arrows : forall re, Forall2 (group_edge E p a) (groups a) re ->
    Forall2 (fun n e => exists l e0, In (l, e0) le /\ In n (map fst l) /\ earrow e = xorb (is_fermi && mem_name n (a_reversed a)) (earrow e0)) (map fst (concat pl)) re.
  Proof.
    intros re H. rewrite (nil_groups a Hmerge), Hnew in H.
    assert (HN : forall n, In n (map fst (concat pl)) -> exists l e0, In (l, e0) le /\ In n (map fst l) /\
       earrow (edge_named (legs3 p a) n) = xorb (is_fermi && mem_name n (a_reversed a)) (earrow e0)).
    { intros n Hn. rewrite <- sa_names2 in Hn. unfold names2 in Hn. apply in_map_iff in Hn as [[n' e] [Hnn Hin]]. cbn [fst] in Hnn. subst n'.
      assert (Hin' := Hin). rewrite sa_sgroups in Hin'. apply in_concat in Hin' as [q [Hq Hin']]. apply in_map_iff in Hq as [[l e0] [<- Hle]].
      unfold part_of in Hin'. cbn [fst snd] in Hin'. apply in_map_iff in Hin' as [[x ex] [Hx Hxl]]. cbn [fst snd] in Hx. injection Hx as -> <-.
      exists l, e0. split; [exact Hle|]. split; [apply in_map_iff; exists (n, ex); auto|].
      unfold edge_named. rewrite (In_mfind_nodup (legs3 p a) n (if is_fermi && mem_name n (a_reversed a) then mkEdge (negb (earrow e0)) (emap ex) else mkEdge (earrow e0) (emap ex))).
      - now destruct (is_fermi && mem_name n (a_reversed a)), (earrow e0).
      - unfold legs3. rewrite combine_map_fst; [rewrite sa_names2; exact Hnd|]. unfold edges3, rev2. rewrite map_length, combine_length, map_length. unfold names2, edges2. rewrite !map_length. lia.
      - unfold legs3, edges3, rev2, names2, edges2. revert Hin. generalize (concat (sgroups p a)) as c. clear. intros c Hin. induction c as [|[y ey] c IH]; [destruct Hin|]. cbn [map fst snd combine].
        destruct Hin as [Hin|Hin]; [left; injection Hin as -> ->|right; now apply IH]. now destruct (is_fermi && mem_name n (a_reversed a)). }
    revert re H HN. generalize (map fst (concat pl)) as ns. induction ns as [|n ns IH]; intros re H HN; inversion H as [|? e ? re' G1 G2]; subst; constructor.
    - rewrite (ge_one _ _ _ _ _ G1 n eq_refl). apply HN. now left.
    - apply IH; [exact G2|]. intros; apply HN. now right.
  Qed.
  Theorem split_all_signed : exists r re, edge_operator E p a = Ok r /\ wf_tensor r /\ t_names r = map fst (concat pl) /\
    maps_of re = concat (map lmaps pl) /\ t_edges r = prune_from (t_blocks r) 0 re /\ map fst (t_blocks r) = map fst (block_list (concat (map lmaps pl))) /\
    Forall2 (fun n e => exists l e0, In (l, e0) le /\ In n (map fst l) /\ earrow e = xorb (is_fermi && mem_name n (a_reversed a)) (earrow e0)) (map fst (concat pl)) re /\
    forall pos pt, assigns pos (map fst (concat pl)) pt -> in_range (concat (map lmaps pl)) pt -> ssum (map fst pt) = szero ->
      let kept := forallb (fun x => kp (fst x) (snd x) (total (map (coord pos) (map fst (fst x))))) (combine pl (t_edges p)) in
      let src := map (fun l => fuse (lmaps l) (map (coord pos) (map fst l))) pl in
      valid_pt (t_core r) pt /\
      (kept = true -> valid_pt (t_core p) src /\ exists v, elem (t_core p) src = Some v /\ elem (t_core r) pt = Some (signed ropp (sign_number p a pos) v)) /\
      (kept = false -> is_nosym = false -> elem (t_core r) pt = Some rzero).
  Proof.
    destruct (edge_operator_named E p a sa_pre Hren) as [r [re [H1 [H2 [H3 [H4 [H5 [H6 [H7 [H8 H9]]]]]]]]]].
    { replace (is_nil (a_split a)) with false; [now rewrite andb_false_r|]. destruct (a_split a); [congruence|reflexivity]. }
    assert (Hre : maps_of re = concat (map lmaps pl)).
    { rewrite <- sa_maps2. rewrite <- (flat_maps p a), <- (legs_maps E p a sa_pre). rewrite (nil_groups a Hmerge), Hnew, <- sa_names2 in H4.
      assert (Hso : forall n, In n (names2 p a) -> msorted (emap (edge_named (legs p a) n))).
      { intros n Hn. pose proof (legs_maps E p a sa_pre) as L. rewrite flat_maps, sa_maps2 in L.
        assert (Hin : In (emap (edge_named (legs p a) n)) (concat (map lmaps pl))) by (rewrite <- L; apply in_map_iff; eauto).
        apply in_concat in Hin as [x [Hx Hin]]. apply in_map_iff in Hx as [l [<- Hl]]. unfold lmaps in Hin. apply in_map_iff in Hin as [y [<- Hy]].
        specialize (Hsort l Hl). rewrite Forall_forall in Hsort. now apply Hsort. }
      clear H1 H2 H3 H5 H6 H7 H8 H9. revert Hso H4. generalize (names2 p a) as ns. intros ns Hso. unfold maps_of. revert re. induction ns as [|n ns IH]; intros re H4; inversion H4 as [|? e ? re' G1 G2]; subst; [reflexivity|]. cbn [map]. f_equal.
      - pose proof (ge_map _ _ _ _ _ G1) as [M1 M2]. cbn [map] in M2. destruct (merged_map_one _ (Hso n (or_introl eq_refl))) as [_ M3]. apply msorted_ext; [exact M1|apply Hso; now left|]. intro s. rewrite M2. symmetry. apply M3.
      - apply IH; [intros; apply Hso; now right|exact G2]. }
    exists r, re. split; [exact H1|]. split; [exact H2|]. split; [now rewrite H3|].
    split; [exact Hre|]. split; [exact H5|]. split; [now rewrite <- Hre|].
    split; [exact (sa_arrows re H4)|].
    intros pos pt Ha Hr Hz kp0 src. rewrite sa_names2, sa_maps2 in H7. destruct (H7 pos pt Ha Hr Hz) as [V1 [V2 V3]].
    assert (Hdst : map (merged_coord (legs p a) (a_merge a) pos) (a_new_names a) = pt).
    { rewrite Hmerge, Hnew. symmetry. now apply (assigns_coord pos). }
    rewrite Hdst in V1, V2, V3.
    assert (Hk : kept p a (map fst pt) = kp0).
    { rewrite (kept_named p a pos pt) by (now rewrite sa_names2). rewrite sa_names1, sa_edges1. unfold kp0. fold le.
      assert (Hfb : forall A (f : A -> bool) l, forallb f l = forallb (fun b => b) (map f l)) by (induction l as [|x l IH]; cbn [map forallb]; [reflexivity|now rewrite IH]).
      rewrite Hfb, (Hfb _ _ le). f_equal. apply sa_map. intros n l e Hin. unfold keep, parts, kp. cbn [fst snd]. rewrite (Hfind n l Hin), !map_map. cbn [fst].
      unfold total. rewrite !map_map. now destruct (Nat.leb (length l) 1). }
    assert (Hs : map (src_coord p a pos) (t_names p) = src).
    { unfold src. transitivity (map (fun ne : nat * list (nat * edge S) => fuse (lmaps (snd ne)) (map (coord pos) (map fst (snd ne)))) (combine (t_names p) pl)).
      - transitivity (map (fun ne : nat * list (nat * edge S) => src_coord p a pos (fst ne)) (combine (t_names p) pl)).
        { rewrite <- (map_map fst (src_coord p a pos)). now rewrite combine_map_fst by (symmetry; exact Hlen). }
        apply map_ext_in. intros [n l] Hin. cbn [fst snd]. unfold src_coord. rewrite (Hfind n l Hin). unfold joined. f_equal.
        assert (Hl : In l pl) by (now apply in_combine_r in Hin).
        unfold lmaps. rewrite map_map. apply map_ext_in. intros [x e] Hx. cbn [fst snd].
        assert (Hll : exists e', In (l, e') le).
        { unfold le. pose proof sa_rank as L. clear - L Hl. revert L Hl. generalize (t_edges p) as es. revert pl. intro pl. induction pl as [|y pl' IH]; intros [|e es] L Hl; simpl in L; try discriminate; [destruct Hl|].
          destruct Hl as [->|Hl]; [exists e; now left|]. destruct (IH es) as [e' He']; auto. exists e'. now right. }
        destruct Hll as [e' He'].
        assert (Hleg : In (x, mkEdge (earrow e') (emap e)) (legs p a)).
        { unfold legs. rewrite sa_sgroups. apply in_concat. exists (part_of (l, e')). split; [now apply in_map|]. unfold part_of. cbn [fst snd].
          apply in_map_iff. exists (x, e). auto. }
        unfold edge_named. rewrite (In_mfind_nodup (legs p a) x (mkEdge (earrow e') (emap e))); [reflexivity| |exact Hleg].
        change (map fst (legs p a)) with (names2 p a). rewrite sa_names2. exact Hnd.
      - rewrite <- (map_map snd (fun l => fuse (lmaps l) (map (coord pos) (map fst l)))). now rewrite combine_map_snd by (symmetry; exact Hlen). }
    rewrite Hk in V2, V3. rewrite Hs in V2. split; [exact V1|]. split; [|exact V3].
    intro K. destruct (V2 K) as [v [X1 [X2 X3]]]. split; [exact X2|]. exists v. split; [exact X1|].
    exact X3.
  Qed.
  Theorem split_all : exists r re, edge_operator E p a = Ok r /\ wf_tensor r /\ t_names r = map fst (concat pl) /\
    maps_of re = concat (map lmaps pl) /\ t_edges r = prune_from (t_blocks r) 0 re /\ map fst (t_blocks r) = map fst (block_list (concat (map lmaps pl))) /\
    forall pos pt, assigns pos (map fst (concat pl)) pt -> in_range (concat (map lmaps pl)) pt -> ssum (map fst pt) = szero ->
      let kept := forallb (fun x => kp (fst x) (snd x) (total (map (coord pos) (map fst (fst x))))) (combine pl (t_edges p)) in
      let src := map (fun l => fuse (lmaps l) (map (coord pos) (map fst l))) pl in
      valid_pt (t_core r) pt /\
      (kept = true -> valid_pt (t_core p) src /\ exists v, elem (t_core p) src = Some v /\ elem (t_core r) pt = Some v) /\
      (kept = false -> is_nosym = false -> elem (t_core r) pt = Some rzero).
  Proof.
    destruct split_all_signed as [r [re [H1 [H2 [H3 [H4 [H5 [H6 [_ H7]]]]]]]]]. exists r, re. do 6 (split; [assumption|]).
    intros pos pt Ha Hr Hz kp0 src. destruct (H7 pos pt Ha Hr Hz) as [V1 [V2 V3]]. fold kp0 src in V2, V3. split; [exact V1|]. split; [|exact V3].
    intro K. destruct (V2 K) as [X1 [v [X2 X3]]]. split; [exact X1|]. exists v. split; [exact X2|]. rewrite (sign_bose p a pos Nf) in X3. exact X3.
  Qed.
End SplitAll.
