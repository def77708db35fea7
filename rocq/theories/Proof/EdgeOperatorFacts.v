(** edge_operator on general arguments: which element goes where. *)
From Coq Require Import String List Bool Arith Lia Sorted Permutation.
From Verif Require Import Base.Outcome Base.SMap Model.Symmetry Model.Edge Model.Core Model.Transpose Model.EdgeOperator
  Spec.Blocks Spec.Fuse Spec.Strided Proof.SymmetryFacts Proof.LoopFacts Proof.CoreFacts Proof.ElemFacts Proof.OffsetFacts
  Proof.KernelFacts Proof.TransposeFacts Proof.GroupFacts Proof.CopyLoopFacts Proof.TableFacts.
Import ListNotations.

Lemma mapM_Forall2 : forall A B (f : A -> res B) (P : A -> B -> Prop) l,
  (forall x, In x l -> exists y, f x = Ok y /\ P x y) -> exists l', mapM f l = Ok l' /\ Forall2 P l l'.
Proof.
  induction l as [|x l IH]; intro H; [exists []; split; constructor|].
  destruct (H x (or_introl eq_refl)) as [y [E1 P1]]. destruct IH as [l' [E2 P2]]; [intros; apply H; now right|].
  exists (y :: l'). simpl. rewrite E1. simpl. rewrite E2. simpl. split; auto.
Qed.
Lemma Forall2_map_r : forall A B C (P : A -> C -> Prop) (f : B -> C) l1 l2, Forall2 (fun x y => P x (f y)) l1 l2 -> Forall2 P l1 (map f l2).
Proof. induction 1; simpl; constructor; auto. Qed.
Lemma Forall2_map_l : forall A B C (P : C -> B -> Prop) (f : A -> C) l1 l2, Forall2 (fun x y => P (f x) y) l1 l2 -> Forall2 P (map f l1) l2.
Proof. induction 1; simpl; constructor; auto. Qed.
Lemma Forall2_imp : forall A B (P Q : A -> B -> Prop) l1 l2, (forall x y, P x y -> Q x y) -> Forall2 P l1 l2 -> Forall2 Q l1 l2.
Proof. induction 2; constructor; auto. Qed.
Lemma Forall2_and : forall A B (P Q : A -> B -> Prop) l1 l2, Forall2 P l1 l2 -> Forall2 Q l1 l2 -> Forall2 (fun x y => P x y /\ Q x y) l1 l2.
Proof. induction 1; intro H2; inversion H2; subst; constructor; auto. Qed.
Lemma has_dup_NoDup : forall l : list name, NoDup l -> has_dup l = false.
Proof.
  induction 1 as [|x l Hx Hn IH]; [reflexivity|]. simpl. rewrite IH, orb_false_r. apply existsb_false.
  intros y Hy. apply Nat.eqb_neq. intros ->. contradiction.
Qed.
Lemma is_nil_false : forall A (l : list A), is_nil l = false -> l <> [].
Proof. intros A [|]; simpl; congruence. Qed.
Lemma map_group_concat : forall A B (f : A -> B) (l : list (list A)), map f (concat l) = concat (map (map f) l).
Proof. intros. apply concat_map. Qed.
Lemma group_by_map_length : forall A B (groups : list (list B)) (l : list A), length l = length (concat groups) ->
  map (@length A) (group_by groups l) = map (@length B) groups.
Proof.
  induction groups as [|g gs IH]; intros l H; [reflexivity|]. simpl in *. rewrite app_length in H. f_equal.
  - rewrite firstn_length. lia.
  - apply IH. rewrite skipn_length. lia.
Qed.
Lemma Forall_group_by : forall A B (P : A -> Prop) (groups : list (list B)) (l : list A), Forall P l -> Forall (Forall P) (group_by groups l).
Proof.
  induction groups as [|g gs IH]; intros l H; constructor.
  - apply Forall_forall. intros x Hx. rewrite Forall_forall in H. apply H. rewrite <- (firstn_skipn (length g) l). apply in_or_app. now left.
  - apply IH. apply Forall_forall. intros x Hx. rewrite Forall_forall in H. apply H. rewrite <- (firstn_skipn (length g) l). apply in_or_app. now right.
Qed.

Section Main.
  Context {S R : Type} {SS : Sym S} {SL : SymLaws S} {RR : Scalar R}.
  Notation entry := (S * nat)%type.
  Variable E : @env R.

  (** ** merging one group *)
  Lemma fix_arrows_spec : forall (es : list (edge S)) arrow es' fl ar, fix_arrows arrow es = (es', fl, ar) ->
    map emap es' = map emap es /\ length fl = length es /\
    (arrow <> None \/ existsb arrow_valid es = true -> ar <> None).
  Proof.
    induction es as [|e es IH]; intros arrow es' fl ar H; simpl in H.
    - injection H as <- <- <-. split; [reflexivity|]. split; [reflexivity|]. intros [H|H]; [auto|discriminate].
    - destruct (arrow_valid e) eqn:V.
      + destruct arrow as [b|].
        * destruct (fix_arrows (Some b) es) as [[es2 fl2] ar2] eqn:F. apply IH in F as [F1 [F2 F3]].
          destruct (Bool.eqb b (earrow e)); injection H as <- <- <-; simpl; rewrite F1, F2; split; auto; split; auto;
            intros _; apply F3; left; discriminate.
        * destruct (fix_arrows (Some (earrow e)) es) as [[es2 fl2] ar2] eqn:F. apply IH in F as [F1 [F2 F3]].
          injection H as <- <- <-; simpl; rewrite F1, F2; split; auto; split; auto. intros _; apply F3; left; discriminate.
      + destruct (fix_arrows arrow es) as [[es2 fl2] ar2] eqn:F. apply IH in F as [F1 [F2 F3]].
        injection H as <- <- <-; simpl; rewrite F1, F2; split; auto; split; auto. intros [H|H]; apply F3; auto.
        right. simpl in H. now rewrite V in H.
  Qed.

  Definition arrow_known (es : list (edge S)) : Prop :=
    is_fermi = true -> env_arrow E <> None \/ length es = 1 \/ existsb arrow_valid es = true.

  Lemma merge_one_ok : forall es : list (edge S), sorted_maps (maps_of es) -> arrow_known es ->
    exists es' fl e off, merge_one E es = Ok (es', fl, e, off) /\ maps_of es' = maps_of es /\ length fl = length es /\
      merged_map (maps_of es) (emap e) /\ tab_rel (keep_all (maps_of es)) off.
  Proof.
    intros es Hs Ha. unfold merge_one.
    set (x := if is_fermi then fix_arrows None es else (es, map (fun _ => false) es, None)).
    assert (HX : let '(es', fl, ar) := x in maps_of es' = maps_of es /\ length fl = length es /\
       (is_fermi = true -> existsb arrow_valid es = true -> ar <> None)).
    { unfold x. destruct is_fermi eqn:F.
      - destruct (fix_arrows None es) as [[es' fl] ar] eqn:FA. apply fix_arrows_spec in FA as [A [B C]]. auto.
      - split; [reflexivity|]. split; [apply map_length|discriminate]. }
    clearbody x. destruct x as [[es' fl] ar]. destruct HX as [Hm [Hf Har]].
    destruct (merge_offsets_ok (maps_of es) Hs) as [o [m [Ho [Ht [Hms Hmf]]]]].
    assert (HL : length es' = length es) by (unfold maps_of in Hm; rewrite <- (map_length emap es'), Hm, map_length; reflexivity).
    assert (Gen : length es <> 1 -> exists es'' fl' e off,
      bind (merge_offsets (map emap es')) (fun om =>
        bind (if is_fermi then get_or_ub (match ar with Some a => Some a | None => env_arrow E end) else Ok false) (fun arrow =>
        Ok (es', fl, mkEdge arrow (snd om), fst om))) = Ok (es'', fl', e, off) /\ maps_of es'' = maps_of es /\ length fl' = length es /\
      merged_map (maps_of es) (emap e) /\ tab_rel (keep_all (maps_of es)) off).
    { intro Hne. fold (maps_of es'). rewrite Hm, Ho. cbn [bind].
      assert (HA : exists ab, (if is_fermi then get_or_ub (match ar with Some a => Some a | None => env_arrow E end) else Ok false) = Ok ab).
      { destruct is_fermi eqn:F; [|eauto]. destruct (Ha F) as [H|[H|H]]; [|lia|].
        - destruct ar; simpl; eauto. destruct (env_arrow E); [simpl; eauto|congruence].
        - specialize (Har eq_refl H). destruct ar; [simpl; eauto|congruence]. }
      destruct HA as [ab ->]. cbn [bind fst snd]. exists es', fl, (mkEdge ab m), o. split; auto. split; auto. split; auto.
      split; [split; auto|]. right. split; auto. cbn [keep_all fst]. unfold maps_of. rewrite map_length. exact Hne. }
    destruct es' as [|e [|e2 es']].
    - apply Gen. simpl in HL. lia.
    - exists [e], fl, e, []. split; auto. split; auto. split; auto. split.
      + rewrite <- Hm. apply merged_map_one. rewrite <- Hm in Hs. now inversion Hs.
      + left. split; [|reflexivity]. cbn [keep_all fst]. rewrite <- Hm. reflexivity.
    - apply Gen. simpl in HL. lia.
  Qed.

  (** ** the stages before the copy loop *)
  Variable t : tensor S R.
  Variable a : @eo_args S.

  Definition names1 : list name := map (rename_one (a_rename a)) (t_names t).
  Definition edges1 : list (edge S) := map (fun ne => cut_edge (a_cut a) (fst ne) (snd ne)) (combine (t_names t) (t_edges t)).
  Definition parts (ne : name * edge S) : list (name * edge S) :=
    match mfind (fst ne) (a_split a) with
    | Some ps => map (fun p => (fst p, mkEdge (earrow (snd ne)) (emap (snd p)))) ps
    | None => [ne]
    end.
  Definition keep (ne : name * edge S) : S -> bool :=
    match mfind (fst ne) (a_split a) with
    | Some ps => if Nat.leb (length ps) 1 then fun _ => true else fun s => mmem s (emap (snd ne))
    | None => fun _ => true
    end.
  Definition sgroups : list (list (name * edge S)) := map parts (combine names1 edges1).
  Definition mks : list gk := map (fun ne => (map (fun x => emap (snd x)) (parts ne), keep ne)) (combine names1 edges1).
  Definition gms : list (list (list entry)) := map fst mks.
  Definition names2 : list name := map fst (concat sgroups).
  Definition edges2 : list (edge S) := map snd (concat sgroups).
  Definition rev2 : list bool := map (fun n => is_fermi && mem_name n (a_reversed a)) names2.
  Definition edges3 : list (edge S) :=
    map (fun re => if fst re : bool then mkEdge (negb (earrow (snd re))) (emap (snd re)) else snd re) (combine rev2 edges2).
  Definition groups : list (list name) := merge_groups (a_merge a) (a_new_names a).
  Definition no_table : bool := negb (negb (is_nil (a_split a)) || (is_fermi && negb (is_nil (a_reversed a)))).


  Lemma cut_map_find : forall cut (m : list entry) s, mfind s (cut_map cut m) =
    match mfind s m with
    | None => None
    | Some d => match mfind s cut with
                | Some nd => if Nat.eqb nd 0 then None else Some (if Nat.ltb nd d then nd else d)
                | None => Some d
                end
    end.
  Proof.
    intros cut m s. induction m as [|[s' d] m IH]; [reflexivity|]. unfold cut_map. cbn [flat_map fst snd mfind]. fold (cut_map cut m).
    destruct (eqb s s') eqn:E1.
    - apply eqb_eq in E1. subst s'. destruct (mfind s cut) as [nd|] eqn:E2.
      + destruct (Nat.eqb nd 0) eqn:E3.
        * cbn [app]. rewrite IH. destruct (mfind s m); reflexivity.
        * cbn [app mfind]. now rewrite eqb_refl.
      + cbn [app mfind]. now rewrite eqb_refl.
    - destruct (mfind s' cut) as [nd|]; [destruct (Nat.eqb nd 0)|]; cbn [app mfind]; rewrite ?E1; exact IH.
  Qed.
  Lemma cut_map_keys : forall cut (m : list entry), exists f, map fst (cut_map cut m) = filter f (map fst m).
  Proof.
    intros cut m. exists (fun s => match mfind s cut with Some nd => negb (Nat.eqb nd 0) | None => true end).
    induction m as [|[s d] m IH]; [reflexivity|]. unfold cut_map. cbn [flat_map fst snd map filter]. fold (cut_map cut m).
    destruct (mfind s cut) as [nd|]; [destruct (Nat.eqb nd 0)|]; cbn [negb app map fst]; rewrite IH; reflexivity.
  Qed.
  Lemma cut_map_sorted : forall cut (m : list entry), msorted m -> msorted (cut_map cut m).
  Proof.
    intros cut m H. unfold msorted. destruct (cut_map_keys cut m) as [f ->].
    pose proof (StronglySorted_filter_map S S (fun x y => cmp x y = Lt) (fun x => x) f (map fst m)) as K.
    rewrite map_id in K. specialize (K H). now rewrite map_id in K.
  Qed.
  Lemma cut_fit : forall cut (m : list entry), msorted m -> fit ([cut_map cut m], fun _ => true) m.
  Proof.
    intros cut m Hs s _ Hex. cbn [fst] in *.
    assert (Hc := cut_map_sorted cut m Hs). destruct (merged_map_one (cut_map cut m) Hc) as [_ HM]. specialize (HM s).
    rewrite Hex in HM. rewrite cut_map_find in HM. destruct (mfind s m) as [d|]; [|discriminate]. exists d. split; auto.
    destruct (mfind s cut) as [nd|]; [|injection HM as <-; lia]. destruct (Nat.eqb nd 0); [discriminate|].
    injection HM as <-. destruct (Nat.ltb_spec nd d); lia.
  Qed.

  (** every edge before splitting is a cut of a source edge *)
  Lemma edges1_rel : wf_tensor t -> Forall2 (fun e e0 => msorted (emap e) /\ fit ([emap e], fun _ => true) (emap e0)) edges1 (t_edges t).
  Proof.
    intro W. unfold edges1. pose proof (wf_rank _ W) as HL. pose proof (wf_maps _ (wf_tcore _ W)) as Hs. fold (t_edges t) in Hs. unfold sorted_maps, maps_of in Hs.
    revert HL Hs. generalize (t_names t). induction (t_edges t) as [|e es IH]; intros [|n ns] HL Hs; simpl in *; try discriminate; constructor.
    - inversion Hs; subst. unfold cut_edge. destruct (mfind n (a_cut a)) as [cut|].
      + split; [now apply cut_map_sorted|now apply cut_fit].
      + split; auto. pose proof (merged_map_fit _ _ (merged_map_one (emap e) H1)) as K. exact K.
    - apply IH; [lia|now inversion Hs].
  Qed.


  (** group by group conditions are enough for [pre_fit] *)
  Lemma fits_keys : wf_tensor t ->
    (forall n e e0 ps, In ((n, e), e0) (combine (combine names1 edges1) (t_edges t)) -> mfind n (a_split a) = Some ps ->
       fit (map (fun p => emap (snd p)) ps, keep (n, e)) (emap e0)) ->
    forall key ds, dims_of (concat gms) key = Some ds -> ssum key = szero -> all_kept mks (group_by gms key) = true ->
      Forall2 key_fit (combine mks (group_by gms key)) (maps_of (t_edges t)).
  Proof.
    intros W HF key ds Hd _ HK.
    assert (HFit : Forall2 fit mks (maps_of (t_edges t))).
    { unfold mks, maps_of. apply Forall2_map_l, Forall2_map_r.
      assert (L1 : length names1 = length (t_edges t)) by (unfold names1; rewrite map_length; apply W).
      pose proof (edges1_rel W) as HR. clear HK Hd. revert HF L1. generalize names1 as ns.
      induction HR as [|e e0 es es0 Hr HR IH]; intros [|n ns] HF L1; simpl in *; try discriminate; constructor.
      - unfold parts. cbn [fst snd]. destruct (mfind n (a_split a)) as [ps|] eqn:Eps.
        + specialize (HF n e e0 ps (or_introl eq_refl) Eps). rewrite map_map. cbn [snd emap]. exact HF.
        + unfold keep. cbn [fst]. rewrite Eps. simpl. apply Hr.
      - apply IH; [|lia]. intros. apply HF; auto. }
    pose proof (dims_groups _ _ _ Hd) as G. revert HK G. generalize (group_by gms key) as gks. unfold gms. clear Hd HF.
    induction HFit as [|mk m mks ms Hf H IH]; intros gks HK G; inversion G; subst; cbn [combine]; constructor.
    - unfold all_kept in HK. cbn [combine forallb fst snd] in HK. apply andb_true_iff in HK as [K1 _].
      unfold key_fit. cbn [fst snd]. destruct H2 as [ds' Hds]. exact (Hf _ K1 (tuple_exists _ _ _ Hds)).
    - apply IH; auto. unfold all_kept in HK. cbn [combine forallb fst snd] in HK. now apply andb_true_iff in HK as [_ K2].
  Qed.

  Record eo_pre : Prop := {
    pre_wf : wf_tensor t;
    pre_sorted : forall n ps, mfind n (a_split a) = Some ps -> Forall (fun p => msorted (emap (snd p))) ps;
    pre_fit : forall key ds, dims_of (concat gms) key = Some ds -> ssum key = szero -> all_kept mks (group_by gms key) = true ->
      Forall2 key_fit (combine mks (group_by gms key)) (maps_of (t_edges t));
    pre_names : NoDup names2;
    pre_perm : Permutation names2 (concat groups);
    pre_new : NoDup (a_new_names a);
    pre_arrow : is_fermi = true -> a_merge a <> [] -> env_arrow E <> None \/
      forall l, In l groups -> length l = 1 \/ exists n e, In n l /\ In (n, e) (concat sgroups) /\ arrow_valid e = true;
    pre_cut : no_table = true -> Forall2 (fun e e0 => map fst (emap e) = map fst (emap e0)) edges1 (t_edges t) }.

  Hypothesis Hpre : eo_pre.

  Lemma len1 : length names1 = length (t_edges t).
  Proof. unfold names1. rewrite map_length. apply Hpre. Qed.
  Lemma len2 : length edges1 = length (t_edges t).
  Proof. unfold edges1. rewrite map_length, combine_length, (wf_rank _ (pre_wf Hpre)). lia. Qed.
  Lemma src_sorted : sorted_maps (maps_of (t_edges t)).
  Proof. apply Hpre. Qed.

  Lemma split_ok : exists sr, mapM (split_one (a_split a)) (combine names1 edges1) = Ok sr /\
    map fst sr = sgroups /\ Forall2 tab_rel mks (map snd sr).
  Proof.
    assert (HF : forall ne, In ne (combine names1 edges1) ->
      exists y, split_one (a_split a) ne = Ok y /\ (fst y = parts ne /\
        tab_rel (map (fun x => emap (snd x)) (parts ne), keep ne) (snd y))).
    { intros [n e] HI. unfold split_one, parts, keep. cbn [fst snd].
      destruct (mfind n (a_split a)) as [ps|] eqn:Eps.
      - pose proof (pre_sorted Hpre n ps Eps) as Hps.
        assert (Hmm : map (fun x : name * edge S => emap (snd x)) (map (fun p : name * edge S => (fst p, mkEdge (earrow e) (emap (snd p)))) ps)
                      = map (fun p => emap (snd p)) ps) by (rewrite map_map; reflexivity).
        assert (Hsm : sorted_maps (map (fun p => emap (snd p)) ps)) by (unfold sorted_maps; now apply Forall_map).
        destruct (list_eq_dec Nat.eq_dec (map (fun _ => 0) ps) []) as [Z|NZ].
        + destruct ps; [|discriminate]. unfold split_offsets. simpl. eexists. split; [reflexivity|]. split; [reflexivity|].
          right. split; [discriminate|]. cbn [fst snd]. split; [repeat constructor|].
          intro key. cbn [tuples existsb]. rewrite orb_false_r. unfold total. cbn [map]. cbn [mfind].
          rewrite eqb_sym. destruct (eqb [] key) eqn:Ek; [|reflexivity]. apply eqb_eq in Ek. subst key.
          change (ssum []) with (@szero S SS). cbn [andb]. unfold merged_offset. simpl.
          unfold ltb. simpl. rewrite andb_false_r. reflexivity.
        + assert (Hne : map (fun p : name * edge S => emap (snd p)) ps <> []) by (destruct ps; [now exfalso; apply NZ|discriminate]).
          destruct (split_offsets_ok (emap e) _ Hsm Hne) as [o [Ho Ht]]. rewrite Ho. cbn [bind].
          eexists. split; [reflexivity|]. cbn [fst snd]. split; [reflexivity|]. rewrite Hmm.
          destruct (Nat.leb_spec (length ps) 1) as [E1|E1].
          * left. cbn [fst snd]. rewrite map_length. split; [destruct ps as [|? [|? ?]]; simpl in *; [congruence|reflexivity|lia]|auto].
          * right. cbn [fst snd]. rewrite map_length. split; [lia|auto].
      - eexists. split; [reflexivity|]. cbn [fst snd]. split; [reflexivity|]. left. split; reflexivity. }
    destruct (mapM_Forall2 _ _ _ _ _ HF) as [sr [H1 H2]]. exists sr. split; auto. split.
    - unfold sgroups. clear H1 HF. induction H2 as [|ne y l l' [Hy _] H IH]; [reflexivity|]. simpl. now rewrite Hy, IH.
    - unfold mks. apply Forall2_map_r, Forall2_map_l. eapply Forall2_imp; [|exact H2]. intros x y [_ H]. exact H.
  Qed.

  Lemma gms_eq : gms = map (map (fun x => emap (snd x))) sgroups.
  Proof. unfold gms, mks, sgroups. rewrite !map_map. reflexivity. Qed.
  Lemma gms_sorted : Forall sorted_maps gms.
  Proof.
    rewrite gms_eq. unfold sgroups. rewrite map_map. apply Forall_map. apply Forall_forall. intros [n e] HI.
    unfold parts. cbn [fst snd]. destruct (mfind n (a_split a)) as [ps|] eqn:Eps.
    - rewrite map_map. cbn [snd emap]. unfold sorted_maps. apply Forall_map. exact (pre_sorted Hpre n ps Eps).
    - simpl. constructor; [|constructor]. apply in_combine_r in HI.
      pose proof (edges1_rel (pre_wf Hpre)) as H. clear - H HI. induction H; [contradiction|]. destruct HI as [->|HI]; [apply H|auto].
  Qed.
  Lemma flat_maps : concat gms = maps_of edges2.
  Proof. rewrite gms_eq. unfold edges2, maps_of. rewrite map_map, <- concat_map. reflexivity. Qed.
  Lemma len_names2 : length names2 = length (concat gms).
  Proof. rewrite flat_maps. unfold names2, edges2, maps_of. now rewrite !map_length. Qed.
  Lemma len_edges2 : length edges2 = length names2.
  Proof. unfold names2, edges2. now rewrite !map_length. Qed.
  Lemma edges3_maps : maps_of edges3 = maps_of edges2.
  Proof.
    unfold edges3, maps_of. rewrite map_map.
    assert (HL : length rev2 = length edges2) by (unfold rev2; now rewrite map_length, len_edges2).
    revert HL. generalize rev2. induction edges2 as [|e es IH]; intros [|b bs] HL; simpl in *; try discriminate; auto.
    rewrite IH by lia. destruct b; reflexivity.
  Qed.
  Lemma edges3_arrow_valid : map arrow_valid edges3 = map arrow_valid edges2.
  Proof.
    unfold edges3. rewrite map_map.
    assert (HL : length rev2 = length edges2) by (unfold rev2; now rewrite map_length, len_edges2).
    revert HL. generalize rev2. induction edges2 as [|e es IH]; intros [|b bs] HL; simpl in *; try discriminate; auto.
    rewrite IH by lia. destruct b; reflexivity.
  Qed.

  Lemma rank_ok : length names2 = length (concat groups).
  Proof. apply Permutation_length. apply Hpre. Qed.

  Lemma singles_concat : forall A (l : list A), concat (map (fun x => [x]) l) = l.
  Proof. induction l; simpl; congruence. Qed.
  Lemma nil_groups : a_merge a = [] -> groups = map (fun n => [n]) (a_new_names a).
  Proof. intro H. unfold groups, merge_groups. rewrite H. reflexivity. Qed.

  (** ** after the plan *)
  Variable d2s : list nat.
  Let s2d := invert_plan d2s.
  Hypothesis Hplans : inverse_plans (length names2) s2d d2s.
  Hypothesis Hnames : concat groups = permuted 0 d2s names2.

  Definition edges4 : list (edge S) := map (fun i => nth i edges3 (mkEdge false [])) d2s.
  Definition gmd : list (list (list entry)) := group_by groups (permuted [] d2s (concat gms)).

  Lemma edges4_maps : maps_of edges4 = permuted [] d2s (concat gms).
  Proof.
    unfold edges4, maps_of, permuted. rewrite map_map. rewrite flat_maps, <- edges3_maps. unfold maps_of.
    apply map_ext. intro j. symmetry. change (@nil entry) with (emap (@mkEdge S false [])). apply map_nth.
  Qed.
  Lemma gmd_edges : gmd = map maps_of (group_by groups edges4).
  Proof. unfold gmd. rewrite <- edges4_maps. unfold maps_of. apply map_group_by. Qed.
  Lemma len_d2s : length d2s = length (concat groups).
  Proof. rewrite <- rank_ok. apply Hplans. Qed.
  Lemma concat_gmd : concat gmd = permuted [] d2s (concat gms).
  Proof. unfold gmd. apply concat_group_by. rewrite permuted_length. apply len_d2s. Qed.
  Lemma gmd_lengths : map (@length (list entry)) gmd = map (@length name) groups.
  Proof. unfold gmd. apply group_by_map_length. rewrite permuted_length. apply len_d2s. Qed.
  Lemma permuted_Forall : forall A (P : A -> Prop) d plan l, Forall P l -> P d -> Forall P (permuted d plan l).
  Proof.
    intros A P d plan l H Hd. unfold permuted. apply Forall_map, Forall_forall. intros j _.
    destruct (nth_in_or_default j l d) as [HI| ->]; auto. rewrite Forall_forall in H. auto.
  Qed.
  Lemma gmd_sorted : Forall sorted_maps gmd.
  Proof.
    unfold gmd. apply Forall_group_by. apply permuted_Forall; [|constructor]. apply Forall_concat. exact gms_sorted.
  Qed.

  Definition merge_stage : res (list (list (edge S) * list bool * edge S * offset_map)) :=
    if is_nil (a_merge a) then Ok (map (fun e => ([e], [false], e, [])) edges4)
    else mapM (merge_one E) (group_by groups edges4).

  Lemma arrow_groups : a_merge a <> [] -> forall es, In es (group_by groups edges4) -> arrow_known es.
  Proof.
    intros Hm es HI Hf. destruct (pre_arrow Hpre Hf Hm) as [H|H]; [now left|right].
    (* the position of es *)
    assert (HG : forall (gs : list (list name)) l es (ns : list name), length ns = length (concat gs) -> length l = length ns ->
       concat gs = ns -> In es (group_by gs l) -> exists g, In g gs /\ length es = length g /\
         forall n, In n g -> exists (e : edge S), In e es /\ In (n, e) (combine ns l)).
    { clear. induction gs as [|g gs IH]; intros l es ns L1 L2 Hc HI; [contradiction|].
      simpl in *. subst ns. rewrite app_length in *. destruct HI as [<-|HI].
      - exists g. split; [now left|]. split; [rewrite firstn_length; lia|]. intros n Hn.
        rewrite <- (firstn_skipn (length g) l).
        assert (HL : length (firstn (length g) l) = length g) by (rewrite firstn_length; lia).
        revert HL. generalize (firstn (length g) l) as f, (skipn (length g) l) as r.
        clear - Hn. induction g as [|m g IH]; intros [|x f] r HL; simpl in *; try discriminate; [contradiction|].
        destruct Hn as [->|Hn]; [exists x; auto|]. destruct (IH Hn f r) as [e [H1 H2]]; [lia|]. exists e. auto.
      - destruct (IH (skipn (length g) l) es (concat gs)) as [g' [G1 [G2 G3]]]; auto; [rewrite skipn_length; lia|].
        exists g'. split; [now right|]. split; auto. intros n Hn. destruct (G3 n Hn) as [e [H1 H2]]. exists e. split; auto.
        rewrite <- (firstn_skipn (length g) l).
        assert (HL : length (firstn (length g) l) = length g) by (rewrite firstn_length; lia).
        revert HL H2. generalize (firstn (length g) l) as f, (skipn (length g) l) as r. clear. induction g as [|m g IH]; intros [|x f] r HL H2; simpl in *; try discriminate; auto. }
    assert (Le4 : length edges4 = length (concat groups)) by (unfold edges4; rewrite map_length; apply len_d2s).
    destruct (HG groups edges4 es (concat groups) eq_refl Le4 eq_refl HI) as [g [G1 [G2 G3]]].
    destruct (H g G1) as [H1|[n [e [Hn [He Hv]]]]]; [left; lia|right].
    destruct (G3 n Hn) as [e' [E1 E2]]. apply existsb_exists. exists e'. split; auto.
    (* e' is the arrow-fixed version of the edge named n *)
    apply (In_nth _ _ (0, mkEdge false [])) in E2 as [i [Hi Ei]].
    rewrite combine_length in Hi. rewrite combine_nth in Ei by (symmetry; exact Le4). injection Ei as En Ee.
    assert (Hi2 : i < length d2s) by (rewrite len_d2s; lia).
    unfold edges4 in Ee. rewrite (nth_indep _ _ (nth 0 edges3 (mkEdge false []))) in Ee by (now rewrite map_length).
    rewrite (map_nth (fun i => nth i edges3 (mkEdge false []))) in Ee.
    rewrite Hnames in En. unfold permuted in En. rewrite (nth_indep _ _ (nth 0 names2 0)) in En by (now rewrite map_length).
    rewrite (map_nth (fun i => nth i names2 0)) in En.
    destruct Hplans as [P1 [P2 [P3 P4]]]. destruct (P4 i) as [Hb _]; [lia|].
    apply (In_nth _ _ (0, mkEdge false [])) in He as [k [Hk Ek]].
    assert (Nk : nth k names2 0 = n).
    { unfold names2. change 0 with (fst (0, @mkEdge S false [])). rewrite map_nth. exact (f_equal fst Ek). }
    assert (Kl : k < length names2) by (unfold names2; now rewrite map_length).
    assert (k = nth i d2s 0). { apply (proj1 (NoDup_nth names2 0) (pre_names Hpre)); auto. congruence. }
    subst k.
    assert (AV : nth (nth i d2s 0) (map arrow_valid edges3) false = true).
    { rewrite edges3_arrow_valid. change false with (arrow_valid (@mkEdge S false [])) at 1. rewrite map_nth.
      unfold edges2. change (@mkEdge S false []) with (snd (0, @mkEdge S false [])) at 1. rewrite map_nth. transitivity (arrow_valid e); [|exact Hv]. f_equal. exact (f_equal snd Ek). }
    change false with (arrow_valid (@mkEdge S false [])) in AV at 1. rewrite map_nth in AV. now rewrite <- Ee.
  Qed.

  Lemma merge_stage_ok : exists mr, merge_stage = Ok mr /\
    concat (map (fun x => maps_of (fst (fst (fst x)))) mr) = concat gmd /\
    Forall2 (fun maps x => merged_map maps (emap (snd (fst x)))) gmd mr /\
    (a_merge a <> [] -> Forall2 tab_rel (map keep_all gmd) (map snd mr)) /\ length mr = length gmd.
  Proof.
    unfold merge_stage. destruct (is_nil (a_merge a)) eqn:En.
    - assert (Hnil : a_merge a = []) by (destruct (a_merge a); [reflexivity|discriminate]).
      assert (Eg : gmd = map (fun m => [m]) (permuted [] d2s (concat gms))).
      { unfold gmd. rewrite (nil_groups Hnil).
        assert (HL : length (permuted [] d2s (concat gms)) = length (a_new_names a)).
        { rewrite permuted_length, len_d2s, (nil_groups Hnil), singles_concat. reflexivity. }
        revert HL. generalize (permuted [] d2s (concat gms)), (a_new_names a). clear.
        intros l ns. revert l. induction ns as [|n ns IH]; intros [|x l] HL; simpl in *; try discriminate; auto. f_equal. apply IH. lia. }
      eexists. split; [reflexivity|]. rewrite !map_map. cbn [fst snd].
      assert (Hs : Forall msorted (permuted [] d2s (concat gms))).
      { apply permuted_Forall; [|constructor]. apply Forall_concat. exact gms_sorted. }
      split; [|split; [|split]].
      + rewrite Eg, singles_concat. rewrite <- edges4_maps. unfold maps_of. cbn [map].
        clear. induction edges4 as [|e es IH]; simpl; [reflexivity|]. f_equal. exact IH.
      + rewrite Eg. rewrite <- edges4_maps in *. unfold maps_of in *. rewrite map_map. apply Forall2_map_l, Forall2_map_r.
        cbn [fst snd]. rewrite Forall_map in Hs. clear - Hs SL. induction Hs; constructor; auto. now apply merged_map_one.
      + congruence.
      + rewrite Eg, !map_length, permuted_length. unfold edges4. now rewrite map_length.
    - assert (Hm : a_merge a <> []) by (now apply is_nil_false).
      destruct (mapM_Forall2 _ _ (merge_one E) (fun es x => maps_of (fst (fst (fst x))) = maps_of es /\
          merged_map (maps_of es) (emap (snd (fst x))) /\ tab_rel (keep_all (maps_of es)) (snd x)) (group_by groups edges4)) as [mr [H1 H2]].
      { intros es HI. assert (Hs : sorted_maps (maps_of es)).
        { pose proof gmd_sorted as G. rewrite gmd_edges in G. rewrite Forall_map, Forall_forall in G. auto. }
        destruct (merge_one_ok es Hs (arrow_groups Hm es HI)) as [es' [fl [e [off [A [B [C [D F]]]]]]]].
        exists (es', fl, e, off). cbn [fst snd]. auto. }
      exists mr. split; auto. rewrite gmd_edges. split; [|split; [|split]].
      + clear H1. induction H2 as [|es x l l' [A _] H IH]; [reflexivity|]. cbn [map concat]. now rewrite A, IH.
      + apply Forall2_map_l. eapply Forall2_imp; [|exact H2]. intros es x [_ [B _]]. exact B.
      + intros _. rewrite map_map. apply Forall2_map_l, Forall2_map_r. eapply Forall2_imp; [|exact H2]. intros es x [_ [_ B]]. exact B.
      + rewrite map_length. symmetry. eapply Forall2_len; eauto.
  Qed.
End Main.
